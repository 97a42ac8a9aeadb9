(** * Kernels and Limber spectra in floating point *)
From Coquelicot Require Import Coquelicot.
From Verif Require Import FinRules FinBg FinGrowth FinTransfer FinPower FinHalofit.
From Verif Require Import Np NpLemmas Core Ode OdeSpec OdeProofs Interp InterpProofs InterpCont Integrate IntegrateSpec RombProofs Background BgSpec BgAlgebra BgTables
  BgGrowth BgPositive BgProofs BgFinal BgFinal2 BgFinal4 BgGrad Transfer TransferProofs TransferMono Power PowerProofs ExPower Redshift RedshiftProofs Bias Probes AngularCl GradSpec
  Ad AdSpec AdProofs AdBg AdFinal AdPower AdPowerFinal AdProbes AdRel AdProbesProofs AdProbesFinal AdArrSpec AdNuis AdNuisProofs AdNuisSpec AdNuisNz AdNuisBack AdNuisFinal FinNz.
From Coq Require Import FunctionalExtensionality.
Opaque chi_table growth_table_ODE growth_table_gamma logspace.

Section Floats.
Context {Nm : Type} {N : num Nm} {FLN : floats N}.
Local Notation rd := (fl_rd (N := N)).
(** the cosmology at time t, the probes at time t; all parameters finite *)
Definition fl_cosmo (t : R) (g : gcosmo Nm) : cosmology :=
  make_cosmology (fl_at t (gOmega_c g)) (fl_at t (gOmega_b g)) (fl_at t (gh g)) (fl_at t (gn_s g)) (fl_at t (gsigma8 g)) (fl_at t (gOmega_k g))
    (fl_at t (gw0 g)) (fl_at t (gwa g)) (option_map (fl_at t) (ggamma g)).
Definition fl_params (g : gcosmo Nm) : Prop :=
  fl_ok (gOmega_c g) /\ fl_ok (gOmega_b g) /\ fl_ok (gh g) /\ fl_ok (gn_s g) /\ fl_ok (gsigma8 g) /\ fl_ok (gOmega_k g) /\ fl_ok (gw0 g) /\ fl_ok (gwa g) /\
  match ggamma g with Some v => fl_ok v | None => True end.
Definition fl_bias (b : gbias Nm) : Prop :=
  match b with gconstant_linear_bias b => fl_ok b | ginverse_growth_linear_bias b => fl_ok b | gdes_y1_ia_bias am eta z0 => fl_ok am /\ fl_ok eta /\ fl_ok z0 end.
Definition fl_bias_arg (b : gbias_arg Nm) : Prop := match b with GOneBias b => fl_bias b | GBiasList l => forall b, In b l -> fl_bias b end.
Definition fl_m (m : gm_arg Nm) : Prop := match m with GMScalar x => fl_ok x | GMList l => forall x, In x l -> fl_ok x end.
Definition fl_probe (p : gprobe Nm) : Prop :=
  (forall d, In d (gbins_of p) -> fl_nz d) /\
  match p with
  | GPWL q => fl_m (gwl_m q) /\ match gwl_ia q with Some b => fl_bias_arg b | None => True end
  | GPNC q => fl_bias_arg (gnc_bias q)
  end.
Definition fl_probes (t : R) (S : list (gprobe Nm)) : list probe := map (read_probe (fl_at t)) S.

Lemma fl_at_zero x : fl_at 0 x = fl_v x. Proof. unfold fl_at, fl_v. ring. Qed.
Lemma fl_leaf x : fl_ok x -> fin_of (fun s => fl_at s x) 0 x.
Proof.
  intros F. split; [ exact F | ]. unfold tangent_of, fl_at. cbn [fst snd]. split; [ ring | ]. auto_derive; [ exact I | ring ].
Qed.
Lemma fl_built t g : built (fl_cosmo t g). Proof. reflexivity. Qed.
Lemma fl_moves g : fl_params g -> fin_moves (fun t => fl_cosmo t g) 0 g.
Proof.
  intros (H1 & H2 & H3 & H4 & H5 & H6 & H7 & H8 & H9). unfold fin_moves.
  split; [ intros s; split; [ apply built_fresh, fl_built | reflexivity ] | ].
  repeat split; try (match goal with |- fl_ok _ => assumption end); try (now apply fl_leaf).
  destruct (ggamma g) as [v | ] eqn:E; [ | intros s; unfold fl_cosmo, make_cosmology; cbn [_gamma]; now rewrite E ].
  exists (fun s => fl_at s v). split; [ intros s; unfold fl_cosmo, make_cosmology; cbn [_gamma]; now rewrite E | now apply fl_leaf ].
Qed.
(** ** reading rd parameters *)
Lemma read_plain (v : dual -> R) d : read_nz v (nz_map rd d) = read_nz (fun x => v (rd x)) d. Proof. apply read_gm. Qed.
Lemma read_plain_bias (v : dual -> R) b : read_bias v (bias_map rd b) = read_bias (fun x => v (rd x)) b. Proof. now destruct b. Qed.
Lemma read_plain_arg (v : dual -> R) b : read_bias_arg v (bias_arg_map rd b) = read_bias_arg (fun x => v (rd x)) b.
Proof. destruct b as [b | l]; cbn; [ now rewrite read_plain_bias | ]. rewrite map_map. f_equal. apply map_ext. intros. apply read_plain_bias. Qed.
Lemma read_plain_m (v : dual -> R) b : read_m v (m_map rd b) = read_m (fun x => v (rd x)) b.
Proof. destruct b as [b | l]; cbn; [ reflexivity | ]. now rewrite map_map. Qed.
Lemma read_plain_probe (v : dual -> R) p : read_probe v (probe_map rd p) = read_probe (fun x => v (rd x)) p.
Proof.
  assert (E : forall l, map (read_nz v) (map (nz_map rd) l) = map (read_nz (fun x => v (rd x))) l) by (intros l; rewrite map_map; apply map_ext; intros; apply read_plain).
  destruct p as [[bs m ia se] | [bs b]]; cbn; rewrite E; [ rewrite read_plain_m; destruct ia; cbn; rewrite ?read_plain_arg; reflexivity | now rewrite read_plain_arg ].
Qed.
Lemma values_plain S : values (map (probe_map rd) S) = map (read_probe fl_v) S.
Proof. unfold values. rewrite map_map. apply map_ext. intros p. apply (read_plain_probe fst). Qed.
Lemma fl_v_at : fl_at 0 = fl_v. Proof. apply functional_extensionality. apply fl_at_zero. Qed.
Lemma probes_0 S : fl_probes 0 S = values (map (probe_map rd) S). Proof. rewrite values_plain. unfold fl_probes. now rewrite fl_v_at. Qed.
Lemma plain_delta d : gis_delta ((nz_map rd) d) = gis_delta d. Proof. now destruct d as [[ | | | ] ? ?]. Qed.
Lemma plain_zmax d : gnz_zmax ((nz_map rd) d) = gnz_zmax d. Proof. now destruct d. Qed.
Lemma plain_z0 d : hdelta_z0 num_dual ((nz_map rd) d) = rd (hdelta_z0 N d). Proof. destruct d as [[ | | | ] ? ?]; try reflexivity; symmetry; apply (proj2 (fl_cst 0)). Qed.
Lemma fl_z0 d : fl_nz d -> fl_ok (hdelta_z0 N d).
Proof. destruct d as [[ | | | ] ? ?]; intros [H _]; try apply (proj1 (fl_cst 0)). exact H. Qed.

Lemma no_gamma G t : _gamma (fl_cosmo t G) = option_map (fl_at t) (ggamma G). Proof. reflexivity. Qed.
Lemma fjit_curve G : _gamma (fl_cosmo 0 G) = None -> forall s, cosmo_jit (fl_cosmo s G) = Ok (fl_cosmo s G).
Proof.
  rewrite no_gamma. intros NG s. assert (E : ggamma G = None) by (now destruct (ggamma G)). unfold fl_cosmo. rewrite E. reflexivity.
Qed.
Lemma fjit G : _gamma (fl_cosmo 0 G) = None -> gcosmo_jit G = Ok G.
Proof. rewrite no_gamma. intros NG. assert (E : ggamma G = None) by (now destruct (ggamma G)). unfold gcosmo_jit. now rewrite E. Qed.

(** ** leaves *)
Section Leaves.
Variable (G : gcosmo Nm).
Local Notation C := (fun t => fl_cosmo t G).
Local Notation c := (fl_cosmo 0 G).
Hypotheses (HF : fl_params G) (HE : expanding c) (NG : _gamma c = None) (HP : physical c) (HMo : moderate c).
Let M : fin_moves C 0 G := fl_moves G HF.
Let B : forall s, built (C s) := fun s => fl_built s G.
Local Notation "' x" := (cst N x%R) (at level 1, format "' x").
Variable lens : R -> Prop.
Hypothesis HL : forall b, lens b -> table_node 128 1 <= b <= 1.
Definition fl_far (z0 : Nm) : Prop := fl_ok z0 /\ far_plane c lens (rd z0).
Lemma fl_epoch z0 : z2a (fl_at 0 z0) = 1 / (1 + fl_v z0). Proof. now rewrite fl_at_zero, z2a_eq. Qed.
Lemma fl_epoch_of z0 : fl_ok z0 -> - 1 < fl_v z0 -> fin_of (fun s => z2a (fl_at s z0)) 0 (hz2a N z0).
Proof.
  intros FZ LZ. unfold z2a, hz2a. apply (ft_div 0 (fun _ => 1.0) (fun s => 1.0 + fl_at s z0)); [ rewrite fl_at_zero; lra | apply (ft_cst 0) | ].
  apply (ft_add 0 (fun _ => 1.0)); [ apply (ft_cst 0) | now apply fl_leaf ].
Qed.
Lemma fl_rest z0 : fl_ok z0 -> - 1 < fl_v z0 -> snd (rd z0) = 0 -> fin_of (fun _ => 1 / (1 + fl_v z0)) 0 (hz2a N z0) /\ forall s, z2a (fl_at s z0) = 1 / (1 + fl_v z0).
Proof.
  intros FZ LZ E. assert (EZ : forall s, z2a (fl_at s z0) = 1 / (1 + fl_v z0)) by (intros s; unfold fl_at; rewrite E, Rmult_0_r, Rplus_0_r, z2a_eq; reflexivity).
  split; [ | exact EZ ]. apply (ft_ext 0 (fun s => z2a (fl_at s z0))); [ exact EZ | now apply fl_epoch_of ].
Qed.
Lemma fplane_chi z0 : fl_far z0 -> fin_of (fun s => chi (C s) (z2a (fl_at s z0))) 0 (gchi N G (hz2a N z0)).
Proof.
  intros (FZ & HT & HO & _). unfold plane_ok in HO. change (fst (rd z0)) with (fl_v z0) in *. assert (HA := tabulated_epoch _ HT). assert (P1 := node1_pos). destruct HT as [Z0 _].
  assert (E0 := fl_epoch z0). destruct HO as [E | (Pz & HN & _)].
  - destruct (fl_rest z0 FZ ltac:(lra) E) as [T0 EZ]. apply (ft_ext 0 (fun s => chi (C s) (1 / (1 + fl_v z0)))); [ intros s; cbv beta; now rewrite EZ | ].
    apply (fleaf_chi_at C G M B HE); [ exact T0 | lra ].
  - assert (LT : 1 / (1 + fl_v z0) < 1) by (apply (Rmult_lt_reg_r (1 + fl_v z0)); [ lra | unfold Rdiv; rewrite Rmult_assoc, Rinv_l by lra; lra ]).
    apply (fm_chi C 0 G M HE (fun s => z2a (fl_at s z0)) (hz2a N z0) (fl_epoch_of z0 FZ ltac:(lra))).
    + right. cbv beta. rewrite E0, length_logspace. intros i Hi. change (256 - 2)%nat with 254%nat in Hi. rewrite logspace_el, anode_table by lia. now apply HN.
    + cbv beta. rewrite E0. assert (Q := chi_strict c (1 / (1 + fl_v z0)) 1 (fl_built 0 G) HE (conj LT (Rle_refl 1))). rewrite (chi_one_any c) in Q by (apply built_fresh, fl_built). exact Q.
Qed.
Lemma fplane_dif z0 b : fl_far z0 -> lens b ->
  fin_of (fun s => clip_lo (chi (C s) (z2a (fl_at s z0)) - chi (C s) b) 0) 0 (gclip_lo N (nsub N (gchi N G (hz2a N z0)) (gchi N G 'b)) 0).
Proof.
  intros HX Hb. assert (TX := fplane_chi z0 HX). destruct HX as (FZ & HT & HO & _). unfold plane_ok in HO. change (fst (rd z0)) with (fl_v z0) in *. assert (HA := tabulated_epoch _ HT). assert (P1 := node1_pos). apply HL in Hb as RB. destruct HT as [Z0 _].
  destruct HO as [E | (Pz & _ & HN)].
  - destruct (fl_rest z0 FZ ltac:(lra) E) as [T0 EZ]. apply (ft_ext 0 (fun s => clip_lo (chi (C s) (1 / (1 + fl_v z0)) - chi (C s) b) 0)); [ intros s; cbv beta; now rewrite EZ | ].
    apply (fleaf_dif_at C G M B HE); [ exact T0 | lra | lra ].
  - apply (ft_max 0 (fun s => chi (C s) (z2a (fl_at s z0)) - chi (C s) b) (fun _ => 0)); [ | apply ft_sub; [ exact TX | apply (fleaf_chi C G M B HE); lra ] | apply (ft_cst 0) ].
    cbv beta. rewrite fl_epoch. specialize (HN b Hb).
    destruct (Rtotal_order (1 / (1 + fl_v z0)) b) as [L | [L | L]]; [ | easy | ]; [ pose proof (chi_strict c _ b (fl_built 0 G) HE (conj L (proj2 RB))) | pose proof (chi_strict c b _ (fl_built 0 G) HE (conj L (proj2 HA))) ]; lra.
Qed.
Lemma fplane_clip z0 b : fl_far z0 -> lens b -> fin_of (fun s => clip_lo (chi (C s) (z2a (fl_at s z0))) 1.0) 0 (gclip_lo N (gchi N G (hz2a N z0)) 1.0).
Proof.
  intros HX Hb. apply (ft_max 0 (fun s => chi (C s) (z2a (fl_at s z0))) (fun _ => 1.0)); [ | now apply fplane_chi | apply (ft_cst 0) ].
  cbv beta. rewrite fl_epoch. destruct HX as (_ & _ & _ & X). specialize (X b Hb). change (fst (rd z0)) with (fl_v z0) in X. lra.
Qed.
Lemma fleaf_ia eta z0 q : fl_ok eta -> fl_ok z0 -> 0 <= q -> - 1 < fl_v z0 ->
  fin_of (fun s => rpow ((1.0 + q) / (1.0 + fl_at s z0)) (fl_at s eta)) 0 (npow N (ndiv N '(1.0 + q) (nadd N '1.0 z0)) eta).
Proof.
  intros F1 F2 Hq Hz. assert (T1 : fin_of (fun s => 1.0 + fl_at s z0) 0 (nadd N '1.0 z0)) by (apply (ft_add 0 (fun _ => 1.0)); [ apply (ft_cst 0) | now apply fl_leaf ]).
  apply (ft_pow 0 (fun s => (1.0 + q) / (1.0 + fl_at s z0))); [ rewrite fl_at_zero; apply Rdiv_lt_0_compat; lra | | now apply fl_leaf ].
  apply (ft_div 0 (fun _ => 1.0 + q)); [ rewrite fl_at_zero; lra | apply (ft_cst 0) | exact T1 ].
Qed.
End Leaves.

(** ** conditions on the probes *)
Definition fl_seen (d : gnz Nm) (q : R) : Prop := fl_nz d /\ may_see ((nz_map rd) d) q.
Definition fl_lens G lens (d : gnz Nm) : Prop := fl_far G lens (hdelta_z0 N d).
Definition fl_fair (b : gbias Nm) : Prop := fl_bias b /\ bias_ok ((bias_map rd) b).
Lemma fpz d q : fl_seen d q -> fin_of (fun s => pz (read_nz (fl_at s) d) q) 0 (hpz N d q).
Proof.
  intros (F & H1 & H2 & H3 & H4). rewrite plain_zmax in H1. rewrite read_plain in H2, H4. exact (fl_redshift d q H1 F H2 H3 H4).
Qed.
Lemma fl_cond z src G lens p : fl_probe p -> gprobe_ok (fun _ => True) z src may_see (may_lens (fl_cosmo 0 G) lens) bias_ok ((probe_map rd) p) ->
  gprobe_ok fl_ok z src fl_seen (fl_lens G lens) fl_fair p.
Proof.
  intros [FB FR] HC.
  assert (FA : forall b, fl_bias_arg b -> fair_arg bias_ok ((bias_arg_map rd) b) -> fair_arg fl_fair b).
  { intros [b | l]; cbn [fl_bias_arg bias_arg_map fair_arg].
    - intros H1 H2. now split.
    - intros H1 H2 b Hb. split; [ now apply H1 | exact (H2 _ (in_map _ _ _ Hb)) ]. }
  assert (BO : forall l, (forall d, In d l -> fl_nz d) -> bins_ok z may_see (map (nz_map rd) l) -> bins_ok z fl_seen l).
  { intros l H1 H2 d q Hd ED Hq. split; [ now apply H1 | ]. apply H2; [ now apply in_map | now rewrite plain_delta | exact Hq ]. }
  destruct p as [[bs m ia se] | [bs b]]; cbn [probe_map gprobe_ok gbins_of gwl_bins gwl_m gwl_ia gnc_bins gnc_bias] in *.
  - destruct HC as ((L1 & L2) & _ & HI). destruct FR as [FM FI]. split; [ | split ].
    + split.
      * intros d zm q z' Hd ED Em Hq Hz'. destruct (L1 ((nz_map rd) d) zm q z') as [A1 A2]; [ now apply in_map | now rewrite plain_delta | | exact Hq | exact Hz' | ].
        { rewrite <- Em. f_equal. rewrite map_map. apply map_ext. apply plain_zmax. }
        split; [ exact A1 | split; [ now apply FB | exact A2 ]].
      * intros d Hd ED. split; [ apply fl_z0; now apply FB | ]. rewrite <- plain_z0. apply (L2 ((nz_map rd) d)); [ now apply in_map | now rewrite plain_delta ].
    + destruct m; exact FM.
    + destruct ia; [ | exact I ]. destruct HI as [H1 H2]. split; [ now apply BO | now apply FA ].
  - destruct HC as [H1 H2]. split; [ now apply BO | now apply FA ].
Qed.

(** ** kernels and spectra *)
Section Survey.
Variable (G : gcosmo Nm).
Local Notation C := (fun t => fl_cosmo t G).
Local Notation c := (fl_cosmo 0 G).
Hypotheses (HF : fl_params G) (HE : expanding c) (NG : _gamma c = None) (HP : physical c) (HMo : moderate c).
Let M : fin_moves C 0 G := fl_moves G HF.
Let B : forall s, built (C s) := fun s => fl_built s G.
Lemma fl_kernel (p : gprobe Nm) z ell : fl_probe p ->
  (forall q, In q z -> tabulated q) -> shallow (bins_of (read_probe fst ((probe_map rd) p))) ->
  (forall q a, In q z -> source_epoch (lensing_bins (read_probe fst ((probe_map rd) p))) q a -> chi c a <> 1) ->
  probe_smooth (lenses z) [read_probe fst ((probe_map rd) p)] ((probe_map rd) p) ->
  rr (lr (lr (fun f x => fin_of f 0 x))) (fun t => kernel (read_probe (fl_at t) p) (C t) z ell) (hkernel N p G z ell).
Proof.
  intros FP HZ HS HC HN. assert (P1 := node1_pos).
  assert (RZ : forall q, In q z -> table_node 128 1 <= z2a q <= 1) by (intros q Hq; rewrite z2a_eq; now apply tabulated_epoch, HZ).
  assert (RL : forall b, lenses z b -> table_node 128 1 <= b <= 1) by (intros b (q & Hq & ->); now apply tabulated_epoch, HZ).
  assert (LZ : forall q, In q z -> lenses z (z2a q)) by (intros q Hq; exists q; split; [ exact Hq | apply z2a_eq ]).
  apply (e_kernel N (fun f x => fin_of f 0 x) fl_at fl_ok (fin_respects 0) (ft_cst 0) fl_leaf (ft_add 0) (ft_mul 0) (ft_div 0) C G (fjit_curve G NG) (fjit G NG)
    (fm_Omega_m _ _ _ M) z (fun a => table_node 128 1 <= a <= 1 /\ chi c a <> 1) fl_seen (fl_lens G (lenses z))) with (fair := fl_fair).
  - intros q Hq. specialize (RZ q Hq). apply (fleaf_chi C G M B HE). lra.
  - intros q a Hq [Ha _]. specialize (RZ q Hq). apply (fleaf_dif C G M B HE); lra.
  - intros a [Ha NE]. apply (fleaf_clip C G M B HE); [ lra | exact NE ].
  - apply fpz.
  - intros d0 q Hd Hq. apply (fplane_dif G HF HE (lenses z)); auto.
  - intros d0 q Hd Hq. apply (fplane_clip G HF HE (lenses z)) with (b := z2a q); auto.
  - intros q Hq. apply (fleaf_D C G M B HE NG HP HMo). auto.
  - intros q Hq. apply (fleaf_D0 C B NG HP HMo). auto.
  - intros q Hq. specialize (RZ q Hq). apply (fleaf_H C G M HE). lra.
  - intros am eta z0 q Hq [(F1 & F2 & F3) Hf]. apply fleaf_ia; try assumption. apply (HZ q Hq).
  - intros [b | b | am eta z0] [F _]; try exact F. apply F.
  - apply fl_cond; [ exact FP | ]. apply probe_cond with (probes := [read_probe fst ((probe_map rd) p)]); try assumption; [ | | now left ].
    + intros q Hq. apply lens_tab; auto.
    + intros b (q & Hq & _). now exists q.
Qed.
Lemma fl_spectra (S : list (gprobe Nm)) ells T nl P : let V := values (map (probe_map rd) S) in
  (forall p, In p S -> fl_probe p) ->
  shallow (concat (map bins_of V)) -> off_clip chi c V -> survey_smooth (map (probe_map rd) S) -> (forall l, In l ells -> - 0.5 < l) ->
  (forall b, limber_epoch V b -> forall k kd, fin_of k 0 kd -> 0 < k 0 -> fin_of (fun t => nonlinear_matter_power (C t) (k t) b T nl) 0 (P G kd (cst N b))) ->
  rr (lr (lr (fun f x => fin_of f 0 x))) (fun t => angular_cl (C t) (Array1 ells) (fl_probes t S) T nl) (hangular_cl N G (Array1 ells) S P).
Proof.
  intros V FP HS HC HN HL HK. assert (P1 := node1_pos). set (lens := limber_epoch V) in *.
  assert (RL : forall b, lens b -> table_node 128 1 <= b <= 1) by (intros b; now apply limber_range).
  apply (e_angular_cl N (fun f x => fin_of f 0 x) fl_at fl_ok (fin_respects 0) (ft_cst 0) fl_leaf (ft_add 0) (ft_mul 0) (ft_div 0) C G (fjit_curve G NG) (fjit G NG)
    (fm_Omega_m _ _ _ M) S T nl P lens (fun a => table_node 128 1 <= a <= 1 /\ chi c a <> 1) fl_seen (fl_lens G lens) fl_fair).
  - intros a Ha. apply RL in Ha. apply (fleaf_chi C G M B HE). lra.
  - intros b a Hb [Ha _]. apply RL in Hb. apply (fleaf_dif C G M B HE); lra.
  - intros a [Ha | [Ha NE]]; apply (fleaf_clip C G M B HE); [ apply RL in Ha; lra | now apply HC | lra | exact NE ].
  - intros a Ha. apply (fleaf_clip2 C G M B HE); [ apply RL in Ha; lra | now apply HC ].
  - apply fpz.
  - intros d0 b Hd Hb. apply (fplane_dif G HF HE lens); auto.
  - intros d0 b Hd Hb. apply (fplane_clip G HF HE lens) with (b := b); auto.
  - intros a Ha. apply (fleaf_D C G M B HE NG HP HMo). now apply RL.
  - intros a Ha. apply (fleaf_D0 C B NG HP HMo). now apply RL.
  - intros a Ha. apply RL in Ha. apply (fleaf_H C G M HE). lra.
  - intros a Ha. apply RL in Ha. apply (fleaf_dchi C G M HE). lra.
  - intros am eta z0 b Hb [(F1 & F2 & F3) Hf]. apply fleaf_ia; try assumption. rewrite a2z_eq. apply (redshift_of b (RL b Hb)).
  - intros [b | b | am eta z0] [F _]; try exact F. apply F.
  - intros ells' l E Hl a Ha. injection E as <-. assert (RA := RL a Ha).
    apply (HK a Ha (fun s => (l + 0.5) / clip_lo (chi (C s) a) 1.0)).
    + apply (ft_div 0 (fun _ => l + 0.5)); [ apply clip1_pos | apply (ft_cst 0 (l + 0.5)) | apply (fleaf_clip C G M B HE); [ lra | now apply HC ]].
    + specialize (HL l Hl). apply Rdiv_lt_0_compat; [ lra | ]. unfold clip_lo. pose proof (Rmax_r (chi (C 0) a) 1.0). lra.
  - intros zs zmax E1 E2.
    rewrite <- (@read_zmaxs Nm fl_v) in E1. rewrite <- values_plain in E1. fold V in E1. assert (Hm := probes_deepest _ _ _ E1 E2).
    assert (LI : forall x, In x (limber_nodes zmax) -> lens x) by (intros x Hx; now apply (limber_in _ zmax)). split.
    + intros x Hx. apply LI in Hx. split; [ exact Hx | ]. apply RL in Hx. lra.
    + intros p Hp. assert (IP : In (read_probe fst ((probe_map rd) p)) V) by (unfold V, values; now apply in_map, in_map).
      assert (QZ : forall q, In q (map a2z (limber_nodes zmax)) -> exists b, lens b /\ q = 1 / b - 1).
      { intros q Hq. apply in_map_iff in Hq. destruct Hq as (b & <- & Hb). exists b. split; [ now apply LI | apply a2z_eq ]. }
      apply fl_cond; [ now apply FP | ]. apply probe_cond with (probes := V); try assumption.
      * intros q Hq. destruct (QZ q Hq) as (b & Hb & ->). assert (RB := RL b Hb). split; [ now apply redshift_of | ]. replace (1 / (1 + (1 / b - 1))) with b by (field; lra). exact Hb.
      * intros b _. exists (a2z (nth 0 (limber_nodes zmax) 0)). apply in_map, nth_In. unfold limber_nodes, linspace, tab. rewrite map_length, seq_length. lia.
      * intros d0 Hd0. apply HS. apply in_concat. exists (bins_of (read_probe fst ((probe_map rd) p))). split; [ now apply in_map | exact Hd0 ].
      * intros q a Hq. destruct (QZ q Hq) as (b & Hb & ->). now apply (HC b Hb).
      * apply HN. now apply in_map.
Qed.
End Survey.
End Floats.
