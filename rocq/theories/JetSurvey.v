(** * Second derivatives of kernels and Limber spectra of moving surveys *)
From Coquelicot Require Import Coquelicot.
From Coq Require Import String.
From Verif Require Import FinRules FinBg FinGrowth FinTransfer FinPower FinHalofit.
From Verif Require Import Np NpLemmas Core Sparse SparseSpec Likelihood LikelihoodSpec Ode OdeSpec OdeProofs Interp InterpProofs InterpCont Integrate IntegrateSpec RombProofs Background BgSpec BgAlgebra BgTables
  BgGrowth BgPositive BgProofs BgFinal BgFinal2 BgFinal4 BgGrad Transfer TransferProofs TransferMono Power PowerProofs ExPower Redshift RedshiftProofs Bias Probes ProbesSpec AngularCl GradSpec
  Ad AdSpec AdProofs AdBg AdGrowth AdFinal AdPower AdPowerFinal AdHalofit AdHalofitSpec AdProbes AdRel AdProbesProofs AdProbesFinal AdArrSpec AdNuis AdNuisProofs AdNuisSpec AdNuisNz AdNuisBack AdNuisFinal AdNuisBackFinal
  AdOver JetRules LineSurvey JetSpec JetFinal JetNuisSpec JetNz.
Import ListNotations.
Local Open Scope R_scope.
Opaque chi_table growth_table_ODE growth_table_gamma logspace.
Local Notation NO := (num_over num_dual).
Local Notation jet f z := (jet_of f 0 z).
Local Notation "' x" := (cst NO x%R) (at level 1, format "' x").

(** ** conditions on the probes *)
Definition may_bend (d : gnz dual) (q : R) : Prop := 0 <= gnz_zmax d /\ bend_norm (read_nz fst d) /\ 0 <= q /\ bend_nz false (read_nz fst d) q.
Lemma bends_extended lens probes d : bin_bends lens probes d -> gis_delta d = false -> bend_norm (read_nz fst d) /\ forall z, visited lens probes z -> bend_nz false (read_nz fst d) z.
Proof. unfold bin_bends, gis_delta. destruct (gnz_fam d); intros H1 H2; [ exact H1 | discriminate | exact H1 | exact H1 ]. Qed.
Lemma bends_plane lens probes d : bin_bends lens probes d -> gis_delta d = true -> plane_ok lens (hdelta_z0 num_dual d).
Proof. unfold bin_bends, gis_delta, hdelta_z0. destruct (gnz_fam d); intros H1 H2; [ discriminate | exact H1 | discriminate | discriminate ]. Qed.
Lemma fair_ok b : bias_bends b -> bias_ok b. Proof. destruct b; cbn [bias_bends bias_ok]; tauto. Qed.
Lemma fair_arg_ok b : bias_arg_bends b -> fair_arg bias_ok b.
Proof. destruct b as [b | l]; cbn [bias_arg_bends fair_arg]; [ apply fair_ok | intros H b Hb; now apply fair_ok, H ]. Qed.
Section Cond.
Variables (c : cosmology) (lens : R -> Prop) (probes : list probe) (z : list R).
Hypotheses (HZ : forall q, In q z -> tabulated q /\ lens (1 / (1 + q))) (HY : forall b, lens b -> exists q, In q z).
Lemma bend_cond (p : gprobe dual) : In (read_probe fst p) probes -> shallow (bins_of (read_probe fst p)) ->
  (forall q a, In q z -> source_epoch (lensing_bins (read_probe fst p)) q a -> chi c a <> 1) -> probe_bends lens probes p ->
  gprobe_ok (fun _ => True) z (fun a => table_node 128 1 <= a <= 1 /\ chi c a <> 1) may_bend (may_lens c lens) bias_ok p.
Proof.
  intros Hp HS HC [HB HI].
  assert (ZM : forall d, In d (gbins_of p) -> tabulated (gnz_zmax d)).
  { intros d Hd. rewrite <- (@read_zmax dual fst). apply HS. rewrite read_bins. now apply in_map. }
  assert (NB : bins_ok z may_bend (gbins_of p)).
  { intros d q Hd ED Hq. destruct (bends_extended _ _ _ (HB d Hd) ED) as [H1 H2]. destruct (HZ q Hq) as [[Q1 Q2] Q3]. split; [ apply (ZM d Hd) | split; [ exact H1 | split; [ exact Q1 | ]]].
    apply H2. exists (1 / (1 + q)). split; [ exact Q3 | left ]. now rewrite (back lens z HZ). }
  destruct p as [p | p]; cbn [gprobe_ok gbins_of] in *; [ | split; [ exact NB | now apply fair_arg_ok ] ].
  split; [ | split; [ now destruct (gwl_m p) | revert HI; destruct (gwl_ia p); intros HI; [ split; [ exact NB | now apply fair_arg_ok ] | exact I ]]].
  cbn [read_probe lensing_bins bins_of wl_bins] in *. split.
  - intros d zm q z' Hd ED Em Hq Hz'. apply (in_linspace q zm 256) in Hz'. destruct Hz' as (i & Hi & Ez).
    assert (DM : deepest (map (read_nz fst) (gwl_bins p)) zm) by (apply pymax_deepest; now rewrite (@map_zmax dual fst)).
    replace (INR 256) with 256 in Ez by (rewrite INR_IZR_INZ; reflexivity). destruct (HZ q Hq) as [TQ LQ].
    assert (SE : source_epoch (map (read_nz fst) (gwl_bins p)) q (z2a z')) by (left; exists zm, i; rewrite z2a_eq, Ez; auto).
    assert (Z0 : 0 <= z').
    { rewrite Ez. replace (INR i * ((zm - q) / 256)) with (INR i / INR 256 * (zm - q)) by (replace (INR 256) with 256 by (rewrite INR_IZR_INZ; reflexivity); unfold Rdiv; ring).
      apply (tabulated_mid q zm); [ exact TQ | now apply (deepest_tabulated _ _ HS) | apply frac_range; [ exact Hi | lia ]]. }
    split; [ split; [ exact (source_range _ _ _ HS TQ SE) | now apply (HC q) ] | ].
    destruct (bends_extended _ _ _ (HB d Hd) ED) as [H1 H2]. split; [ apply (ZM d Hd) | split; [ exact H1 | split; [ exact Z0 | ]]].
    apply H2. exists (1 / (1 + q)). split; [ exact LQ | right ]. exists (read_probe fst (GPWL p)), zm, i. rewrite (back lens z HZ) by exact Hq. auto.
  - intros d Hd ED. assert (FD := delta_fam d ED). assert (ID : In (read_nz fst d) (map (read_nz fst) (gwl_bins p))) by now apply in_map.
    split; [ apply (HS _ ID), FD | split; [ exact (bends_plane _ _ _ (HB d Hd) ED) | ]]. intros b Hb. destruct (HY b Hb) as (q & Hq).
    apply (HC q); [ exact Hq | right ]. now exists (read_nz fst d), (fst (hdelta_z0 num_dual d)).
Qed.
End Cond.

(** ** probes whose parameters move on lines *)
Definition lf2 (s : R) (z : dual * dual) : R := at_time s (fst z).
Definition lined (z : dual * dual) : Prop := exists x, z = twice x.
Lemma lf_twice s x : lf2 s (twice x) = at_time s x. Proof. reflexivity. Qed.
Lemma lined_jet z : lined z -> jet (fun s => lf2 s z) z. Proof. intros [x ->]. apply twice_jet. Qed.
Lemma read_twice s d : read_nz (lf2 s) (twice_nz d) = read_nz (at_time s) d. Proof. unfold twice_nz. rewrite read_nz_map. reflexivity. Qed.
Lemma read_twice_probe s p : read_probe (lf2 s) (twice_probe p) = read_probe (at_time s) p. Proof. unfold twice_probe. rewrite read_probe_map. reflexivity. Qed.
Lemma z0_twice d : hdelta_z0 NO (twice_nz d) = twice (hdelta_z0 num_dual d). Proof. now destruct d as [[ | | | ] ? ?]. Qed.
Definition seen2 (d2 : gnz (dual * dual)) (q : R) : Prop := exists d, d2 = twice_nz d /\ may_bend d q.
Definition plane2 c lens (d2 : gnz (dual * dual)) : Prop := exists d, d2 = twice_nz d /\ may_lens c lens d.
Definition fair2 (b2 : gbias (dual * dual)) : Prop := exists b, b2 = bias_map twice b /\ bias_ok b.
Lemma cond_twice c lens z src p : gprobe_ok (fun _ => True) z src may_bend (may_lens c lens) bias_ok p -> gprobe_ok lined z src seen2 (plane2 c lens) fair2 (twice_probe p).
Proof.
  intros HC.
  assert (FA : forall b, fair_arg bias_ok b -> fair_arg fair2 (bias_arg_map twice b)).
  { intros [b | l]; cbn [bias_arg_map fair_arg]; [ intros H; now exists b | ]. intros H b Hb. apply in_map_iff in Hb. destruct Hb as (b' & <- & Hb'). exists b'. split; [ reflexivity | now apply H ]. }
  assert (BO : forall l, bins_ok z may_bend l -> bins_ok z seen2 (map twice_nz l)).
  { intros l H d q Hd ED Hq. apply in_map_iff in Hd. destruct Hd as (d' & <- & Hd'). rewrite twice_delta in ED. exists d'. split; [ reflexivity | now apply H ]. }
  destruct p as [[bs m ia se] | [bs b]]; cbn [twice_probe probe_map gprobe_ok gbins_of gwl_bins gwl_m gwl_ia gnc_bins gnc_bias] in *.
  - destruct HC as ((L1 & L2) & _ & HI). split; [ | split ].
    + split.
      * intros d zm q z' Hd ED Em Hq Hz'. apply in_map_iff in Hd. destruct Hd as (d' & <- & Hd'). change (nz_map twice d') with (twice_nz d') in *. rewrite twice_delta in ED.
        destruct (L1 d' zm q z' Hd' ED) as [A1 A2]; [ | exact Hq | exact Hz' | split; [ exact A1 | now exists d' ] ].
        rewrite <- Em. f_equal. rewrite map_map. apply map_ext. intros x. symmetry. apply twice_zmax.
      * intros d Hd ED. apply in_map_iff in Hd. destruct Hd as (d' & <- & Hd'). change (nz_map twice d') with (twice_nz d') in *. rewrite twice_delta in ED. exists d'. split; [ reflexivity | now apply L2 ].
    + destruct m as [x | l]; cbn [m_map fine_m]; [ now exists x | ]. intros x Hx. apply in_map_iff in Hx. destruct Hx as (x' & <- & _). now exists x'.
    + destruct ia; [ | exact I ]. destruct HI as [H1 H2]. split; [ now apply BO | now apply FA ].
  - destruct HC as [H1 H2]. split; [ now apply BO | now apply FA ].
Qed.

(** ** leaves *)
Section Leaves.
Variables (c : cosmology) (d : direction).
Local Notation C := (displaced c d).
Local Notation G := (twice_cosmo c d d).
Hypotheses (B : built c) (HE : expanding c).
Let M : fin_moves (FLN := jets) C 0 G := jet_moves c d.
Let HB : forall s, built (C s) := fun s => eq_refl.
Let C0 : C 0 = c. Proof. exact (displaced_0 c d B). Qed.
Let HE0 : expanding (C 0). Proof. now rewrite C0. Qed.
Variable lens : R -> Prop.
Hypothesis HL : forall b, lens b -> table_node 128 1 <= b <= 1.
Lemma j_epoch z0 : - 1 < fst z0 -> jet (fun s => z2a (at_time s z0)) (hz2a NO (twice z0)).
Proof.
  intros LZ. unfold z2a, hz2a. apply (j_div 0 (fun _ => 1.0) (fun s => 1.0 + at_time s z0)); [ rewrite at_0; lra | apply (j_cst 0) | ].
  apply (j_add 0 (fun _ => 1.0)); [ apply (j_cst 0) | apply twice_jet ].
Qed.
Lemma epoch_0 z0 : z2a (at_time 0 z0) = 1 / (1 + fst z0). Proof. now rewrite at_0, z2a_eq. Qed.
Lemma j_rest z0 : - 1 < fst z0 -> snd z0 = 0 -> jet (fun _ => 1 / (1 + fst z0)) (hz2a NO (twice z0)) /\ forall s, z2a (at_time s z0) = 1 / (1 + fst z0).
Proof.
  intros LZ E. assert (EZ : forall s, z2a (at_time s z0) = 1 / (1 + fst z0)) by (intros s; unfold at_time; rewrite E, Rmult_0_r, Rplus_0_r, z2a_eq; reflexivity).
  split; [ | exact EZ ]. apply (jet_respects (fun s => z2a (at_time s z0))); [ exact EZ | now apply j_epoch ].
Qed.
Lemma j_plane_chi z0 : far_plane c lens z0 -> jet (fun s => chi (C s) (z2a (at_time s z0))) (gchi NO G (hz2a NO (twice z0))).
Proof.
  intros (HT & HO & _). assert (HA := tabulated_epoch _ HT). assert (P1 := node1_pos). destruct HT as [Z0 _]. assert (E0 := epoch_0 z0). destruct HO as [E | (Pz & HN & _)].
  - destruct (j_rest z0 ltac:(lra) E) as [T0 EZ]. apply (jet_respects (fun s => chi (C s) (1 / (1 + fst z0)))); [ intros s; cbv beta; now rewrite EZ | ].
    apply (fleaf_chi_at (FLN := jets) C G M HB HE0); [ exact T0 | lra ].
  - assert (LT : 1 / (1 + fst z0) < 1) by (apply (Rmult_lt_reg_r (1 + fst z0)); [ lra | unfold Rdiv; rewrite Rmult_assoc, Rinv_l by lra; lra ]).
    apply (fm_chi (FLN := jets) C 0 G M HE0 (fun s => z2a (at_time s z0)) (hz2a NO (twice z0)) (j_epoch z0 ltac:(lra))).
    + right. cbv beta. rewrite E0, length_logspace. intros i Hi. change (256 - 2)%nat with 254%nat in Hi. rewrite logspace_el, anode_table by lia. now apply HN.
    + cbv beta. rewrite E0. assert (Q := chi_strict (C 0) (1 / (1 + fst z0)) 1 (HB 0) HE0 (conj LT (Rle_refl 1))). rewrite (chi_one_any (C 0)) in Q by (apply built_fresh, HB). exact Q.
Qed.
Lemma j_plane_dif z0 b : far_plane c lens z0 -> lens b ->
  jet (fun s => clip_lo (chi (C s) (z2a (at_time s z0)) - chi (C s) b) 0) (gclip_lo NO (nsub NO (gchi NO G (hz2a NO (twice z0))) (gchi NO G 'b)) 0).
Proof.
  intros HX Hb. assert (TX := j_plane_chi z0 HX). destruct HX as (HT & HO & _). assert (HA := tabulated_epoch _ HT). assert (P1 := node1_pos). apply HL in Hb as RB. destruct HT as [Z0 _].
  destruct HO as [E | (Pz & _ & HN)].
  - destruct (j_rest z0 ltac:(lra) E) as [T0 EZ]. apply (jet_respects (fun s => clip_lo (chi (C s) (1 / (1 + fst z0)) - chi (C s) b) 0)); [ intros s; cbv beta; now rewrite EZ | ].
    apply (fleaf_dif_at (FLN := jets) C G M HB HE0); [ exact T0 | lra | lra ].
  - apply (j_max 0 (fun s => chi (C s) (z2a (at_time s z0)) - chi (C s) b) (fun _ => 0));
      [ | apply (j_sub 0 (fun s => chi (C s) (z2a (at_time s z0)))); [ exact TX | apply (fleaf_chi (FLN := jets) C G M HB HE0); lra ] | apply (j_cst 0 0) ].
    cbv beta. rewrite epoch_0. specialize (HN b Hb).
    destruct (Rtotal_order (1 / (1 + fst z0)) b) as [L | [L | L]]; [ | easy | ]; [ pose proof (chi_strict (C 0) _ b (HB 0) HE0 (conj L (proj2 RB))) | pose proof (chi_strict (C 0) b _ (HB 0) HE0 (conj L (proj2 HA))) ]; lra.
Qed.
Lemma j_plane_clip z0 b : far_plane c lens z0 -> lens b -> jet (fun s => clip_lo (chi (C s) (z2a (at_time s z0))) 1.0) (gclip_lo NO (gchi NO G (hz2a NO (twice z0))) 1.0).
Proof.
  intros HX Hb. apply (j_max 0 (fun s => chi (C s) (z2a (at_time s z0))) (fun _ => 1.0)); [ | now apply j_plane_chi | apply (j_cst 0 1.0) ].
  cbv beta. rewrite epoch_0, C0. destruct HX as (_ & _ & X). specialize (X b Hb). lra.
Qed.
Lemma j_ia eta z0 q : 0 <= q -> - 1 < fst z0 ->
  jet (fun s => rpow ((1.0 + q) / (1.0 + at_time s z0)) (at_time s eta)) (npow NO (ndiv NO '(1.0 + q) (nadd NO '1.0 (twice z0))) (twice eta)).
Proof.
  intros Hq Hz. assert (T1 : jet (fun s => 1.0 + at_time s z0) (nadd NO '1.0 (twice z0))) by (apply (j_add 0 (fun _ => 1.0)); [ apply (j_cst 0) | apply twice_jet ]).
  apply (j_pow 0 (fun s => (1.0 + q) / (1.0 + at_time s z0)) (fun s => at_time s eta)); [ rewrite at_0; apply Rdiv_lt_0_compat; lra | | apply twice_jet ].
  apply (j_div 0 (fun _ => 1.0 + q)); [ rewrite at_0; lra | apply (j_cst 0) | exact T1 ].
Qed.
End Leaves.

(** ** kernels and spectra *)
Section Survey.
Variables (c : cosmology) (d : direction).
Local Notation C := (displaced c d).
Local Notation G := (twice_cosmo c d d).
Hypotheses (B : built c) (HE : expanding c) (NG : _gamma c = None) (HP : physical c) (HMo : moderate c).
Let M : fin_moves (FLN := jets) C 0 G := jet_moves c d.
Let HB : forall s, built (C s) := fun s => eq_refl.
Let C0 : C 0 = c. Proof. exact (displaced_0 c d B). Qed.
Let HE0 : expanding (C 0). Proof. now rewrite C0. Qed.
Let HP0 : physical (C 0). Proof. now rewrite C0. Qed.
Let HM0 : moderate (C 0). Proof. now rewrite C0. Qed.
Let NG0 : _gamma (C 0) = None. Proof. exact NG. Qed.
Let HJ : forall s, cosmo_jit (C s) = Ok (C s). Proof. intros s. unfold displaced. rewrite NG. reflexivity. Qed.
Let GJ : gcosmo_jit G = Ok G. Proof. exact (jet_jit c d d NG). Qed.
Lemma seen_pz d0 q : seen2 d0 q -> jet (fun s => pz (read_nz (lf2 s) d0) q) (hpz NO d0 q).
Proof. intros (d' & -> & H1 & H2 & H3 & H4). apply (jet_respects (fun s => pz (read_nz (at_time s) d') q)); [ intros s; now rewrite read_twice | apply j_pz; try assumption; [ now apply norm_weaker | now apply (bend_weaker false) ] ]. Qed.
Lemma fair_lined b : fair2 b -> match b with gconstant_linear_bias b => lined b | ginverse_growth_linear_bias b => lined b | gdes_y1_ia_bias am _ _ => lined am end.
Proof. intros (b' & -> & _). destruct b' as [x | x | x y w]; cbn [bias_map]; now exists x. Qed.
Lemma fair_ia am eta z0 q : 0 <= q -> fair2 (gdes_y1_ia_bias am eta z0) ->
  jet (fun s => rpow ((1.0 + q) / (1.0 + lf2 s z0)) (lf2 s eta)) (npow NO (ndiv NO '(1.0 + q) (nadd NO '1.0 z0)) eta).
Proof.
  intros Hq (b' & E & HO). destruct b' as [x | x | x y w]; cbn [bias_map] in E; try discriminate. injection E as -> -> ->. cbn [bias_ok] in HO.
  apply (jet_respects (fun s => rpow ((1.0 + q) / (1.0 + at_time s w)) (at_time s y))); [ reflexivity | now apply j_ia ].
Qed.
Lemma plane_dif2 (lens : R -> Prop) (HL : forall b, lens b -> table_node 128 1 <= b <= 1) d0 b : plane2 c lens d0 -> lens b ->
  jet (fun s => clip_lo (chi (C s) (z2a (lf2 s (hdelta_z0 NO d0))) - chi (C s) b) 0) (gclip_lo NO (nsub NO (gchi NO G (hz2a NO (hdelta_z0 NO d0))) (gchi NO G 'b)) 0).
Proof. intros (d' & -> & H) Hb. rewrite z0_twice. exact (j_plane_dif c d B HE lens HL (hdelta_z0 num_dual d') b H Hb). Qed.
Lemma plane_clip2 (lens : R -> Prop) d0 b : plane2 c lens d0 -> lens b ->
  jet (fun s => clip_lo (chi (C s) (z2a (lf2 s (hdelta_z0 NO d0)))) 1.0) (gclip_lo NO (gchi NO G (hz2a NO (hdelta_z0 NO d0))) 1.0).
Proof. intros (d' & -> & H) Hb. rewrite z0_twice. exact (j_plane_clip c d B HE lens (hdelta_z0 num_dual d') b H Hb). Qed.

Lemma j_kernel (p : gprobe dual) z ell :
  (forall q, In q z -> tabulated q) -> shallow (bins_of (read_probe fst p)) ->
  (forall q a, In q z -> source_epoch (lensing_bins (read_probe fst p)) q a -> chi c a <> 1) -> probe_bends (lenses z) [read_probe fst p] p ->
  rr (lr (lr (fun f x => jet f x))) (fun t => kernel (read_probe (at_time t) p) (C t) z ell) (hkernel NO (twice_probe p) G z ell).
Proof.
  intros HZ HS HC HN. assert (P1 := node1_pos).
  assert (RZ : forall q, In q z -> table_node 128 1 <= z2a q <= 1) by (intros q Hq; rewrite z2a_eq; now apply tabulated_epoch, HZ).
  assert (RL : forall b, lenses z b -> table_node 128 1 <= b <= 1) by (intros b (q & Hq & ->); now apply tabulated_epoch, HZ).
  assert (LZ : forall q, In q z -> lenses z (z2a q)) by (intros q Hq; exists q; split; [ exact Hq | apply z2a_eq ]).
  apply (rr_respects _ (fun t => kernel (read_probe (lf2 t) (twice_probe p)) (C t) z ell)); [ intros s; now rewrite read_twice_probe | ].
  apply (e_kernel NO (fun f x => jet f x) lf2 lined jet_respects (j_cst 0) lined_jet (j_add 0) (j_mul 0) (j_div 0) C G HJ GJ
    (fm_Omega_m _ _ _ M) z (fun a => table_node 128 1 <= a <= 1 /\ chi c a <> 1) seen2 (plane2 c (lenses z))) with (fair := fair2).
  - intros q Hq. specialize (RZ q Hq). apply (fleaf_chi (FLN := jets) C G M HB HE0). lra.
  - intros q a Hq [Ha _]. specialize (RZ q Hq). apply (fleaf_dif (FLN := jets) C G M HB HE0); lra.
  - intros a [Ha NE]. apply (fleaf_clip (FLN := jets) C G M HB HE0); [ lra | now rewrite C0 ].
  - apply seen_pz.
  - intros d0 q Hd Hq. apply (plane_dif2 (lenses z)); auto.
  - intros d0 q Hd Hq. apply (plane_clip2 (lenses z)) with (b := z2a q); auto.
  - intros q Hq. apply (fleaf_D (FLN := jets) C G M HB HE0 NG0 HP0 HM0). auto.
  - intros q Hq. apply (fleaf_D0 C HB NG0 HP0 HM0). auto.
  - intros q Hq. specialize (RZ q Hq). apply (fleaf_H (FLN := jets) C G M HE0). lra.
  - intros am eta z0 q Hq Hf. apply (fair_ia am); [ apply (HZ q Hq) | exact Hf ].
  - exact fair_lined.
  - apply cond_twice. apply bend_cond with (probes := [read_probe fst p]); try assumption; [ | | now left ].
    + intros q Hq. apply lens_tab; auto.
    + intros b (q & Hq & _). now exists q.
Qed.
Lemma j_spectra (S : list (gprobe dual)) ells T nl P :
  shallow (concat (map bins_of (values S))) -> off_clip chi c (values S) -> survey_bends S -> (forall l, In l ells -> - 0.5 < l) ->
  (forall b, limber_epoch (values S) b -> forall k kd, jet k kd -> 0 < k 0 -> jet (fun t => nonlinear_matter_power (C t) (k t) b T nl) (P G kd (cst NO b))) ->
  rr (lr (lr (fun f x => jet f x))) (fun t => angular_cl (C t) (Array1 ells) (moved S t) T nl) (hangular_cl NO G (Array1 ells) (map twice_probe S) P).
Proof.
  intros HS HC HN HL HK. assert (P1 := node1_pos). set (lens := limber_epoch (values S)) in *.
  assert (RL : forall b, lens b -> table_node 128 1 <= b <= 1) by (intros b; now apply limber_range).
  apply (rr_respects _ (fun t => angular_cl (C t) (Array1 ells) (map (read_probe (lf2 t)) (map twice_probe S)) T nl)).
  { intros s. unfold moved. rewrite map_map. f_equal. apply map_ext. intros p. apply read_twice_probe. }
  apply (e_angular_cl NO (fun f x => jet f x) lf2 lined jet_respects (j_cst 0) lined_jet (j_add 0) (j_mul 0) (j_div 0) C G HJ GJ
    (fm_Omega_m _ _ _ M) (map twice_probe S) T nl P lens (fun a => table_node 128 1 <= a <= 1 /\ chi c a <> 1) seen2 (plane2 c lens) fair2).
  - intros a Ha. apply RL in Ha. apply (fleaf_chi (FLN := jets) C G M HB HE0). lra.
  - intros b a Hb [Ha _]. apply RL in Hb. apply (fleaf_dif (FLN := jets) C G M HB HE0); lra.
  - intros a [Ha | [Ha NE]]; apply (fleaf_clip (FLN := jets) C G M HB HE0); [ apply RL in Ha; lra | rewrite C0; now apply HC | lra | now rewrite C0 ].
  - intros a Ha. apply (fleaf_clip2 (FLN := jets) C G M HB HE0); [ apply RL in Ha; lra | rewrite C0; now apply HC ].
  - apply seen_pz.
  - intros d0 b Hd Hb. apply (plane_dif2 lens); auto.
  - intros d0 b Hd Hb. apply (plane_clip2 lens) with (b := b); auto.
  - intros a Ha. apply (fleaf_D (FLN := jets) C G M HB HE0 NG0 HP0 HM0). now apply RL.
  - intros a Ha. apply (fleaf_D0 C HB NG0 HP0 HM0). now apply RL.
  - intros a Ha. apply RL in Ha. apply (fleaf_H (FLN := jets) C G M HE0). lra.
  - intros a Ha. apply RL in Ha. apply (fleaf_dchi (FLN := jets) C G M HE0). lra.
  - intros am eta z0 b Hb Hf. apply (fair_ia am); [ | exact Hf ]. rewrite a2z_eq. apply (redshift_of b (RL b Hb)).
  - exact fair_lined.
  - intros ells' l E Hl a Ha. injection E as <-. assert (RA := RL a Ha).
    apply (HK a Ha (fun s => (l + 0.5) / clip_lo (chi (C s) a) 1.0)).
    + apply (j_div 0 (fun _ => l + 0.5)); [ apply clip1_pos | apply (j_cst 0 (l + 0.5)) | apply (fleaf_clip (FLN := jets) C G M HB HE0); [ lra | rewrite C0; now apply HC ]].
    + specialize (HL l Hl). apply Rdiv_lt_0_compat; [ lra | ]. unfold clip_lo. pose proof (Rmax_r (chi (C 0) a) 1.0). lra.
  - intros zs zmax E1 E2.
    rewrite <- (@read_zmaxs (dual * dual) (lf2 0)) in E1.
    assert (EV : map (read_probe (lf2 0)) (map twice_probe S) = values S) by (unfold values; rewrite map_map; apply map_ext; intros p; rewrite read_twice_probe; now rewrite at_0_eq).
    rewrite EV in E1. assert (Hm := probes_deepest _ _ _ E1 E2).
    assert (LI : forall x, In x (limber_nodes zmax) -> lens x) by (intros x Hx; now apply (limber_in _ zmax)). split.
    + intros x Hx. apply LI in Hx. split; [ exact Hx | ]. apply RL in Hx. lra.
    + intros p2 Hp2. apply in_map_iff in Hp2. destruct Hp2 as (p & <- & Hp). assert (IP : In (read_probe fst p) (values S)) by (unfold values; now apply in_map).
      assert (QZ : forall q, In q (map a2z (limber_nodes zmax)) -> exists b, lens b /\ q = 1 / b - 1).
      { intros q Hq. apply in_map_iff in Hq. destruct Hq as (b & <- & Hb). exists b. split; [ now apply LI | apply a2z_eq ]. }
      apply cond_twice. apply bend_cond with (probes := values S); try assumption.
      * intros q Hq. destruct (QZ q Hq) as (b & Hb & ->). assert (RB := RL b Hb). split; [ now apply redshift_of | ]. replace (1 / (1 + (1 / b - 1))) with b by (field; lra). exact Hb.
      * intros b _. exists (a2z (nth 0 (limber_nodes zmax) 0)). apply in_map, nth_In. unfold limber_nodes, linspace, tab. rewrite map_length, seq_length. lia.
      * intros d0 Hd0. apply HS. apply in_concat. exists (bins_of (read_probe fst p)). split; [ now apply in_map | exact Hd0 ].
      * intros q a Hq. destruct (QZ q Hq) as (b & Hb & ->). now apply (HC b Hb).
      * now apply HN.
Qed.
End Survey.
