(** * Forward-mode differentiation with respect to nuisance parameters: public statements *)
From Coquelicot Require Import Coquelicot.
From Verif Require Import Np NpLemmas Core Ode OdeSpec OdeProofs Interp InterpProofs InterpCont Integrate IntegrateSpec RombProofs Background BgSpec BgAlgebra BgTables
  BgGrowth BgPositive BgProofs BgFinal BgFinal2 BgFinal4 BgGrad Transfer TransferProofs TransferMono Power PowerProofs ExPower Redshift RedshiftProofs Bias Probes AngularCl GradSpec
  Ad AdSpec AdProofs AdBg AdFinal AdPower AdPowerFinal AdProbes AdRel AdProbesProofs AdProbesFinal AdArrSpec AdNuis AdNuisProofs AdNuisSpec AdNuisNz.
From Coq Require Import FunctionalExtensionality.
Opaque chi_table growth_table_ODE growth_table_gamma logspace.

Lemma moved_0 S : moved S 0 = values S. Proof. unfold moved, values. now rewrite at_0_eq. Qed.
Lemma hz2a_still z0 : snd z0 = 0 -> - 1 < fst z0 -> hz2a num_dual z0 = cst num_dual (z2a (fst z0)).
Proof. intros E L. unfold hz2a, z2a. cbn [ndiv nadd cst num_dual fst snd]. rewrite E. f_equal. unfold Rdiv. rewrite !Rplus_0_l || idtac. ring. Qed.

Section Leaves.
Variables (c : cosmology) (d : direction).
Hypotheses (B : built c) (HE : expanding c) (NG : _gamma c = None) (HP : physical c) (HMo : moderate c).
Local Notation C := (displaced c d).
Local Notation g := (dual_cosmo c d).
Local Notation tg := (fun f x => tangent_of f 0 x).
Local Notation N := num_dual.
Local Notation "' x" := (cst num_dual x%R) (at level 1, format "' x").
Variable lens : R -> Prop.
Hypothesis HL : forall b, lens b -> table_node 128 1 <= b <= 1.
Definition far_plane (z0 : dual) : Prop := tabulated (fst z0) /\ plane_ok lens z0 /\ forall b, lens b -> chi c (1 / (1 + fst z0)) <> 1.
Lemma plane_chi z0 : far_plane z0 -> tangent_of (fun s => chi (C s) (z2a (at_time s z0))) 0 (gchi N g (hz2a N z0)).
Proof.
  intros (HT & HO & _). assert (HA := tabulated_epoch _ HT). assert (P1 := node1_pos). destruct HT as [Z0 _]. destruct HO as [E | (Pz & HN & _)].
  - rewrite hz2a_still by (assumption || lra). apply (t_ext 0 (fun s => chi (C s) (z2a (fst z0)))); [ intros s; unfold at_time; now rewrite E, Rmult_0_r, Rplus_0_r | ].
    apply leaf_chi; try assumption. rewrite z2a_eq. lra.
  - assert (Ta : tangent_of (fun s => z2a (at_time s z0)) 0 (hz2a N z0)).
    { unfold z2a, hz2a. apply (t_div 0 (fun _ => 1.0) (fun s => 1.0 + at_time s z0)); [ rewrite at_0; lra | apply (t_cst 0) | apply (t_add 0 (fun _ => 1.0)); [ apply (t_cst 0) | apply t_leaf ] ]. }
    assert (E0 : z2a (at_time 0 z0) = 1 / (1 + fst z0)) by (now rewrite at_0, z2a_eq).
    assert (LT : 1 / (1 + fst z0) < 1) by (apply (Rmult_lt_reg_r (1 + fst z0)); [ lra | unfold Rdiv; rewrite Rmult_assoc, Rinv_l by lra; lra ]).
    assert (HE0 : expanding (C 0)) by (now rewrite displaced_0).
    apply (m_chi C 0 g (displaced_moves c d) HE0 (fun s => z2a (at_time s z0)) (hz2a N z0) Ta).
    + right. cbv beta. rewrite E0, length_logspace. intros i Hi. change (256 - 2)%nat with 254%nat in Hi. rewrite logspace_el, anode_table by lia. now apply HN.
    + cbv beta. rewrite E0, displaced_0 by exact B. rewrite <- (chi_one_any c) by (now apply built_fresh). apply chi_strict; try assumption. lra.
Qed.
Lemma plane_epoch z0 : z2a (at_time 0 z0) = 1 / (1 + fst z0). Proof. now rewrite at_0, z2a_eq. Qed.
Lemma plane_dif z0 b : far_plane z0 -> lens b ->
  tangent_of (fun s => clip_lo (chi (C s) (z2a (at_time s z0)) - chi (C s) b) 0) 0 (gclip_lo N (nsub N (gchi N g (hz2a N z0)) (gchi N g 'b)) 0).
Proof.
  intros HF Hb. assert (TX := plane_chi z0 HF). destruct HF as (HT & HO & _). assert (HA := tabulated_epoch _ HT). assert (P1 := node1_pos). apply HL in Hb as RB. destruct HT as [Z0 _]. destruct HO as [E | (Pz & _ & HN)].
  - rewrite hz2a_still by (assumption || lra). apply (t_ext 0 (fun s => clip_lo (chi (C s) (z2a (fst z0)) - chi (C s) b) 0)); [ intros s; unfold at_time; now rewrite E, Rmult_0_r, Rplus_0_r | ].
    apply leaf_dif; try assumption; rewrite ?z2a_eq; lra.
  - apply (t_max 0 (fun s => chi (C s) (z2a (at_time s z0)) - chi (C s) b) (fun _ => 0)); [ | apply t_sub; [ exact TX | apply leaf_chi; try assumption; lra ] | apply (t_cst 0) ].
    cbv beta. rewrite plane_epoch, displaced_0 by exact B. specialize (HN b Hb).
    destruct (Rtotal_order (1 / (1 + fst z0)) b) as [L | [L | L]]; [ | easy | ]; [ pose proof (chi_strict c _ b B HE (conj L (proj2 RB))) | pose proof (chi_strict c b _ B HE (conj L (proj2 HA))) ]; lra.
Qed.
Lemma plane_clip z0 b : far_plane z0 -> lens b -> tangent_of (fun s => clip_lo (chi (C s) (z2a (at_time s z0))) 1.0) 0 (gclip_lo N (gchi N g (hz2a N z0)) 1.0).
Proof.
  intros HF Hb. apply (t_max 0 (fun s => chi (C s) (z2a (at_time s z0))) (fun _ => 1.0)); [ | now apply plane_chi | apply (t_cst 0) ].
  cbv beta. rewrite plane_epoch, displaced_0 by exact B. destruct HF as (_ & _ & X). specialize (X b Hb). lra.
Qed.
Lemma leaf_ia eta z0 q : 0 <= q -> - 1 < fst z0 ->
  tangent_of (fun s => rpow ((1.0 + q) / (1.0 + at_time s z0)) (at_time s eta)) 0 (npow N (ndiv N '(1.0 + q) (nadd N '1.0 z0)) eta).
Proof.
  intros Hq Hz. assert (T1 : tangent_of (fun s => 1.0 + at_time s z0) 0 (nadd N '1.0 z0)) by (apply (t_add 0 (fun _ => 1.0)); [ apply (t_cst 0) | apply t_leaf ]).
  apply (t_pow 0 (fun s => (1.0 + q) / (1.0 + at_time s z0))); [ rewrite at_0; apply Rdiv_lt_0_compat; lra | | apply t_leaf ].
  apply (t_div 0 (fun _ => 1.0 + q)); [ rewrite at_0; lra | apply (t_cst 0) | exact T1 ].
Qed.
End Leaves.
(** where a bin may be evaluated *)
Definition may_see (d : gnz dual) (q : R) : Prop := 0 <= gnz_zmax d /\ smooth_norm (read_nz fst d) /\ 0 <= q /\ smooth_nz (read_nz fst d) q.
Definition may_lens c lens (d : gnz dual) : Prop := far_plane c lens (hdelta_z0 num_dual d).
Lemma bin_extended lens probes d : bin_smooth lens probes d -> gis_delta d = false -> smooth_norm (read_nz fst d) /\ forall z, visited lens probes z -> smooth_nz (read_nz fst d) z.
Proof. unfold bin_smooth, gis_delta. destruct (gnz_fam d); intros H1 H2; [ exact H1 | discriminate | exact H1 | exact H1 ]. Qed.
Lemma bin_plane lens probes d : bin_smooth lens probes d -> gis_delta d = true -> plane_ok lens (hdelta_z0 num_dual d).
Proof. unfold bin_smooth, gis_delta, hdelta_z0. destruct (gnz_fam d); intros H1 H2; [ discriminate | exact H1 | discriminate | discriminate ]. Qed.
Lemma delta_fam (d : gnz dual) : gis_delta d = true -> nz_fam (read_nz fst d) = Delta (fst (hdelta_z0 num_dual d)).
Proof. now destruct d as [[ | | | ] ? ?]. Qed.
Lemma in_read (d : gnz dual) l : In d l -> In (read_nz fst d) (map (read_nz fst) l). Proof. apply in_map. Qed.

(** from the specification to the conditions of AdNuisProofs.v *)
Section Cond.
Variables (c : cosmology) (lens : R -> Prop) (probes : list probe) (z : list R).
Hypotheses (HZ : forall q, In q z -> tabulated q /\ lens (1 / (1 + q))) (HY : forall b, lens b -> exists q, In q z).
Lemma back q : In q z -> 1 / (1 / (1 + q)) - 1 = q.
Proof. intros Hq. destruct (HZ q Hq) as [[Q _] _]. field. lra. Qed.
Lemma probe_cond (p : gprobe dual) : In (read_probe fst p) probes -> shallow (bins_of (read_probe fst p)) ->
  (forall q a, In q z -> source_epoch (lensing_bins (read_probe fst p)) q a -> chi c a <> 1) -> probe_smooth lens probes p ->
  gprobe_ok (fun _ => True) z (fun a => table_node 128 1 <= a <= 1 /\ chi c a <> 1) may_see (may_lens c lens) bias_ok p.
Proof.
  intros Hp HS HC [HB HI].
  assert (ZM : forall d, In d (gbins_of p) -> tabulated (gnz_zmax d)).
  { intros d Hd. rewrite <- (@read_zmax dual fst). apply HS. rewrite read_bins. now apply in_map. }
  assert (NB : bins_ok z may_see (gbins_of p)).
  { intros d q Hd ED Hq. destruct (bin_extended _ _ _ (HB d Hd) ED) as [H1 H2]. destruct (HZ q Hq) as [[Q1 Q2] Q3]. split; [ apply (ZM d Hd) | split; [ exact H1 | split; [ exact Q1 | ]]].
    apply H2. exists (1 / (1 + q)). split; [ exact Q3 | left ]. now rewrite back. }
  destruct p as [p | p]; cbn [gprobe_ok gbins_of] in *; [ | split; [ exact NB | exact HI ] ].
  split; [ | split; [ now destruct (gwl_m p) | revert HI; destruct (gwl_ia p); intros HI; [ split; [ exact NB | exact HI ] | exact I ]]].
  cbn [read_probe lensing_bins bins_of wl_bins] in *. split.
  - intros d zm q z' Hd ED Em Hq Hz'. apply (in_linspace q zm 256) in Hz'. destruct Hz' as (i & Hi & Ez).
    assert (DM : deepest (map (read_nz fst) (gwl_bins p)) zm) by (apply pymax_deepest; now rewrite (@map_zmax dual fst)).
    replace (INR 256) with 256 in Ez by (rewrite INR_IZR_INZ; reflexivity). destruct (HZ q Hq) as [TQ LQ].
    assert (SE : source_epoch (map (read_nz fst) (gwl_bins p)) q (z2a z')) by (left; exists zm, i; rewrite z2a_eq, Ez; auto).
    assert (Z0 : 0 <= z').
    { rewrite Ez. replace (INR i * ((zm - q) / 256)) with (INR i / INR 256 * (zm - q)) by (replace (INR 256) with 256 by (rewrite INR_IZR_INZ; reflexivity); unfold Rdiv; ring).
      apply (tabulated_mid q zm); [ exact TQ | now apply (deepest_tabulated _ _ HS) | apply frac_range; [ exact Hi | lia ]]. }
    split; [ split; [ exact (source_range _ _ _ HS TQ SE) | now apply (HC q) ] | ].
    destruct (bin_extended _ _ _ (HB d Hd) ED) as [H1 H2]. split; [ apply (ZM d Hd) | split; [ exact H1 | split; [ exact Z0 | ]]].
    apply H2. exists (1 / (1 + q)). split; [ exact LQ | right ]. exists (read_probe fst (GPWL p)), zm, i. rewrite back by exact Hq. auto.
  - intros d Hd ED. assert (FD := delta_fam d ED). assert (ID : In (read_nz fst d) (map (read_nz fst) (gwl_bins p))) by now apply in_map.
    split; [ apply (HS _ ID), FD | split; [ exact (bin_plane _ _ _ (HB d Hd) ED) | ]]. intros b Hb. destruct (HY b Hb) as (q & Hq).
    apply (HC q); [ exact Hq | right ]. now exists (read_nz fst d), (fst (hdelta_z0 num_dual d)).
Qed.
End Cond.

(** ** public statements *)
Lemma nuisance_redshift (d : gnz dual) z : 0 <= gnz_zmax d -> smooth_norm (read_nz fst d) -> 0 <= z -> smooth_nz (read_nz fst d) z ->
  tangent_of (fun t => pz (read_nz (at_time t) d) z) 0 (hpz num_dual d z).
Proof. apply t_pz. Qed.
Lemma lens_tab z q : tabulated q -> In q z -> tabulated q /\ lenses z (1 / (1 + q)). Proof. intros H1 H2. split; [ exact H1 | now exists q ]. Qed.
Lemma nuisance_kernel c d (p : gprobe dual) z ell : built c -> expanding c -> _gamma c = None -> physical c -> moderate c ->
  (forall q, In q z -> tabulated q) -> shallow (bins_of (read_probe fst p)) ->
  (forall q a, In q z -> source_epoch (lensing_bins (read_probe fst p)) q a -> chi c a <> 1) -> probe_smooth (lenses z) [read_probe fst p] p ->
  jvp_rows (fun t => kernel (read_probe (at_time t) p) (displaced c d t) z ell) (hkernel num_dual p (dual_cosmo c d) z ell).
Proof.
  intros B HE NG HP HMo HZ HS HC HN. apply rows_of. assert (P1 := node1_pos).
  assert (RZ : forall q, In q z -> table_node 128 1 <= z2a q <= 1) by (intros q Hq; rewrite z2a_eq; now apply tabulated_epoch, HZ).
  assert (RL : forall b, lenses z b -> table_node 128 1 <= b <= 1) by (intros b (q & Hq & ->); now apply tabulated_epoch, HZ).
  assert (LZ : forall q, In q z -> lenses z (z2a q)) by (intros q Hq; exists q; split; [ exact Hq | apply z2a_eq ]).
  apply (e_kernel num_dual (fun f x => tangent_of f 0 x) at_time (fun _ => True) tangent_respects (t_cst 0) (fun x _ => t_leaf x) (t_add 0) (t_mul 0) (t_div 0) (displaced c d) (dual_cosmo c d) (jit_curve c d NG) (jit_dual c d NG)
    (m_Omega_m _ _ _ (displaced_moves c d)) z (fun a => table_node 128 1 <= a <= 1 /\ chi c a <> 1) may_see (may_lens c (lenses z))) with (fair := bias_ok).
  - intros q Hq. specialize (RZ q Hq). apply leaf_chi; try assumption. lra.
  - intros q a Hq [Ha _]. specialize (RZ q Hq). apply leaf_dif; try assumption; lra.
  - intros a [Ha NE]. apply leaf_clip; try assumption. lra.
  - intros d0 q (H1 & H2 & H3 & H4). now apply t_pz.
  - intros d0 q Hd Hq. apply (plane_dif c d) with (lens := lenses z); auto.
  - intros d0 q Hd Hq. apply (plane_clip c d) with (lens := lenses z) (b := z2a q); auto.
  - intros q Hq. now apply leaf_D; auto.
  - intros q Hq. now apply leaf_D0; auto.
  - intros q Hq. specialize (RZ q Hq). apply leaf_H; try assumption. lra.
  - intros am eta z0 q Hq Hf. apply leaf_ia; [ apply (HZ q Hq) | exact Hf ].
  - now intros [ | | ].
  - apply probe_cond with (probes := [read_probe fst p]); try assumption; [ | | now left ].
    + intros q Hq. apply lens_tab; auto.
    + intros b (q & Hq & _). now exists q.
Qed.
Lemma nuisance_spectra c d (S : list (gprobe dual)) ells T nl P : built c -> expanding c -> _gamma c = None -> physical c -> moderate c ->
  shallow (concat (map bins_of (values S))) -> off_clip chi c (values S) -> survey_smooth S -> (forall l, In l ells -> - 0.5 < l) ->
  (forall b, limber_epoch (values S) b -> spectrum_moves (fun c k a => nonlinear_matter_power c k a T nl) P c d b) ->
  jvp_rows (fun t => angular_cl (displaced c d t) (Array1 ells) (moved S t) T nl) (hangular_cl num_dual (dual_cosmo c d) (Array1 ells) S P).
Proof.
  intros B HE NG HP HMo HS HC HN HL HK. apply rows_of. assert (P1 := node1_pos). set (lens := limber_epoch (values S)) in *.
  assert (RL : forall b, lens b -> table_node 128 1 <= b <= 1) by (intros b; now apply limber_range).
  apply (e_angular_cl num_dual (fun f x => tangent_of f 0 x) at_time (fun _ => True) tangent_respects (t_cst 0) (fun x _ => t_leaf x) (t_add 0) (t_mul 0) (t_div 0) (displaced c d) (dual_cosmo c d) (jit_curve c d NG) (jit_dual c d NG)
    (m_Omega_m _ _ _ (displaced_moves c d)) S T nl P lens (fun a => table_node 128 1 <= a <= 1 /\ chi c a <> 1) may_see (may_lens c lens) bias_ok).
  - intros a Ha. apply RL in Ha. apply leaf_chi; try assumption. lra.
  - intros b a Hb [Ha _]. apply RL in Hb. apply leaf_dif; try assumption; lra.
  - intros a [Ha | [Ha NE]]; apply leaf_clip; try assumption; [ apply RL in Ha; lra | now apply HC | lra ].
  - intros a Ha. apply leaf_clip2; try assumption; [ apply RL in Ha; lra | now apply HC ].
  - intros d0 q (H1 & H2 & H3 & H4). now apply t_pz.
  - intros d0 b Hd Hb. apply (plane_dif c d) with (lens := lens); auto.
  - intros d0 b Hd Hb. apply (plane_clip c d) with (lens := lens) (b := b); auto.
  - intros a Ha. apply leaf_D; try assumption. now apply RL.
  - intros a Ha. apply leaf_D0; try assumption. now apply RL.
  - intros a Ha. apply RL in Ha. apply leaf_H; try assumption. lra.
  - intros a Ha. apply RL in Ha. apply leaf_dchi; try assumption. lra.
  - intros am eta z0 b Hb Hf. apply leaf_ia; [ | exact Hf ]. rewrite a2z_eq. apply (redshift_of b (RL b Hb)).
  - now intros [ | | ].
  - intros ells' l E Hl a Ha. injection E as <-. assert (RA := RL a Ha).
    apply (HK a Ha (fun s => (l + 0.5) / clip_lo (chi (displaced c d s) a) 1.0)).
    + apply (t_div 0 (fun _ => l + 0.5)); [ apply clip1_pos | apply (t_cst 0 (l + 0.5)) | apply leaf_clip; try assumption; [ lra | now apply HC ]].
    + specialize (HL l Hl). apply Rdiv_lt_0_compat; [ lra | ]. unfold clip_lo. pose proof (Rmax_r (chi (displaced c d 0) a) 1.0). lra.
  - intros zs zmax E1 E2. rewrite <- (@read_zmaxs dual fst) in E1. assert (Hm := probes_deepest _ _ _ E1 E2). fold (values S) in Hm.
    assert (LI : forall x, In x (limber_nodes zmax) -> lens x) by (intros x Hx; now apply (limber_in _ zmax)). split.
    + intros x Hx. apply LI in Hx. split; [ exact Hx | ]. apply RL in Hx. lra.
    + intros p Hp. assert (IP : In (read_probe fst p) (values S)) by now apply in_map.
      assert (QZ : forall q, In q (map a2z (limber_nodes zmax)) -> exists b, lens b /\ q = 1 / b - 1).
      { intros q Hq. apply in_map_iff in Hq. destruct Hq as (b & <- & Hb). exists b. split; [ now apply LI | apply a2z_eq ]. }
      apply probe_cond with (probes := values S); try assumption.
      * intros q Hq. destruct (QZ q Hq) as (b & Hb & ->). assert (RB := RL b Hb). split; [ now apply redshift_of | ]. replace (1 / (1 + (1 / b - 1))) with b by (field; lra). exact Hb.
      * intros b _. exists (a2z (nth 0 (limber_nodes zmax) 0)). apply in_map, nth_In. unfold limber_nodes, linspace, tab. rewrite map_length, seq_length. lia.
      * intros d0 Hd0. apply HS. apply in_concat. exists (bins_of (read_probe fst p)). split; [ now apply in_map | exact Hd0 ].
      * intros q a Hq. destruct (QZ q Hq) as (b & Hb & ->). now apply (HC b Hb).
      * now apply HN.
Qed.
Lemma nuisance_linear c d (S : list (gprobe dual)) ells T GT : built c -> expanding c -> _gamma c = None -> physical c -> moderate c ->
  (forall d, transfer_moves T GT c d) -> sigmasqr_default c 8.0 T <> 0 ->
  shallow (concat (map bins_of (values S))) -> off_clip chi c (values S) -> survey_smooth S -> (forall l, In l ells -> - 0.5 < l) ->
  jvp_rows (fun t => angular_cl (displaced c d t) (Array1 ells) (moved S t) T linear)
    (hangular_cl num_dual (dual_cosmo c d) (Array1 ells) S (fun g k a => glinear_matter_power num_dual g k a GT)).
Proof.
  intros B HE NG HP HMo HT NS HS HC HN HL. apply nuisance_spectra; try assumption. intros b Hb. apply linear_moves; try assumption. now apply (limber_range (values S)).
Qed.

(** ** at exact reals the programs are those of Redshift.v, Probes.v and AngularCl.v *)
Definition as_is (x : R) : R := x.
Fixpoint R_pz_fn (d : gnz R) : forall z, hpz_fn num_R d z = pz_fn (read_nz as_is d) z
with R_fam_pz (f : gfam R) : forall z, hfam_pz num_R f z = fam_pz (read_fam as_is f) z.
Proof.
  - destruct d as [f g zm]. intros z. exact (R_fam_pz f z).
  - destruct f as [a b z0 | z0 | zc w bw | p b]; intros z; cbn [hfam_pz read_fam fam_pz]; try reflexivity.
    + unfold as_is. rewrite !map_id. reflexivity.
    + apply R_pz_fn.
Qed.
Lemma R_pz d z : hpz num_R d z = pz (read_nz as_is d) z.
Proof.
  assert (ES : match gsimps num_R (fun q => hpz_fn num_R d q) 0.0 (gnz_zmax d) 256 with Ok v => v | Err _ => 0 end = nz_simps_norm (read_nz as_is d)).
  { unfold nz_simps_norm. rewrite read_zmax.
    assert (HR := f_simps num_R same same_respects s_cst (s_bin Rplus) (s_bin Rmult) (fun _ => pz_fn (read_nz as_is d)) (fun q => hpz_fn num_R d q) 0.0 (gnz_zmax d) 256 (fun x _ s => eq_sym (R_pz_fn d x))).
    destruct (rr_cases _ _ _ HR) as [(x & y & Ey & E & P) | (e & Ee & E)]; [ rewrite Ey, (E 0); symmetry; apply P | now rewrite Ee, (E 0) ]. }
  unfold hpz, hnz_norm, pz, nz_call. cbn [map]. unfold el. cbn [nth]. rewrite R_pz_fn.
  destruct d as [f g zm]. destruct f; cbn [gis_delta gnz_fam] in *; cbn [cst num_R ndiv] in *; rewrite ?ES; reflexivity.
Qed.
Lemma nuisance_programs c z ell (S : list (gprobe R)) T nl P : built c -> _gamma c = None ->
  (forall d q, hpz num_R d q = pz (read_nz as_is d) q) /\
  (forall p, (forall q, In q z -> D c (z2a q) <> 0) -> hkernel num_R p (lift_cosmo c) z ell = kernel (read_probe as_is p) c z ell) /\
  ((forall b, limber_epoch (map (read_probe as_is) S) b -> 0 < b /\ D c b <> 0) -> (forall k a, P (lift_cosmo c) k a = nonlinear_matter_power c k a T nl) ->
   forall ells, hangular_cl num_R (lift_cosmo c) ells S P = angular_cl c ells (map (read_probe as_is) S) T nl).
Proof.
  intros B NG. split; [ exact R_pz | ].
  assert (EC : forall a, gchi num_R (lift_cosmo c) a = chi c a) by (intros a; now apply R_chi_eq).
  assert (ED : forall a, gD num_R (lift_cosmo c) a = D c a) by (intros a; now apply R_D_eq).
  assert (OK : forall z p, gprobe_ok (fun _ => True) z (fun _ => True) (fun (_ : gnz R) _ => True) (fun _ => True) (fun _ => True) p).
  { intros z' [p | p]; cbn [gprobe_ok]; unfold lensing_ok, bins_ok, fair_arg, fine_m; [ destruct (gwl_m p), (gwl_ia p) as [[ | ] | ] | destruct (gnc_bias p) ]; repeat split; auto. }
  split.
  - intros p HD. symmetry. apply (rr_eq2 (fun _ => kernel (read_probe as_is p) c z ell)); [ | exact 0 ].
    apply (e_kernel num_R same (fun _ => as_is) (fun _ => True) same_respects s_cst (fun x _ s => eq_refl) (s_bin Rplus) (s_bin Rmult) (fun f h x y _ => s_bin Rdiv f h x y) (fun _ => c) (lift_cosmo c) (fun _ => R_jit c B NG) (R_gjit c NG)
      (fun _ => eq_refl) z (fun _ => True) (fun _ _ => True) (fun _ => True)) with (fair := fun _ => True);
      try (intros; intros s; unfold gclip_lo, hz2a, as_is; cbn [cst num_R nsub nmax ndiv nadd npow]; rewrite ?EC, ?ED, ?R_pz; reflexivity).
    + exact HD.
    + now intros [ | | ].
    + apply OK.
  - intros HD HK ells. symmetry. apply (rr_eq2 (fun _ => angular_cl c ells (map (read_probe as_is) S) T nl)); [ | exact 0 ].
    apply (e_angular_cl num_R same (fun _ => as_is) (fun _ => True) same_respects s_cst (fun x _ s => eq_refl) (s_bin Rplus) (s_bin Rmult) (fun f h x y _ => s_bin Rdiv f h x y) (fun _ => c) (lift_cosmo c) (fun _ => R_jit c B NG) (R_gjit c NG)
      (fun _ => eq_refl) S T nl P (limber_epoch (map (read_probe as_is) S)) (fun _ => True) (fun _ _ => True) (fun _ => True) (fun _ => True));
      try (intros; intros s; unfold gclip_lo, hz2a, as_is; cbn [cst num_R nsub nmax nipow ndiv nadd npow]; rewrite ?EC, ?ED, ?R_pz; reflexivity).
    + intros a Ha. now apply HD.
    + now intros [ | | ].
    + intros ells' l _ _ a _ s. unfold gclip_lo. cbn [cst num_R ndiv nmax]. rewrite EC, HK. reflexivity.
    + intros zs zmax E1 E2. rewrite <- (read_zmaxs as_is) in E1. assert (Hm := probes_deepest _ _ _ E1 E2). split.
      * intros x Hx. apply (limber_in (map (read_probe as_is) S)) in Hx; [ | exact Hm ]. split; [ exact Hx | ]. destruct (HD x Hx). lra.
      * intros p _. apply OK.
Qed.
