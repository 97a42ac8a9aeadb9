(** * Second derivatives of redshift distributions *)
From Coquelicot Require Import Coquelicot.
From Verif Require Import FinRules FinPower.
From Verif Require Import Np NpLemmas Core Interp Integrate IntegrateSpec SimpsProofs Background Transfer Power Redshift RedshiftProofs Bias Probes AngularCl GradSpec Ad AdSpec AdProofs AdBg AdFinal
  AdPower AdProbes AdRel AdProbesProofs AdProbesFinal AdArrSpec AdNuis AdNuisProofs AdNuisSpec AdNuisNz AdNuisBack AdOver JetRules JetNuisSpec.

Local Notation NO := (num_over num_dual).
Local Notation jet f z := (jet_of f 0 z).
(** twice differentiable as a function of real numbers *)
Fixpoint bend0_nz (d : nz) (x : R) : Prop := match d with Nz f _ _ _ => bend0_fam f x end
with bend0_fam (f : nz_family) (x : R) : Prop :=
  match f with
  | Smail a b z0 => 1 <= a /\ 1 <= b /\ 0 < z0
  | Delta _ => False
  | Kde zcat wt bw => length wt = length zcat /\ vsum wt <> 0 /\ bw <> 0
  | Shift p b => x <> b /\ bend0_nz p (Rmax (x - b) 0)
  end.
Definition bend0_norm (d : nz) : Prop := (forall i, (i <= 256)%nat -> bend0_nz d (INR i * (nz_zmax d / 256))) /\ simpson (pz_fn d) 0 (nz_zmax d) 256 <> 0.
Fixpoint bend_weaker mv (d : nz) : forall x, bend_nz mv d x -> bend0_nz d x
with bend_weaker_fam mv (f : nz_family) : forall x, bend_fam mv f x -> bend0_fam f x.
Proof.
  - destruct d as [f g zm q]. intros x H. exact (bend_weaker_fam mv f x H).
  - destruct f as [a b z0 | z0 | zc w bw | p b]; intros x H; cbn [bend_fam bend0_fam] in *; [ tauto | exact H | exact H | ]. destruct H as [H1 H2]. split; [ exact H1 | now apply (bend_weaker true) ].
Qed.
Lemma norm_weaker d : bend_norm d -> bend0_norm d. Proof. intros [H1 H2]. split; [ intros i Hi; now apply (bend_weaker false), H1 | exact H2 ]. Qed.

Lemma jet_respects : respects (fun f x => jet f x). Proof. intros f h y E. exact (ft_ext (FL := jets) 0 f h y E). Qed.
Lemma twice_jet x : jet (fun s => at_time s x) (twice x).
Proof.
  exists (fun _ => snd x). unfold at_time. split; [ apply filter_forall; intros s; auto_derive; [ exact I | ring ] | ].
  split; (split; [ cbn [twice fst snd]; ring | ]); cbn [twice fst snd]; [ auto_derive; [ exact I | ring ] | apply (is_derive_const (V := R_NormedModule)) ].
Qed.
Lemma jet_val f z : jet f z -> fst (fst z) = f 0. Proof. intros (f' & _ & [E _] & _). exact E. Qed.
(** numbers that stay zero *)
Lemma jet_zero f z : locally 0 (fun s => f s = 0) -> jet f z -> z = ((0, 0), (0, 0)).
Proof.
  intros L J. apply (j_unique 0 (fun _ => 0)); [ | exact (j_cst 0 0) ]. exact (j_loc 0 f (fun _ => 0) z L J).
Qed.
Lemma zero4 (a b c d : R) : a = 0 -> b = 0 -> c = 0 -> d = 0 -> (((0, 0), (0, 0)) : dual * dual) = ((a, b), (c, d)). Proof. now intros -> -> -> ->. Qed.
Lemma j_pow_still f h x y : locally 0 (fun s => f s = 0) -> h 0 <> 0 -> jet f x -> jet h y -> jet (fun s => rpow (f s) (h s)) (npow NO x y).
Proof.
  intros Z H0 Jf Jh. rewrite (jet_zero f x Z Jf). assert (VY := jet_val _ _ Jh).
  replace (npow NO ((0, 0), (0, 0)) y) with (((0, 0), (0, 0)) : dual * dual).
  - apply (j_loc 0 (fun _ => 0)); [ | exact (j_cst 0 0) ]. assert (C := j_continuous 0 _ _ Jh). specialize (C (fun v => v <> 0) (open_neq 0 _ H0)).
    generalize (filter_and _ _ Z C). apply filter_imp. intros s [E1 E2]. now rewrite E1, rpow_0l.
  - destruct y as [[y y1] [y2 y3]]. cbn [fst] in VY. subst y. cbn -[rpow ln]. 
    rewrite (rpow_0l (h 0)) by exact H0. apply zero4; unfold Rdiv; ring.
Qed.
Definition still (x : R -> R) : Prop := 0 < x 0 \/ locally 0 (fun s => x s = 0).
Lemma j_pow_at f h x y : still f -> h 0 <> 0 -> jet f x -> jet h y -> jet (fun s => rpow (f s) (h s)) (npow NO x y).
Proof. intros [P | L] H0 Jf Jh; [ now apply (j_pow 0 f h) | now apply j_pow_still ]. Qed.
Lemma lr_twice l : lr (fun f x => jet f x) (fun s => map (at_time s) l) (map twice l).
Proof. induction l as [ | x l IH]; [ apply lr_nil' | ]. cbn [map]. apply (lr_cons _ _ (fun s => at_time s x) (fun s => map (at_time s) l)); [ reflexivity | apply twice_jet | exact IH ]. Qed.

Fixpoint j_carry (d : gnz dual) : forall x xd, jet x xd -> still x -> bend0_nz (read_nz fst d) (x 0) ->
  jet (fun s => pz_fn (read_nz (at_time s) d) (x s)) (hpz_fn NO (twice_nz d) xd)
with j_carry_fam (f : gfam dual) : forall x xd, jet x xd -> still x -> bend0_fam (read_fam fst f) (x 0) ->
  jet (fun s => fam_pz (read_fam (at_time s) f) (x s)) (hfam_pz NO (fam_map twice f) xd).
Proof.
  - destruct d as [f g zm]. intros x xd Tx Sx HS. exact (j_carry_fam f x xd Tx Sx HS).
  - destruct f as [a b z0 | z0 | zc w bw | p b]; intros x xd Tx Sx HS; cbn [read_fam fam_pz fam_map hfam_pz bend0_fam] in *.
    + destruct HS as (A1 & B1 & Z1). assert (Ta := twice_jet a). assert (Tb := twice_jet b). assert (Tz := twice_jet z0).
      apply (j_mul 0 (fun s => rpow (x s) (at_time s a)) (fun s => exp (- rpow (x s / at_time s z0) (at_time s b)))); [ apply (j_pow_at x (fun s => at_time s a)); try assumption; rewrite at_0; lra | ].
      apply (j_exp 0 (fun s => - rpow (x s / at_time s z0) (at_time s b))). apply (j_neg 0 (fun s => rpow (x s / at_time s z0) (at_time s b))).
      apply (j_pow_at (fun s => x s / at_time s z0) (fun s => at_time s b)); [ | rewrite at_0; lra | | exact Tb ].
      * destruct Sx as [P | L]; [ left; rewrite at_0; now apply Rdiv_lt_0_compat | right; revert L; apply filter_imp; intros s ->; unfold Rdiv; ring ].
      * apply (j_div 0 x (fun s => at_time s z0)); [ rewrite at_0; lra | exact Tx | exact Tz ].
    + destruct HS.
    + destruct HS as (HL & HW & HB). rewrite map_length in HL. rewrite map_length in HL.
      assert (SQ : bw ^ 2 * 2.0 <> 0) by (assert (0 < bw ^ 2) by (now apply pow2_gt_0); lra).
      apply (j_div 0 (fun s => vdot (map (fun X => kde_kernel bw X (x s)) (map (at_time s) zc)) (map (at_time s) w)) (fun s => vsum (map (at_time s) w))); [ now rewrite at_0_eq | | ].
      * apply (ft_ext (FL := jets) 0 (fun s => vsum (vmul (map (fun X => kde_kernel bw X (x s)) (map (at_time s) zc)) (map (at_time s) w)))); [ intros s; reflexivity | ].
        apply (f_vsum NO (fun f x => jet f x) jet_respects (j_cst 0) (j_add 0)). apply (f_vmul NO (fun f x => jet f x) (j_mul 0)); [ | apply lr_twice ].
        apply (lr_map (fun f x => jet f x) (fun f x => jet f x) (fun s X => kde_kernel bw X (x s)) (fun X => hkde_kernel NO bw X xd)); [ | apply lr_twice ].
        intros q qd Tq. unfold kde_kernel, hkde_kernel. apply (j_mul 0 (fun _ => _)); [ apply (j_cst 0) | ].
        apply (j_exp 0 (fun s => _ / _)). apply (j_div 0 _ (fun _ => bw ^ 2 * 2.0)); [ exact SQ | | apply (j_cst 0) ]. apply (j_neg 0 (fun s => _)).
        exact (j_ipow 0 2 _ _ (or_intror eq_refl) (j_sub 0 _ _ _ _ Tq Tx)).
      * apply (f_vsum NO (fun f x => jet f x) jet_respects (j_cst 0) (j_add 0)). apply lr_twice.
    + destruct HS as [NE HP]. assert (Tb := twice_jet b). assert (Tu := j_sub 0 _ _ _ _ Tx Tb). assert (BE : at_time 0 b = fst b) by apply at_0.
      apply (j_carry p (fun s => clip_lo (x s - at_time s b) 0)); [ | | cbv beta; rewrite BE; exact HP ].
      * apply (j_max 0 (fun s => x s - at_time s b) (fun _ => 0)); [ rewrite BE; lra | exact Tu | apply (j_cst 0 0) ].
      * destruct (Rlt_dec (fst b) (x 0)) as [L | L]; [ left; rewrite BE; unfold clip_lo; rewrite Rmax_left; lra | right ].
        assert (CU := j_continuous 0 _ _ Tu). assert (U0 : x 0 - at_time 0 b < 0) by (rewrite BE; lra). specialize (CU (fun v => v < 0) (open_lt 0 _ U0)). change (locally 0 (fun s => x s - at_time s b < 0)) in CU. revert CU. apply filter_imp. intros s Hs. unfold clip_lo. rewrite Rmax_right; lra.
Qed.
Lemma still_const q : 0 <= q -> still (fun _ => q).
Proof. intros [P | <-]; [ now left | right; now apply filter_forall ]. Qed.
Lemma j_pz_fn (d : gnz dual) q : 0 <= q -> bend0_nz (read_nz fst d) q -> jet (fun s => pz_fn (read_nz (at_time s) d) q) (hpz_fn NO (twice_nz d) (cst NO q)).
Proof. intros Hq HS. apply (j_carry d (fun _ => q)); [ apply (j_cst 0) | now apply still_const | exact HS ]. Qed.
Lemma twice_delta d : gis_delta (twice_nz d) = gis_delta d. Proof. now destruct d as [[ | | | ] ? ?]. Qed.
Lemma twice_zmax d : gnz_zmax (twice_nz d) = gnz_zmax d. Proof. now destruct d. Qed.
Lemma j_pz (d : gnz dual) q : 0 <= gnz_zmax d -> bend0_norm (read_nz fst d) -> 0 <= q -> bend0_nz (read_nz fst d) q ->
  jet (fun s => pz (read_nz (at_time s) d) q) (hpz NO (twice_nz d) q).
Proof.
  intros HZ [HN H0] Hq HS. assert (ND : gis_delta d = false) by (destruct d as [[ | | | ] g zm]; try reflexivity; destruct HS).
  apply (ft_ext (FL := jets) 0 (fun s => pz_fn (read_nz (at_time s) d) q / nz_simps_norm (read_nz (at_time s) d))).
  { intros s. destruct d as [f g zm]. unfold pz, nz_call. cbn [fst map]. unfold el. cbn [nth]. destruct f; try reflexivity. discriminate. }
  assert (EH : hpz NO (twice_nz d) q = ndiv NO (hpz_fn NO (twice_nz d) (cst NO q)) (hnz_norm NO (twice_nz d))) by (destruct d as [[ | | | ] g zm]; reflexivity || discriminate).
  rewrite EH. unfold hnz_norm. rewrite twice_delta, ND, twice_zmax. rewrite read_zmax in *.
  apply (j_div 0 (fun s => pz_fn (read_nz (at_time s) d) q) (fun s => nz_simps_norm (read_nz (at_time s) d))); [ rewrite at_0_eq, nz_norm_simpson, read_zmax; exact H0 | now apply j_pz_fn | ].
  assert (HR := f_simps NO (fun f x => jet f x) jet_respects (j_cst 0) (j_add 0) (j_mul 0) (fun s => pz_fn (read_nz (at_time s) d)) (fun q => hpz_fn NO (twice_nz d) (cst NO q)) 0.0 (gnz_zmax d) 256).
  assert (HF : forall x, In x (linspace 0.0 (gnz_zmax d) (256 + 1)) -> jet (fun s => pz_fn (read_nz (at_time s) d) x) (hpz_fn NO (twice_nz d) (cst NO x))).
  { intros x Hx. apply in_linspace in Hx. destruct Hx as (i & Hi & ->). replace (0.0 + INR i * ((gnz_zmax d - 0.0) / INR 256)) with (INR i * (gnz_zmax d / 256)).
    - apply j_pz_fn; [ apply Rmult_le_pos; [ apply pos_INR | lra ] | now apply HN ].
    - replace (INR 256) with 256 by (rewrite INR_IZR_INZ; reflexivity). lra. }
  specialize (HR HF). destruct (rr_cases _ _ _ HR) as [(x & y & Ey & E & P) | (e & Ee & E)].
  - rewrite Ey. apply (jet_respects x); [ | exact P ]. intros s. unfold nz_simps_norm. rewrite read_zmax. now rewrite E.
  - rewrite Ee. apply (jet_respects (fun _ => 0)); [ | apply (j_cst 0) ]. intros s. unfold nz_simps_norm. rewrite read_zmax. now rewrite E.
Qed.
