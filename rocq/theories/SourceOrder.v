(** * Lensing grows with source redshift *)
From Coquelicot Require Import Coquelicot.
From Verif Require Import Np NpLemmas Core Integrate IntegrateSpec SimpsProofs RombProofs Interp Background BgSpec BgFinal BgFinal4 Transfer Power Redshift RedshiftSpec Bias Probes ProbesSpec ProbesProofs ProbesFinal
  AngularCl CovSpec CovProofs AclSpec AclProofs Forecast AmpScale ExCov ExPower ExProbes.
Opaque chi_table growth_table_ODE growth_table_gamma logspace.

(** (x - d)^+ / max(x, 1) grows with x *)
Lemma ratio_mono d x y : 0 <= d -> 0 <= x -> x <= y -> Rmax (x - d) 0 / Rmax x 1 <= Rmax (y - d) 0 / Rmax y 1.
Proof.
  intros Hd Hx Hxy. assert (X : 1 <= Rmax x 1) by apply Rmax_r. assert (Y : 1 <= Rmax y 1) by apply Rmax_r.
  assert (N : 0 <= Rmax (y - d) 0 / Rmax y 1) by (apply Rmult_le_pos; [ apply Rmax_r | left; apply Rinv_0_lt_compat; lra ]).
  destruct (Rle_dec x d) as [H | H].
  - rewrite (Rmax_right (x - d) 0) by lra. unfold Rdiv at 1. rewrite Rmult_0_l. exact N.
  - rewrite (Rmax_left (x - d) 0), (Rmax_left (y - d) 0) by lra.
    apply (Rmult_le_reg_r (Rmax x 1)); [ lra | ]. unfold Rdiv. rewrite Rmult_assoc, Rinv_l, Rmult_1_r by lra.
    apply (Rmult_le_reg_r (Rmax y 1)); [ lra | ]. replace ((y - d) * / Rmax y 1 * Rmax x 1 * Rmax y 1) with ((y - d) * Rmax x 1) by (field; lra).
    destruct (Rle_dec x 1) as [H1 | H1]; [ rewrite (Rmax_right x 1) by lra | rewrite (Rmax_left x 1) by lra ];
      (destruct (Rle_dec y 1) as [H2 | H2]; [ rewrite (Rmax_right y 1) by lra | rewrite (Rmax_left y 1) by lra ]); try lra; nra.
Qed.
Lemma lensing_mono c zm zm' d d' z1 z2 ell z : reachable c -> expanding c -> 0 <= Omega_m c -> 1 <= ell -> -1 < z -> -1 < z1 -> z1 <= z2 ->
  nz_fam d = Delta z1 -> nz_fam d' = Delta z2 -> 0 <= lensing c zm d ell z <= lensing c zm' d' ell z.
Proof.
  intros Hr HE HO He Hz H1 H12 E1 E2. unfold lensing, efficiency. rewrite E1, E2.
  destruct (distance_properties c Hr HE) as (_ & _ & P & _). pose proof (P (1 / (1 + z))) as A. fold (dist c z) in A. pose proof (P (1 / (1 + z1))) as B. fold (dist c z1) in B.
  destruct (spin2_bounds ell He) as [_ S]. pose proof (dist_mono c z1 z2 Hr HE H1 H12) as M.
  assert (Q : 0 <= 3 / 2 * 100 ^ 2 * Omega_m c / 299792.458 * spin2 ell) by (apply Rmult_le_pos; [ | exact S ]; apply Rmult_le_pos; [ | lra ]; apply Rmult_le_pos; lra).
  assert (W : 0 <= (1 + z) * dist c z) by (apply Rmult_le_pos; lra).
  assert (N : 0 <= distance_ratio c z z1).
  { unfold distance_ratio. apply Rmult_le_pos; [ apply Rmax_r | left; apply Rinv_0_lt_compat; assert (1 <= Rmax (dist c z1) 1) by apply Rmax_r; lra ]. }
  split; [ apply Rmult_le_pos; [ exact Q | now apply Rmult_le_pos ] | ].
  apply Rmult_le_compat_l; [ exact Q | ]. apply Rmult_le_compat_l; [ exact W | ]. unfold distance_ratio. now apply ratio_mono.
Qed.

Lemma kernel_source_order c pzs z ell rows : reachable c -> expanding c -> _gamma_growth c = false -> 0 <= Omega_m c -> 1 <= ell ->
  (forall q, In q z -> -1 < q) -> weak_lensing_kernel c pzs z ell = Ok rows ->
  forall k k' i z1 z2, (k < length pzs)%nat -> (k' < length pzs)%nat -> (i < length z)%nat ->
    nz_fam (nth_nz pzs k) = Delta z1 -> nz_fam (nth_nz pzs k') = Delta z2 -> -1 < z1 -> z1 <= z2 -> 0 <= el2 rows k i <= el2 rows k' i.
Proof.
  intros Hr HE Hg HO He Hz EK k k' i z1 z2 Hk Hk' Hi E1 E2 H1 H12.
  assert (V : forall k, (k < length pzs)%nat -> el2 rows k i = lensing c (zmax_of pzs) (nth_nz pzs k) ell (el z i)).
  { intros q Hq. destruct (lensing_order c pzs z ell q Hr Hg Hq) as (r & Er & _ & Vr). rewrite EK in Er. injection Er as <-. unfold el2. rewrite Vr. now rewrite nth_map_lt with (d := 0). }
  rewrite !V by assumption. apply (lensing_mono c _ _ _ _ z1 z2); auto. apply Hz. now apply nth_In.
Qed.

Lemma spectrum_source_order c ells bins m se T nl rows : reachable c -> expanding c -> _gamma_growth c = false -> 0 <= Omega_m c ->
  bins <> [] -> (forall d, In d bins -> exists z0, nz_fam d = Delta z0 /\ -1 < z0) -> (forall d, In d bins -> 0 <= nz_zmax d) ->
  (forall l, (l < length ells)%nat -> 1 <= el ells l) ->
  (forall l a, (l < length ells)%nat -> 1 / (1 + zmax_of bins) <= a <= 1 -> 0 <= nl c ((el ells l + 1 / 2) / Rmax (chi c a) 1) a T) ->
  angular_cl c (Array1 ells) [PWL (WL bins (MScalar m) None se)] T nl = Ok rows ->
  forall r r' i j i' j' zi zj zi' zj' l, nth_error (get_cl_ordering [PWL (WL bins (MScalar m) None se)]) r = Some (i, j) ->
    nth_error (get_cl_ordering [PWL (WL bins (MScalar m) None se)]) r' = Some (i', j') -> (l < length ells)%nat ->
    nz_fam (nth_nz bins i) = Delta zi -> nz_fam (nth_nz bins j) = Delta zj -> nz_fam (nth_nz bins i') = Delta zi' -> nz_fam (nth_nz bins j') = Delta zj' ->
    zi <= zi' -> zj <= zj' -> 0 <= el2 rows r l <= el2 rows r' l.
Proof.
  intros Hr HE Hg HO Hne HD HZ HEll HP E r r' i j i' j' zi zj zi' zj' l Hs Hs' Hl Fi Fj Fi' Fj' Li Lj.
  set (p := PWL (WL bins (MScalar m) None se)) in *.
  assert (Hok : probes_ok [p]) by (split; [ discriminate | intros q [<- | []]; split; [ exact Hne | split; exact I ]]).
  rewrite (rows_spectrum _ _ _ _ _ _ _ _ _ _ Hr Hg Hok E Hs Hl), (rows_spectrum _ _ _ _ _ _ _ _ _ _ Hr Hg Hok E Hs' Hl).
  assert (NB : n_bins [p] = length bins) by (unfold n_bins; simpl; now rewrite app_nil_r).
  destruct (ordering_bound [p] i j (nth_error_In _ _ Hs)) as [Bi Bj]. destruct (ordering_bound [p] i' j' (nth_error_In _ _ Hs')) as [Bi' Bj']. rewrite NB in *.
  assert (SK : forall q ell z, (q < length bins)%nat -> survey_kernel [p] q c ell z = (1 + m) * lensing c (zmax_of bins) (nth_nz bins q) ell z).
  { intros q ell z Hq. unfold survey_kernel. simpl. rewrite (proj2 (Nat.ltb_lt _ _) Hq). simpl. ring. }
  assert (POS : forall q zq, (q < length bins)%nat -> nz_fam (nth_nz bins q) = Delta zq -> -1 < zq).
  { intros q zq Hq Fq. destruct (HD (nth_nz bins q)) as (z0 & F0 & H0); [ now apply nth_In | ]. rewrite Fq in F0. injection F0 as ->. exact H0. }
  assert (ZM : survey_zmax [p] = zmax_of bins) by reflexivity.
  assert (Z0 : 0 <= zmax_of bins).
  { unfold zmax_of. destruct (list_max_spec (map nz_zmax bins)) as [A _]; [ destruct bins; [ congruence | discriminate ] | ].
    apply in_map_iff in A. destruct A as (b & <- & Hbb). now apply HZ. }
  unfold spectrum, limber. rewrite ZM. set (lo := 1 / (1 + zmax_of bins)).
  assert (LO : 0 < lo <= 1). { unfold lo. split; [ apply Rdiv_lt_0_compat; lra | ]. unfold Rdiv. rewrite Rmult_1_l, <- Rinv_1. apply Rinv_le_contravar; lra. }
  assert (PT : forall a, lo <= a <= 1 ->
     0 <= limber_weight c T nl (el ells l) a * survey_kernel [p] i c (el ells l) (1 / a - 1) * survey_kernel [p] j c (el ells l) (1 / a - 1)
       <= limber_weight c T nl (el ells l) a * survey_kernel [p] i' c (el ells l) (1 / a - 1) * survey_kernel [p] j' c (el ells l) (1 / a - 1)).
  { intros a Ha. rewrite !SK by assumption.
    assert (ZA : -1 < 1 / a - 1) by (assert (0 < 1 / a) by (apply Rdiv_lt_0_compat; lra); lra).
    destruct (lensing_mono c (zmax_of bins) (zmax_of bins) _ _ zi zi' (el ells l) (1 / a - 1) Hr HE HO (HEll l Hl) ZA (POS i zi Bi Fi) Li Fi Fi') as [K1 K2].
    destruct (lensing_mono c (zmax_of bins) (zmax_of bins) _ _ zj zj' (el ells l) (1 / a - 1) Hr HE HO (HEll l Hl) ZA (POS j zj Bj Fj) Lj Fj Fj') as [K3 K4].
    assert (WP : 0 <= limber_weight c T nl (el ells l) a).
    { unfold limber_weight. apply Rmult_le_pos; [ apply Rmult_le_pos; [ now apply HP | ] | left; apply Rinv_0_lt_compat; assert (1 <= Rmax (chi c a ^ 2) 1) by apply Rmax_r; lra ].
      left. apply Rdiv_lt_0_compat; [ lra | ]. apply Rmult_lt_0_compat; [ apply pow_lt; lra | ]. apply sqrt_lt_R0. apply HE. lra. }
    set (W := limber_weight c T nl (el ells l) a) in *. set (x := lensing c _ _ _ _) in *. set (y := lensing c _ (nth_nz bins j) _ _) in *.
    set (x' := lensing c _ (nth_nz bins i') _ _) in *. set (y' := lensing c _ (nth_nz bins j') _ _) in *.
    assert (M2 : 0 <= (1 + m) * (1 + m)) by exact (Rle_0_sqr (1 + m)). assert (XY : 0 <= x * y <= x' * y') by (split; [ now apply Rmult_le_pos | now apply Rmult_le_compat ]).
    replace (W * ((1 + m) * x) * ((1 + m) * y)) with (W * ((1 + m) * (1 + m)) * (x * y)) by ring.
    replace (W * ((1 + m) * x') * ((1 + m) * y')) with (W * ((1 + m) * (1 + m)) * (x' * y')) by ring.
    assert (0 <= W * ((1 + m) * (1 + m))) by (now apply Rmult_le_pos). split; [ apply Rmult_le_pos; lra | apply Rmult_le_compat_l; lra ]. }
  assert (NR : forall q, (q <= 512)%nat -> lo <= node lo 1 512 q <= 1) by (intros q Hq; pose proof (node_between lo 1 512 q ltac:(lia) Hq) as NB'; rewrite Rmin_left, Rmax_right in NB' by lra; exact NB').
  assert (IC : 0 < / 299792.458 ^ 2) by (apply Rinv_0_lt_compat; lra). unfold Rdiv at 1 4. split.
  - apply Rmult_le_pos; [ | lra ]. apply simpson_nonneg; [ lra | lia | ]. intros q Hq. apply PT. now apply NR.
  - apply Rmult_le_compat_r; [ lra | ]. apply Rminus_le_0.
    match goal with |- 0 <= simpson ?f _ _ _ - simpson ?g _ _ _ => assert (EQ : simpson f lo 1 512 - simpson g lo 1 512 = simpson (fun a => f a + -1 * g a) lo 1 512) by (rewrite simpson_plus, simpson_scal; ring) end.
    rewrite EQ. apply simpson_nonneg; [ lra | lia | ]. intros q Hq. specialize (PT _ (NR q Hq)). lra.
Qed.
