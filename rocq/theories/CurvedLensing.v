(** * The lensing kernel in curved universes *)
From Coquelicot Require Import Coquelicot.
From Verif Require Import Np NpLemmas Core IntegrateSpec Interp Background BgSpec BgTables BgAlgebra BgPositive BgFinal BgFinal4 BgAccuracy Redshift RedshiftSpec Bias Probes ProbesSpec ProbesProofs ProbesFinal CurvedSpec.
Opaque chi_table growth_table_ODE growth_table_gamma logspace.

Lemma x_cosh x : 0 < x -> sinh x < x * cosh x.
Proof.
  intros Hx.
  destruct (MVT_gen (fun t => t * cosh t - sinh t) 0 x (fun t => t * sinh t)) as (z & Hz & E).
  - intros t _. unfold cosh, sinh. auto_derive; [ auto | ]. field.
  - intros t _. apply continuity_pt_filterlim. apply (ex_derive_continuous (fun t => t * cosh t - sinh t)). unfold cosh, sinh. auto_derive. auto.
  - rewrite Rmin_left, Rmax_right in Hz by lra. simpl in E. rewrite sinh_0 in E.
    destruct (Req_dec z 0) as [-> | N].
    + exfalso.
      assert (P : forall t, 0 < t -> 0 < sinh t) by (intros t Ht; rewrite <- sinh_0; now apply sinh_lt).
      destruct (MVT_gen (fun t => t * cosh t - sinh t) (x / 2) x (fun t => t * sinh t)) as (y & Hy & E2).
      * intros t _. unfold cosh, sinh. auto_derive; [ auto | ]. field.
      * intros t _. apply continuity_pt_filterlim. apply (ex_derive_continuous (fun t => t * cosh t - sinh t)). unfold cosh, sinh. auto_derive. auto.
      * destruct (MVT_gen (fun t => t * cosh t - sinh t) 0 (x / 2) (fun t => t * sinh t)) as (u & Hu & E3).
        -- intros t _. unfold cosh, sinh. auto_derive; [ auto | ]. field.
        -- intros t _. apply continuity_pt_filterlim. apply (ex_derive_continuous (fun t => t * cosh t - sinh t)). unfold cosh, sinh. auto_derive. auto.
        -- rewrite Rmin_left, Rmax_right in Hy, Hu by lra. simpl in E2, E3. rewrite sinh_0 in E3.
           assert (0 < y * sinh y * (x - x / 2)) by (apply Rmult_lt_0_compat; [ apply Rmult_lt_0_compat; [ lra | apply P; lra ] | lra ]).
           assert (0 <= u * sinh u * (x / 2 - 0)).
           { apply Rmult_le_pos; [ | lra ]. apply Rmult_le_pos; [ lra | ]. destruct (Req_dec u 0) as [-> | ]; [ rewrite sinh_0; lra | left; apply P; lra ]. }
           lra.
    + assert (0 < sinh z) by (rewrite <- sinh_0; apply sinh_lt; lra).
      assert (0 < z * sinh z * (x - 0)) by (apply Rmult_lt_0_compat; [ apply Rmult_lt_0_compat; lra | lra ]). lra.
Qed.
Lemma x_cos x : 0 < x < PI -> x * cos x < sin x.
Proof.
  intros Hx.
  assert (M : forall p q, 0 <= p < q -> q <= x -> exists z, p <= z <= q /\ (sin q - q * cos q) - (sin p - p * cos p) = z * sin z * (q - p)).
  { intros p q Hp Hq.
    destruct (MVT_gen (fun t => sin t - t * cos t) p q (fun t => t * sin t)) as (z & Hz & E).
    - intros t _. auto_derive; [ auto | ]. ring.
    - intros t _. apply continuity_pt_filterlim. apply (ex_derive_continuous (fun t => sin t - t * cos t)). auto_derive. auto.
    - rewrite Rmin_left, Rmax_right in Hz by lra. exists z. split; [ lra | exact E ]. }
  assert (S : forall t, 0 <= t <= x -> 0 <= t * sin t) by (intros t Ht; apply Rmult_le_pos; [ lra | apply sin_ge_0; lra ]).
  destruct (M 0 (x / 2)) as (u & Hu & E1); [ lra | lra | ].
  destruct (M (x / 2) x) as (y & Hy & E2); [ lra | lra | ].
  assert (0 < y * sin y) by (apply Rmult_lt_0_compat; [ lra | apply sin_gt_0; lra ]).
  assert (0 < y * sin y * (x - x / 2)) by (apply Rmult_lt_0_compat; lra).
  assert (0 <= u * sin u * (x / 2 - 0)) by (apply Rmult_le_pos; [ apply S; lra | lra ]).
  rewrite sin_0 in E1. lra.
Qed.
Lemma sinh_add a b : sinh (a + b) = sinh a * cosh b + cosh a * sinh b.
Proof. unfold sinh, cosh. rewrite Ropp_plus_distr, !exp_plus. field. Qed.
(** harmonic means of the two distances *)
Lemma open_ratio K a b : 0 < K -> 0 < a -> 0 < b ->
  K * sinh (a / K) * (K * sinh (b / K)) / (K * sinh ((a + b) / K)) < a * b / (a + b).
Proof.
  intros HK Ha Hb. set (p := a / K). set (q := b / K).
  assert (Hp : 0 < p) by (apply Rdiv_lt_0_compat; lra). assert (Hq : 0 < q) by (apply Rdiv_lt_0_compat; lra).
  replace ((a + b) / K) with (p + q) by (unfold p, q; field; lra).
  replace a with (K * p) by (unfold p; field; lra). replace b with (K * q) by (unfold q; field; lra). clearbody p q.
  assert (Sp : 0 < sinh p) by (rewrite <- sinh_0; now apply sinh_lt). assert (Sq : 0 < sinh q) by (rewrite <- sinh_0; now apply sinh_lt).
  assert (Spq : 0 < sinh (p + q)) by (rewrite <- sinh_0; apply sinh_lt; lra).
  apply (Rmult_lt_reg_r (sinh (p + q) * (p + q) / K)).
  { apply Rdiv_lt_0_compat; [ apply Rmult_lt_0_compat; lra | lra ]. }
  replace (K * sinh p * (K * sinh q) / (K * sinh (p + q)) * (sinh (p + q) * (p + q) / K)) with (sinh p * sinh q * (p + q)) by (field; lra).
  replace (K * p * (K * q) / (K * p + K * q) * (sinh (p + q) * (p + q) / K)) with (p * q * sinh (p + q)) by (field; repeat split; try lra; replace (K * p + K * q) with (K * (p + q)) by ring; apply Rgt_not_eq, Rmult_lt_0_compat; lra).
  rewrite sinh_add. pose proof (x_cosh p Hp). pose proof (x_cosh q Hq).
  assert (0 < p * sinh p * (q * cosh q - sinh q)) by (apply Rmult_lt_0_compat; [ apply Rmult_lt_0_compat; lra | lra ]).
  assert (0 < q * sinh q * (p * cosh p - sinh p)) by (apply Rmult_lt_0_compat; [ apply Rmult_lt_0_compat; lra | lra ]).
  lra.
Qed.
Lemma closed_ratio K a b : 0 < K -> 0 < a -> 0 < b -> a + b < K * PI ->
  a * b / (a + b) < K * sin (a / K) * (K * sin (b / K)) / (K * sin ((a + b) / K)).
Proof.
  intros HK Ha Hb Hpi. set (p := a / K). set (q := b / K).
  assert (Hp : 0 < p) by (apply Rdiv_lt_0_compat; lra). assert (Hq : 0 < q) by (apply Rdiv_lt_0_compat; lra).
  replace ((a + b) / K) with (p + q) by (unfold p, q; field; lra).
  replace a with (K * p) in * by (unfold p; field; lra). replace b with (K * q) in * by (unfold q; field; lra).
  assert (HPI : p + q < PI) by (apply (Rmult_lt_reg_l K); [ lra | lra ]). clearbody p q. clear Ha Hb Hpi.
  assert (Sp : 0 < sin p) by (apply sin_gt_0; lra). assert (Sq : 0 < sin q) by (apply sin_gt_0; lra).
  assert (Spq : 0 < sin (p + q)) by (apply sin_gt_0; lra).
  apply (Rmult_lt_reg_r (sin (p + q) * (p + q) / K)).
  { apply Rdiv_lt_0_compat; [ apply Rmult_lt_0_compat; lra | lra ]. }
  replace (K * sin p * (K * sin q) / (K * sin (p + q)) * (sin (p + q) * (p + q) / K)) with (sin p * sin q * (p + q)) by (field; lra).
  replace (K * p * (K * q) / (K * p + K * q) * (sin (p + q) * (p + q) / K)) with (p * q * sin (p + q)) by (field; repeat split; try lra; replace (K * p + K * q) with (K * (p + q)) by ring; apply Rgt_not_eq, Rmult_lt_0_compat; lra).
  rewrite sin_plus. assert (Cp : p * cos p < sin p) by (apply x_cos; lra). assert (Cq : q * cos q < sin q) by (apply x_cos; lra).
  assert (0 < p * sin p * (sin q - q * cos q)) by (apply Rmult_lt_0_compat; [ apply Rmult_lt_0_compat; lra | lra ]).
  assert (0 < q * sin q * (sin p - p * cos p)) by (apply Rmult_lt_0_compat; [ apply Rmult_lt_0_compat; lra | lra ]).
  lra.
Qed.

(** the distances of the specification are those of transverse_comoving_distance *)
Lemma angular_is_transverse c a : reachable c -> angular_distance c (chi c a) = f_k c a.
Proof.
  intros Hr. destruct (transverse_properties c Hr) as (_ & _ & F & O & C & _). unfold angular_distance. cbv zeta.
  destruct (Rlt_dec 0 (_Omega_k c)) as [P | P]; [ now rewrite (proj1 (O P a)) | ].
  destruct (Rlt_dec (_Omega_k c) 0) as [N | N]; [ now rewrite (proj1 (C N a)) | ]. rewrite F; [ reflexivity | lra ].
Qed.

(** kernel of one source plane *)
Lemma plane_kernel c z0 g zm z ell : reachable c -> _gamma_growth c = false ->
  weak_lensing_kernel c [nz_new (Delta z0) g zm] [z] ell =
  Ok [[3 / 2 * 100 ^ 2 * Omega_m c / 299792.458 * spin2 ell * ((1 + z) * dist c z * (Rmax (dist c z0 - dist c z) 0 / Rmax (dist c z0) 1))]].
Proof.
  intros Hr Hg. destruct (lensing_order c [nz_new (Delta z0) g zm] [z] ell 0 Hr Hg ltac:(simpl; lia)) as (rows & -> & L & V).
  destruct rows as [ | r [ | r2 rows]]; try discriminate L. simpl in V. subst r. reflexivity.
Qed.
Lemma spin2_pos ell : 1 < ell -> 0 < spin2 ell.
Proof.
  intros H. unfold spin2. apply Rdiv_lt_0_compat; [ | apply pow_lt; lra ]. apply sqrt_lt_R0.
  repeat apply Rmult_lt_0_compat; lra.
Qed.

Lemma curvature_ignored : forall c z z' g zm ell, reachable c -> _gamma_growth c = false -> 0 < Omega_m c -> 1 < ell -> -1 < z ->
  0 < dist c z < dist c z' -> 1 <= dist c z' ->
  exists v, weak_lensing_kernel c [nz_new (Delta z') g zm] [z] ell = Ok [[v]] /\
    (_Omega_k c = 0 -> v = plane_lensing c ell z z') /\
    (0 < _Omega_k c -> plane_lensing c ell z z' < v) /\
    (_Omega_k c < 0 -> dist c z' * sqrt (- _Omega_k c) < PI * 2997.92458 -> v < plane_lensing c ell z z').
Proof.
  intros c z z' g zm ell Hr Hg HO He Hz [H1 H2] H3. eexists. split; [ now apply plane_kernel | ].
  rewrite !Rmax_left by lra. unfold plane_lensing, angular_distance. cbv zeta.
  assert (A : 0 < 3 / 2 * 100 ^ 2 * Omega_m c / 299792.458 * spin2 ell).
  { apply Rmult_lt_0_compat; [ | now apply spin2_pos ]. apply Rdiv_lt_0_compat; [ | lra ]. apply Rmult_lt_0_compat; lra. }
  set (x := dist c z) in *. set (y := dist c z') in *.
  replace ((1 + z) * x * ((y - x) / y)) with ((1 + z) * (x * (y - x) / (x + (y - x)))) by (field; lra).
  split; [ | split ].
  - intros E. rewrite E. destruct (Rlt_dec 0 0); [ lra | ]. do 3 f_equal. ring.
  - intros P. destruct (Rlt_dec 0 (_Omega_k c)); [ | lra ].
    apply Rmult_lt_compat_l; [ exact A | ]. apply Rmult_lt_compat_l; [ lra | ].
    replace (y / (2997.92458 / sqrt (Rabs (_Omega_k c)))) with ((x + (y - x)) / (2997.92458 / sqrt (Rabs (_Omega_k c)))) by (f_equal; ring).
    apply open_ratio; try lra. apply Rdiv_lt_0_compat; [ lra | ]. apply sqrt_lt_R0. apply Rabs_pos_lt. lra.
  - intros N Hpi. destruct (Rlt_dec 0 (_Omega_k c)); [ lra | ]. destruct (Rlt_dec (_Omega_k c) 0); [ | lra ].
    apply Rmult_lt_compat_l; [ exact A | ]. apply Rmult_lt_compat_l; [ lra | ].
    replace (y / (2997.92458 / sqrt (Rabs (_Omega_k c)))) with ((x + (y - x)) / (2997.92458 / sqrt (Rabs (_Omega_k c)))) by (f_equal; ring).
    rewrite Rabs_left by lra. assert (S : 0 < sqrt (- _Omega_k c)) by (apply sqrt_lt_R0; lra).
    apply closed_ratio; try lra; [ apply Rdiv_lt_0_compat; lra | ].
    apply (Rmult_lt_reg_r (sqrt (- _Omega_k c))); [ exact S | ]. replace (2997.92458 / sqrt (- _Omega_k c) * PI * sqrt (- _Omega_k c)) with (PI * 2997.92458) by (field; lra).
    replace (x + (y - x)) with y by ring. exact Hpi.
Qed.

(** ** cases: nodes next to the present *)
Lemma ln10_ge2 : 2 <= ln 10.
Proof.
  apply Rnot_lt_le; intros H. apply exp_increasing in H. rewrite exp_ln in H by lra.
  replace 2 with (1 + 1) in H by lra. rewrite exp_plus in H. pose proof exp_le_3. pose proof (exp_pos 1). nra.
Qed.
Lemma INR_pos_IZR p : INR (Pos.to_nat p) = IZR (Zpos p).
Proof. rewrite INR_IZR_INZ, positive_nat_Z. reflexivity. Qed.
Lemma ln_node i : ln (table_node 256 i) = (-3 + INR i * (3 / 255)) * ln 10.
Proof. unfold table_node. rewrite ln_pow10. replace (INR (256 - 1)) with 255; [ reflexivity | ]. change (256 - 1)%nat with (Pos.to_nat 255). now rewrite INR_pos_IZR. Qed.
Lemma simpson_between f a b lo hi : a < b -> (forall x, a <= x <= b -> lo <= f x <= hi) -> (b - a) * lo <= simpson f a b 2 <= (b - a) * hi.
Proof.
  intros Hab HB. unfold simpson. simpl (2 / 2)%nat. unfold Rsum. simpl. rewrite !Rplus_0_l.
  assert (N : forall i, (i <= 2)%nat -> a <= node a b 2 i <= b).
  { intros i Hi. unfold node. simpl INR. destruct i as [ | [ | [ | i]]]; simpl; try lia; lra. }
  pose proof (HB _ (N 0%nat ltac:(lia))) as B0. pose proof (HB _ (N 1%nat ltac:(lia))) as B1. pose proof (HB _ (N 2%nat ltac:(lia))) as B2.
  set (f0 := f (node a b 2 0)) in *. set (f1 := f (node a b 2 1)) in *. set (f2 := f (node a b 2 2)) in *.
  match goal with |- _ <= ?e <= _ => replace e with ((b - a) * ((f0 + 4 * f1 + f2) / 6)) by field end.
  split; apply Rmult_le_compat_l; lra.
Qed.
Lemma near_cell c i lo hi : reachable c -> expanding c -> (252 <= i <= 254)%nat -> 0 < lo ->
  (forall a, 0.9 <= a <= 1 -> lo <= a ^ 2 * Esqr c a <= hi) ->
  0.02 * (2997 / sqrt hi) <= chi c (table_node 256 i) - chi c (table_node 256 (i + 1)) <= 0.03 * (2998 / sqrt lo).
Proof.
  intros Hr HE Hi Hlo HB. rewrite (distance_simpson c i Hr HE) by lia.
  pose proof ln10_ge2 as L1. pose proof ln10_tight as L2.
  assert (Hi1 : 252 <= INR i) by (replace 252 with (INR (Pos.to_nat 252)) by apply INR_pos_IZR; apply le_INR; lia).
  assert (Hi2 : INR i <= 254) by (replace 254 with (INR (Pos.to_nat 254)) by apply INR_pos_IZR; apply le_INR; lia).
  rewrite !ln_node, plus_INR. change (INR 1) with 1.
  set (p := (-3 + INR i * (3 / 255)) * ln 10). set (q := (-3 + (INR i + 1) * (3 / 255)) * ln 10).
  assert (Hq : q - p = 3 / 255 * ln 10) by (unfold p, q; ring).
  assert (Hp : -0.09 <= p) by (unfold p; nra).
  assert (Hq0 : q <= 0) by (unfold q; nra).
  assert (Hh : 0 < hi) by (pose proof (HB 1 ltac:(lra)); lra).
  assert (Sl : 0 < sqrt lo) by now apply sqrt_lt_R0. assert (Sh : 0 < sqrt hi) by now apply sqrt_lt_R0.
  assert (F : forall x, p <= x <= q -> 2997 / sqrt hi <= 2997.92458 / (exp x * sqrt (Esqr c (exp x))) <= 2998 / sqrt lo).
  { intros x Hx. pose proof (exp_ineq1_le x) as E1. assert (E2 : exp x <= 1) by (rewrite <- exp_0; destruct (Req_dec x 0) as [-> | ]; [ lra | left; apply exp_increasing; lra ]).
    pose proof (exp_pos x) as E0.
    replace (exp x * sqrt (Esqr c (exp x))) with (sqrt (exp x ^ 2 * Esqr c (exp x))).
    2: { rewrite sqrt_mult_alt by (apply pow2_ge_0). f_equal. apply sqrt_pow2. lra. }
    destruct (HB (exp x) ltac:(lra)) as [B1 B2]. pose proof (sqrt_le_1_alt _ _ B1) as R1. pose proof (sqrt_le_1_alt _ _ B2) as R2.
    set (r := sqrt (exp x ^ 2 * Esqr c (exp x))) in *. assert (0 < r) by lra.
    split.
    - apply Rle_trans with (2997.92458 / sqrt hi); [ apply Rmult_le_compat_r; [ left; now apply Rinv_0_lt_compat | lra ] | ].
      apply Rmult_le_compat_l; [ lra | ]. now apply Rinv_le_contravar.
    - apply Rle_trans with (2998 / r); [ apply Rmult_le_compat_r; [ left; now apply Rinv_0_lt_compat | lra ] | ].
      apply Rmult_le_compat_l; [ lra | ]. now apply Rinv_le_contravar. }
  pose proof (simpson_between (fun x => 2997.92458 / (exp x * sqrt (Esqr c (exp x)))) p q _ _ ltac:(lra) F) as [S1 S2].
  assert (0 < 2997 / sqrt hi) by (apply Rdiv_lt_0_compat; lra). assert (0 < 2998 / sqrt lo) by (apply Rdiv_lt_0_compat; lra).
  split; [ eapply Rle_trans; [ | exact S1 ] | eapply Rle_trans; [ exact S2 | ]]; apply Rmult_le_compat_r; lra.
Qed.

Definition open_lcdm : cosmology := make_cosmology 0.25 0.05 0.7 0.96 0.8 0.1 (-1) 0 None.
Lemma open_lcdm_ok : reachable open_lcdm /\ expanding open_lcdm.
Proof.
  split; [ exists open_lcdm, []; split; [ split; reflexivity | reflexivity ] | ].
  apply physical_expanding. unfold physical, Omega_de, Omega_m, Omega_k, Omega, open_lcdm, make_cosmology; simpl; repeat split; lra.
Qed.
Lemma density_form m k d a : a <> 0 -> a ^ 2 * (m * / a ^ 3 + k * / a ^ 2 + d * 1) = m * / a + k + d * a ^ 2.
Proof. intros; field; assumption. Qed.
Lemma open_density a : 0.9 <= a <= 1 -> 0.1 <= a ^ 2 * Esqr open_lcdm a <= 4.
Proof.
  intros Ha. unfold Esqr, f_de, Omega_de, Omega_m, Omega_k, Omega, open_lcdm, make_cosmology; simpl _Omega_c; simpl _Omega_b; simpl _Omega_k; simpl _w0; simpl _wa.
  replace (-3.0 * (1.0 + -1 + 0) * ln a + 3.0 * 0 * (a - 1.0)) with 0 by lra. rewrite exp_0.
  rewrite density_form by lra.
  assert (1 <= / a) by (rewrite <- Rinv_1; apply Rinv_le_contravar; lra). assert (/ a <= / 0.9) by (apply Rinv_le_contravar; lra). assert (/ 0.9 < 2) by lra. nra.
Qed.
Lemma closed_density a : 0.9 <= a <= 1 -> 0.1 <= a ^ 2 * Esqr closed_lcdm a <= 4.
Proof.
  intros Ha. unfold Esqr, f_de, Omega_de, Omega_m, Omega_k, Omega, closed_lcdm, make_cosmology; simpl _Omega_c; simpl _Omega_b; simpl _Omega_k; simpl _w0; simpl _wa.
  replace (-3.0 * (1.0 + -1 + 0) * ln a + 3.0 * 0 * (a - 1.0)) with 0 by lra. rewrite exp_0.
  rewrite density_form by lra.
  assert (1 <= / a) by (rewrite <- Rinv_1; apply Rinv_le_contravar; lra). assert (/ a <= / 0.9) by (apply Rinv_le_contravar; lra). assert (/ 0.9 < 2) by lra. nra.
Qed.
Definition z_near : R := 1 / table_node 256 254 - 1.
Definition z_far : R := 1 / table_node 256 253 - 1.
Lemma dist_node c i z : z = 1 / table_node 256 i - 1 -> dist c z = chi c (table_node 256 i).
Proof. intros ->. unfold dist. f_equal. unfold table_node, pow10. pose proof (exp_pos ((-3 + INR i * (3 / INR (256 - 1))) * ln 10)). field. lra. Qed.
Lemma near_far c : reachable c -> expanding c -> (forall a, 0.9 <= a <= 1 -> 0.1 <= a ^ 2 * Esqr c a <= 4) ->
  -1 < z_near /\ 0 < dist c z_near < dist c z_far /\ 1 <= dist c z_far <= 1000.
Proof.
  intros Hr HE HB. rewrite (dist_node c 254 z_near eq_refl), (dist_node c 253 z_far eq_refl).
  pose proof (near_cell c 254 0.1 4 Hr HE ltac:(lia) ltac:(lra) HB) as A. pose proof (near_cell c 253 0.1 4 Hr HE ltac:(lia) ltac:(lra) HB) as B.
  change (254 + 1)%nat with 255%nat in A. change (253 + 1)%nat with 254%nat in B.
  assert (E1 : chi c (table_node 256 255) = 0).
  { destruct (distance_properties c Hr HE) as (_ & E & _). rewrite <- E. f_equal. unfold table_node. change (256 - 1)%nat with 255%nat.
    replace (-3 + INR 255 * (3 / INR 255)) with 0 by (field; apply not_0_INR; discriminate). unfold pow10. now rewrite Rmult_0_l, exp_0. }
  rewrite E1 in A.
  assert (S4 : sqrt 4 = 2) by (replace 4 with (2 * 2) by lra; apply sqrt_square; lra). rewrite S4 in *.
  assert (S1 : 0.25 <= sqrt 0.1). { rewrite <- (sqrt_square 0.25) by lra. apply sqrt_le_1_alt. lra. }
  assert (U : 2998 / sqrt 0.1 <= 2998 * 4). { apply Rmult_le_compat_l; [ lra | ]. replace 4 with (/ 0.25) by lra. apply Rinv_le_contravar; lra. }
  assert (P : 0 < / table_node 256 254) by (apply Rinv_0_lt_compat; unfold table_node, pow10; apply exp_pos).
  unfold z_near. repeat split; try lra; unfold Rdiv; lra.
Qed.
Lemma ex_curved : (reachable open_lcdm /\ _gamma_growth open_lcdm = false /\ 0 < Omega_m open_lcdm /\ -1 < z_near /\
    0 < dist open_lcdm z_near < dist open_lcdm z_far /\ 1 <= dist open_lcdm z_far /\ 0 < _Omega_k open_lcdm) /\
  (reachable closed_lcdm /\ _gamma_growth closed_lcdm = false /\ 0 < Omega_m closed_lcdm /\ -1 < z_near /\
    0 < dist closed_lcdm z_near < dist closed_lcdm z_far /\ 1 <= dist closed_lcdm z_far /\ _Omega_k closed_lcdm < 0 /\
    dist closed_lcdm z_far * sqrt (- _Omega_k closed_lcdm) < PI * 2997.92458).
Proof.
  destruct open_lcdm_ok as [O1 O2]. destruct closed_ok as (C1 & C2 & C3).
  destruct (near_far open_lcdm O1 O2 open_density) as (a1 & a2 & a3). destruct (near_far closed_lcdm C1 C3 closed_density) as (b1 & b2 & b3).
  assert (Om : 0 < Omega_m open_lcdm) by (unfold Omega_m, open_lcdm, make_cosmology; simpl; lra).
  assert (Ok1 : 0 < _Omega_k open_lcdm) by (unfold open_lcdm, make_cosmology; simpl; lra).
  assert (Cm : 0 < Omega_m closed_lcdm) by (unfold Omega_m, closed_lcdm, make_cosmology; simpl; lra).
  split.
  - split; [ exact O1 | ]. split; [ reflexivity | ]. split; [ exact Om | ]. split; [ exact a1 | ]. split; [ exact a2 | ]. split; [ exact (proj1 a3) | exact Ok1 ].
  - split; [ exact C1 | ]. split; [ reflexivity | ]. split; [ exact Cm | ]. split; [ exact b1 | ]. split; [ exact b2 | ]. split; [ exact (proj1 b3) | ]. split; [ exact C2 | ].
    assert (S : sqrt (- _Omega_k closed_lcdm) <= 1). { rewrite <- sqrt_1. apply sqrt_le_1_alt. unfold closed_lcdm, make_cosmology; simpl; lra. }
    pose proof (sqrt_pos (- _Omega_k closed_lcdm)) as S0. pose proof PI2_1. set (r := sqrt (- _Omega_k closed_lcdm)) in *. clearbody r.
    apply Rle_lt_trans with (1000 * 1); [ apply Rmult_le_compat; lra | ]. lra.
Qed.
Lemma curved_refuted : exists c z z' g zm ell v, reachable c /\ expanding c /\ _gamma_growth c = false /\ 0 < Omega_m c /\ 1 < ell /\
  0 < dist c z < dist c z' /\ 1 <= dist c z' /\ weak_lensing_kernel c [nz_new (Delta z') g zm] [z] ell = Ok [[v]] /\ v <> plane_lensing c ell z z'.
Proof.
  destruct ex_curved as [(A & B & C & D & E & F & G) _].
  destruct (curvature_ignored open_lcdm z_near z_far 1 10 100 A B C ltac:(lra) D E F) as (v & V & _ & O & _).
  exists open_lcdm, z_near, z_far, 1, 10, 100, v. split; [ exact A | split; [ apply open_lcdm_ok | ]]. split; [ exact B | split; [ exact C | split; [ lra | split; [ exact E | split; [ exact F | split; [ exact V | ]]]]]]. apply Rgt_not_eq. now apply O.
Qed.
