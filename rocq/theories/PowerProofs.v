(** * Proofs about the matter power spectrum *)
From Coquelicot Require Import Coquelicot.
From Verif Require Import Np NpLemmas Integrate IntegrateSpec SimpsProofs RombProofs Core Interp Background BgGrowth Transfer Power PowerSpec.

Lemma romberg_ext f g a b i k : (forall j n, (j <= n)%nat -> (1 <= n)%nat -> f (node a b n j) = g (node a b n j)) ->
  romberg f a b i k = romberg g a b i k.
Proof.
  intros E.
  assert (T : forall n, (1 <= n)%nat -> trapezoid f a b n = trapezoid g a b n).
  { intros n Hn. unfold trapezoid. f_equal. apply Rsum_ext. intros j Hj. rewrite !E by lia. reflexivity. }
  revert i. induction k as [ | k IH]; intros i.
  - destruct i; apply T; apply pow2_pos.
  - destruct i; simpl; [ apply T; lia | ]. rewrite !IH. reflexivity.
Qed.
Lemma romberg_scal c f a b i k : romberg (fun x => c * f x) a b i k = c * romberg f a b i k.
Proof.
  revert i. induction k as [ | k IH]; intros i.
  - destruct i; apply trapezoid_scal.
  - destruct i; simpl; [ apply trapezoid_scal | ]. rewrite !IH. unfold Rdiv. ring.
Qed.

Lemma midpoints f a b i : exists M, trapezoid f a b (2 ^ S i) = trapezoid f a b (2 ^ i) / 2 + M /\
  (a <= b -> (forall x, a <= x <= b -> 0 <= f x) -> 0 <= M).
Proof.
  eexists. split.
  - change (2 ^ S i)%nat with (2 * 2 ^ i)%nat. apply trapezoid_refine, pow2_pos.
  - intros Hab Hf. pose proof (pow2_pos i). assert (P : 0 < INR (2 * 2 ^ i)) by (apply lt_0_INR; lia).
    apply Rmult_le_pos; [ apply Rmult_le_pos; [ lra | left; now apply Rinv_0_lt_compat ] | ].
    apply Rsum_nonneg. intros j Hj. apply Hf. unfold node.
    assert (0 <= INR (2 * j + 1) / INR (2 * 2 ^ i) <= 1).
    { split; [ apply Rmult_le_pos; [ apply pos_INR | left; now apply Rinv_0_lt_compat ] | ].
      apply Rmult_le_reg_r with (INR (2 * 2 ^ i)); [ exact P | ]. unfold Rdiv. rewrite Rmult_assoc, Rinv_l, Rmult_1_r, Rmult_1_l by lra.
      apply le_INR. lia. }
    replace (a + INR (2 * j + 1) * ((b - a) / INR (2 * 2 ^ i))) with (a + INR (2 * j + 1) / INR (2 * 2 ^ i) * (b - a)) by (field; lra).
    nra.
Qed.

(** all weights of the Romberg rule with 128 panels are positive *)
Lemma romberg7_nonneg f a b : a <= b -> (forall x, a <= x <= b -> 0 <= f x) -> 0 <= romberg f a b 7 7.
Proof.
  intros Hab Hf.
  destruct (midpoints f a b 0) as (M1 & E1 & P1). destruct (midpoints f a b 1) as (M2 & E2 & P2).
  destruct (midpoints f a b 2) as (M3 & E3 & P3). destruct (midpoints f a b 3) as (M4 & E4 & P4).
  destruct (midpoints f a b 4) as (M5 & E5 & P5). destruct (midpoints f a b 5) as (M6 & E6 & P6).
  destruct (midpoints f a b 6) as (M7 & E7 & P7).
  specialize (P1 Hab Hf). specialize (P2 Hab Hf). specialize (P3 Hab Hf). specialize (P4 Hab Hf).
  specialize (P5 Hab Hf). specialize (P6 Hab Hf). specialize (P7 Hab Hf).
  assert (P0 : 0 <= trapezoid f a b (2 ^ 0)).
  { change (2 ^ 0)%nat with 1%nat. rewrite trapezoid_1. pose proof (Hf a ltac:(lra)). pose proof (Hf b ltac:(lra)). nra. }
  assert (Z : forall i, romberg f a b i 0 = trapezoid f a b (2 ^ i)) by (intros [ | i]; reflexivity).
  assert (S1 : forall i k, romberg f a b (S i) (S k) = (4 ^ S k * romberg f a b (S i) k - romberg f a b i k) / (4 ^ S k - 1)) by reflexivity.
  generalize dependent (romberg f a b). intros r Z S1.
  rewrite <- Z in P0, E1. rewrite <- !Z in *.
  assert (A1 : forall i, r (S i) 1%nat = (4 * r (S i) 0%nat - r i 0%nat) / 3) by (intros; rewrite S1; lra).
  assert (A2 : forall i, r (S i) 2%nat = (16 * r (S i) 1%nat - r i 1%nat) / 15) by (intros; rewrite S1; lra).
  assert (A3 : forall i, r (S i) 3%nat = (64 * r (S i) 2%nat - r i 2%nat) / 63) by (intros; rewrite S1; lra).
  assert (A4 : forall i, r (S i) 4%nat = (256 * r (S i) 3%nat - r i 3%nat) / 255) by (intros; rewrite S1; lra).
  assert (A5 : forall i, r (S i) 5%nat = (1024 * r (S i) 4%nat - r i 4%nat) / 1023) by (intros; rewrite S1; lra).
  assert (A6 : forall i, r (S i) 6%nat = (4096 * r (S i) 5%nat - r i 5%nat) / 4095) by (intros; rewrite S1; lra).
  assert (A7 : forall i, r (S i) 7%nat = (16384 * r (S i) 6%nat - r i 6%nat) / 16383) by (intros; rewrite S1; lra).
  rewrite A7, !A6, !A5, !A4, !A3, !A2, !A1.
  rewrite E7, E6, E5, E4, E3, E2, E1. lra.
Qed.

Lemma sigma_density c r T x : 1.0 / (2.0 * PI ^ 2) * int_sigma c r T x =
  variance_density (fun k => T c k ^ 2 * primordial_matter_power c k) r x.
Proof.
  unfold int_sigma, variance_density, tophat. cbv zeta. pose proof PI_RGT_0. replace 3.0 with 3 by lra.
  replace (1.0 / (2.0 * PI ^ 2)) with (/ (2 * PI ^ 2)) by (replace 1.0 with 1 by lra; replace 2.0 with 2 by lra; field; lra).
  unfold Rdiv. replace (exp x * r * (exp x * r) * (exp x * r)) with ((exp x * r) ^ 3) by ring. ring.
Qed.
Lemma sigmasqr_variance c r T kmin kmax :
  sigmasqr c r T kmin kmax = code_variance (fun k => T c k ^ 2 * primordial_matter_power c k) r kmin kmax.
Proof.
  unfold sigmasqr, Power.romb_value, code_variance. rewrite RombProofs.romb_value by lia. cbn [fst].
  rewrite <- romberg_scal. apply romberg_ext. intros j n _ _. apply sigma_density.
Qed.
Lemma primordial_nonneg c k : 0 <= primordial_matter_power c k.
Proof. apply rpow_nonneg. Qed.
Lemma variance_density_nonneg P r x : (forall k, 0 <= P k) -> 0 <= variance_density P r x.
Proof.
  intros HP. unfold variance_density. pose proof PI_RGT_0. assert (0 < PI ^ 2) by (apply pow_lt; lra).
  apply Rmult_le_pos; [ | left; apply Rinv_0_lt_compat; lra ].
  apply Rmult_le_pos; [ apply Rmult_le_pos; [ left; apply pow_lt, exp_pos | apply HP ] | apply pow2_ge_0 ].
Qed.
Lemma log10_le x y : 0 < x <= y -> log10 x <= log10 y.
Proof.
  intros [Hx Hy]. unfold log10. assert (0 < ln 10) by (rewrite <- ln_1; apply ln_increasing; lra).
  apply Rmult_le_compat_r; [ left; now apply Rinv_0_lt_compat | ]. destruct (Req_dec x y) as [-> | ]; [ lra | left; apply ln_increasing; lra ].
Qed.
Lemma sigmasqr_nonneg c r T kmin kmax : 0 < kmin <= kmax -> 0 <= sigmasqr c r T kmin kmax.
Proof.
  intros Hk. rewrite sigmasqr_variance. apply romberg7_nonneg; [ now apply log10_le | ]. intros x _.
  apply variance_density_nonneg. intros k. apply Rmult_le_pos; [ apply pow2_ge_0 | apply primordial_nonneg ].
Qed.
Lemma code_variance_scal q P r kmin kmax : code_variance (fun k => q * P k) r kmin kmax = q * code_variance P r kmin kmax.
Proof.
  unfold code_variance. rewrite <- romberg_scal. apply romberg_ext. intros j n _ _. unfold variance_density, Rdiv. ring.
Qed.
Lemma code_variance_ext P Q r kmin kmax : (forall k, 0 < k -> P k = Q k) -> code_variance P r kmin kmax = code_variance Q r kmin kmax.
Proof. intros E. apply romberg_ext. intros j n _ _. unfold variance_density. rewrite E by apply exp_pos. reflexivity. Qed.

(** ** sigma8 normalisation *)
Lemma linear_variance c T a : sigmasqr_default c 8.0 T <> 0 ->
  code_variance (fun k => linear_matter_power c k a T) 8 0.0001 1000 = _sigma8 c ^ 2 * D c a ^ 2.
Proof.
  intros HS. unfold linear_matter_power. cbv zeta. unfold sigmasqr_default in *.
  set (q := _sigma8 c ^ 2 / sigmasqr c 8.0 T 0.0001 1000.0 * D c a ^ 2).
  rewrite (code_variance_ext _ (fun k => q * (T c k ^ 2 * primordial_matter_power c k))).
  - rewrite code_variance_scal. rewrite sigmasqr_variance in HS.
    replace 8.0 with 8 in HS by lra. replace 1000.0 with 1000 in HS by lra.
    unfold q. rewrite sigmasqr_variance. replace 8.0 with 8 by lra. replace 1000.0 with 1000 by lra. field. exact HS.
  - intros k _. unfold q. ring.
Qed.

(** ** growth scaling, positivity, transfer amplitude *)
Lemma linear_growth c k a T : D c 1 = 1 -> linear_matter_power c k a T = linear_matter_power c k 1 T * D c a ^ 2.
Proof. intros H1. unfold linear_matter_power. rewrite H1. ring. Qed.
Lemma linear_nonneg c k a T : sigmasqr_default c 8.0 T <> 0 -> 0 <= linear_matter_power c k a T.
Proof.
  intros HS. pose proof (sigmasqr_nonneg c 8.0 T 0.0001 1000.0 ltac:(lra)) as N. unfold sigmasqr_default in HS.
  unfold linear_matter_power, sigmasqr_default. cbv zeta.
  apply Rmult_le_pos; [ apply Rmult_le_pos; [ apply Rmult_le_pos; [ apply primordial_nonneg | apply pow2_ge_0 ] | apply pow2_ge_0 ] | ].
  apply Rmult_le_pos; [ apply pow2_ge_0 | ]. left; apply Rinv_0_lt_compat. lra.
Qed.
Lemma linear_pos c k a T : sigmasqr_default c 8.0 T <> 0 -> 0 < k -> T c k <> 0 -> D c a <> 0 -> _sigma8 c <> 0 ->
  0 < linear_matter_power c k a T.
Proof.
  intros HS Hk HT HD H8. pose proof (sigmasqr_nonneg c 8.0 T 0.0001 1000.0 ltac:(lra)) as N. unfold sigmasqr_default in HS.
  unfold linear_matter_power, sigmasqr_default. cbv zeta.
  assert (SQ : forall x : R, x <> 0 -> 0 < x ^ 2) by (intros x Hx; replace (x ^ 2) with (Rsqr x) by (unfold Rsqr; ring); now apply Rsqr_pos_lt).
  apply Rmult_lt_0_compat; [ apply Rmult_lt_0_compat; [ apply Rmult_lt_0_compat; [ | auto ] | auto ] | ].
  - unfold primordial_matter_power. rewrite rpow_pos by assumption. apply exp_pos.
  - apply Rdiv_lt_0_compat; [ auto | lra ].
Qed.
Lemma linear_rescale c k a T s : s <> 0 -> sigmasqr_default c 8.0 T <> 0 ->
  linear_matter_power c k a (fun c k => s * T c k) = linear_matter_power c k a T.
Proof.
  intros Hs HS. unfold linear_matter_power. cbv zeta. unfold sigmasqr_default in *. rewrite !sigmasqr_variance in *.
  rewrite (code_variance_ext (fun k0 => (s * T c k0) ^ 2 * primordial_matter_power c k0) (fun k0 => s ^ 2 * (T c k0 ^ 2 * primordial_matter_power c k0))) by (intros; ring).
  rewrite code_variance_scal. field. split; assumption.
Qed.

(** ** which wavenumbers sigmasqr looks at *)
Lemma node_range a b n j : a <= b -> (j <= n)%nat -> (1 <= n)%nat -> a <= node a b n j <= b.
Proof.
  intros Hab Hj Hn. unfold node. assert (P : 0 < INR n) by (apply lt_0_INR; lia).
  assert (0 <= INR j / INR n <= 1).
  { split; [ apply Rmult_le_pos; [ apply pos_INR | left; now apply Rinv_0_lt_compat ] | ].
    apply Rmult_le_reg_r with (INR n); [ exact P | ]. unfold Rdiv. rewrite Rmult_assoc, Rinv_l, Rmult_1_r, Rmult_1_l by lra. now apply le_INR. }
  replace (a + INR j * ((b - a) / INR n)) with (a + INR j / INR n * (b - a)) by (field; lra). nra.
Qed.
Lemma exp_mono x y : x <= y -> exp x <= exp y.
Proof. intros [H | ->]; [ left; now apply exp_increasing | lra ]. Qed.
Lemma sigmasqr_range c r T T' kmin kmax : 0 < kmin <= kmax ->
  (forall k, exp (log10 kmin) <= k <= exp (log10 kmax) -> T c k = T' c k) ->
  sigmasqr c r T kmin kmax = sigmasqr c r T' kmin kmax.
Proof.
  intros Hk E. rewrite !sigmasqr_variance. unfold code_variance. apply romberg_ext. intros j n Hj Hn.
  unfold variance_density. rewrite E; [ reflexivity | ].
  destruct (node_range (log10 kmin) (log10 kmax) n j (log10_le _ _ Hk) Hj Hn) as [A B].
  split; now apply exp_mono.
Qed.
Lemma log10_default : log10 0.0001 = -4 /\ log10 1000.0 = 3.
Proof.
  assert (L : 0 < ln 10) by (rewrite <- ln_1; apply ln_increasing; lra). unfold log10. split.
  - replace 0.0001 with (/ 10 ^ 4) by lra. rewrite ln_Rinv by (apply pow_lt; lra). rewrite ln_pow by lra. simpl INR. field. lra.
  - replace 1000.0 with (10 ^ 3) by lra. rewrite ln_pow by lra. simpl INR. field. lra.
Qed.
Lemma default_range c r T T' : (forall k, exp (-4) <= k <= exp 3 -> T c k = T' c k) ->
  sigmasqr_default c r T = sigmasqr_default c r T'.
Proof.
  intros E. unfold sigmasqr_default. apply (sigmasqr_range c r T T' 0.0001 1000.0); [ split; lra | ]. destruct log10_default as [-> ->]. exact E.
Qed.
Lemma trapezoid_const q a b n : (1 <= n)%nat -> trapezoid (fun _ => q) a b n = (b - a) * q.
Proof.
  intros Hn. unfold trapezoid. rewrite (Rsum_ext n _ (fun _ => q)) by (intros; field). rewrite Rsum_const.
  assert (0 < INR n) by (apply lt_0_INR; lia). field. lra.
Qed.
Lemma romberg_const q a b i k : romberg (fun _ => q) a b i k = (b - a) * q.
Proof.
  revert i. induction k as [ | k IH]; intros [ | i].
  1, 2: apply trapezoid_const; apply pow2_pos.
  - apply trapezoid_const; lia.
  - simpl. rewrite !IH. assert (1 <= 4 ^ k) by (apply pow_R1_Rle; lra). field. lra.
Qed.

(** witness for the wrong range: a transfer function for which the integrand is constant *)
Definition flat_T : transfer := fun _ k => / (k * sqrt k * (3 * (sin k - k * cos k) / k ^ 3)).
Definition unit_tilt : cosmology := make_cosmology 0.25 0.05 0.7 0 0.8 0 (-1) 0 None.
Lemma sin_xcos_pos x : 0 < x <= 3 -> 0 < sin x - x * cos x.
Proof.
  intros [Hx H3].
  destruct (MVT_cor2 (fun x => sin x - x * cos x) (fun x => x * sin x) 0 x Hx) as (y & E & Hy).
  - intros y _. apply is_derive_Reals. auto_derive; [ exact I | ring ].
  - rewrite sin_0 in E. pose proof PI2_3_2. assert (S : 0 < sin y) by (apply sin_gt_0; lra).
    replace (sin x - x * cos x) with (sin x - x * cos x - (0 - 0 * cos 0)) by ring. rewrite E. apply Rmult_lt_0_compat; [ nra | lra ].
Qed.
Lemma flat_density x : 0 <= x <= 1 ->
  variance_density (fun k => flat_T unit_tilt k ^ 2 * primordial_matter_power unit_tilt k) 1 x = / (2 * PI ^ 2).
Proof.
  intros Hx. unfold variance_density, tophat, flat_T, primordial_matter_power. rewrite rpow_pos by apply exp_pos.
  replace (_n_s unit_tilt) with 0 by reflexivity. rewrite Rpower_O by apply exp_pos. rewrite !Rmult_1_r.
  assert (K : 0 < exp x <= 3).
  { split; [ apply exp_pos | ]. apply Rle_trans with (exp 1); [ | apply exp_le_3 ]. destruct (Req_dec x 1) as [-> | ]; [ lra | left; apply exp_increasing; lra ]. }
  pose proof (sin_xcos_pos (exp x) K) as Q. set (k := exp x) in *. set (s := sin k - k * cos k) in *.
  assert (Hs : 0 < sqrt k) by (apply sqrt_lt_R0; lra). assert (E : k = sqrt k * sqrt k) by (symmetry; apply sqrt_sqrt; lra).
  pose proof PI_RGT_0. rewrite Rpow_mult_distr || idtac.
  replace (k ^ 3 * (/ (k * sqrt k * (3 * s / k ^ 3))) ^ 2 * (3 * s / k ^ 3) ^ 2 / (2 * PI ^ 2)) with (k / (sqrt k * sqrt k) * / (2 * PI ^ 2)).
  - rewrite <- E. field. lra.
  - field. repeat split; lra.
Qed.
Lemma RInt_flat : RInt (variance_density (fun k => flat_T unit_tilt k ^ 2 * primordial_matter_power unit_tilt k) 1) (ln 1) (ln (exp 1)) = / (2 * PI ^ 2).
Proof.
  rewrite ln_1, ln_exp. rewrite (RInt_ext _ (fun _ => / (2 * PI ^ 2))).
  - rewrite RInt_const. unfold scal; simpl; unfold mult; simpl. ring.
  - intros x Hx. rewrite Rmin_left, Rmax_right in Hx by lra. apply flat_density. lra.
Qed.
Lemma ln10_gt_1 : 1 < ln 10.
Proof. rewrite <- (ln_exp 1) at 1. apply ln_increasing; [ apply exp_pos | pose proof exp_le_3; lra ]. Qed.
Lemma sigmasqr_wrong_range : exists c r T kmin kmax, 0 < kmin < kmax /\
  sigmasqr c r T kmin kmax <> RInt (variance_density (fun k => T c k ^ 2 * primordial_matter_power c k) r) (ln kmin) (ln kmax).
Proof.
  exists unit_tilt, 1, flat_T, 1, (exp 1). split; [ split; [ lra | ]; rewrite <- exp_0 at 1; apply exp_increasing; lra | ].
  rewrite RInt_flat, sigmasqr_variance. unfold code_variance. unfold log10. rewrite ln_1, ln_exp.
  pose proof ln10_gt_1 as L. assert (I1 : 0 < 1 / ln 10 < 1).
  { split; [ apply Rdiv_lt_0_compat; lra | ]. apply Rmult_lt_reg_r with (ln 10); [ lra | ]. unfold Rdiv. rewrite Rmult_assoc, Rinv_l; lra. }
  rewrite (romberg_ext _ (fun _ => / (2 * PI ^ 2))).
  - rewrite romberg_const. pose proof PI_RGT_0. assert (0 < / (2 * PI ^ 2)) by (apply Rinv_0_lt_compat; assert (0 < PI ^ 2) by (apply pow_lt; lra); lra).
    replace (0 / ln 10) with 0 by (field; lra). nra.
  - intros j n Hj Hn. apply flat_density. pose proof (node_range (0 / ln 10) (1 / ln 10) n j) as N.
    replace (0 / ln 10) with 0 in * by (field; lra). specialize (N ltac:(lra) Hj Hn). lra.
Qed.

(** ** halofit *)
Lemma pow10_gt0 x : 0 < pow10 x.
Proof. apply exp_pos. Qed.
Lemma k_nl_pos c a T : 0 < k_nl c a T.
Proof.
  unfold k_nl, R_nl, clip_lo. apply Rdiv_lt_0_compat; [ lra | ]. apply Rlt_le_trans with 1e-6; [ lra | apply Rmax_r ].
Qed.
Lemma assemble_pos k pk knl co f : 0 < k -> 0 <= pk -> 0 < knl -> 0 < hf_a co -> 0 <= hf_b co -> 0 <= hf_alpha co ->
  0 <= hf_mu co -> 0 <= hf_nu co -> 0 < hf_assemble k pk knl co f.
Proof.
  intros Hk Hp Hn Ha Hb Hal Hmu Hnu. destruct f as [[f1 f2] f3]. unfold hf_assemble. cbv zeta.
  pose proof PI_RGT_0. assert (P2 : 0 < PI ^ 2) by (apply pow_lt; lra). assert (K3 : 0 < k ^ 3) by (now apply pow_lt).
  assert (Y : 0 < k / knl) by (now apply Rdiv_lt_0_compat). set (y := k / knl) in *.
  set (d2l := k ^ 3 * pk / (2.0 * PI ^ 2)).
  assert (L : 0 <= d2l) by (apply Rmult_le_pos; [ apply Rmult_le_pos; lra | left; apply Rinv_0_lt_compat; lra ]).
  apply Rmult_lt_0_compat; [ apply Rdiv_lt_0_compat; lra | ]. apply Rplus_le_lt_0_compat.
  - apply Rmult_le_pos; [ | left; apply exp_pos ]. apply Rmult_le_pos; [ exact L | ].
    apply Rmult_le_pos; [ apply rpow_nonneg | ]. left. apply Rinv_0_lt_compat. nra.
  - apply Rdiv_lt_0_compat.
    + apply Rdiv_lt_0_compat.
      * apply Rmult_lt_0_compat; [ exact Ha | rewrite rpow_pos by assumption; apply exp_pos ].
      * pose proof (rpow_nonneg y f2). pose proof (rpow_nonneg (hf_c co * f3 * y) (3.0 - hf_gamma co)). nra.
    + assert (0 <= hf_mu co / y) by (apply Rmult_le_pos; [ lra | left; now apply Rinv_0_lt_compat ]).
      assert (0 <= hf_nu co / y ^ 2) by (apply Rmult_le_pos; [ lra | left; apply Rinv_0_lt_compat; now apply pow_lt ]). lra.
Qed.
Lemma takahashi_pos c k a T : 0 < k -> 0 <= linear_matter_power c k a T ->
  exists p, halofit c k a T "takahashi2012" = Ok p /\ 0 < p.
Proof.
  intros Hk Hp. unfold halofit. destruct (halofit_parameters c a T) as [[knl n] C] eqn:E. 
  assert (K : 0 < knl) by (unfold halofit_parameters in E; injection E as <- _ _; apply k_nl_pos).
  eexists. split; [ reflexivity | ]. apply assemble_pos; auto; unfold hf_takahashi; simpl; try (left; apply pow10_gt0); try apply pow10_gt0; try apply Rabs_pos. lra.
Qed.
Lemma smith_pos c k a T : 0 < k -> 0 <= linear_matter_power c k a T ->
  let '(_, n, _) := halofit_parameters c a T in 0 <= 1.3884 + 0.3700 * n - 0.1452 * n ^ 2 ->
  exists p, halofit c k a T "smith2003" = Ok p /\ 0 < p.
Proof.
  intros Hk Hp. unfold halofit. destruct (halofit_parameters c a T) as [[knl n] C] eqn:E. intros Hal.
  assert (K : 0 < knl) by (unfold halofit_parameters in E; injection E as <- _ _; apply k_nl_pos).
  eexists. split; [ reflexivity | ]. apply assemble_pos; auto; unfold hf_smith, hf_a, hf_b, hf_mu, hf_nu; try (left; apply pow10_gt0); apply pow10_gt0.
Qed.
Lemma halofit_unknown c k a T p : p <> "smith2003"%string -> p <> "takahashi2012"%string -> halofit c k a T p = Err NotImplementedError.
Proof.
  intros H1 H2. unfold halofit. destruct (halofit_parameters c a T) as [[knl n] C].
  now rewrite (proj2 (String.eqb_neq _ _) H1), (proj2 (String.eqb_neq _ _) H2).
Qed.
