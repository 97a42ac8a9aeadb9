(** * Shape of Smail distributions, composition of shifts, shifted source planes *)
From Verif Require Import Np NpLemmas Integrate IntegrateSpec SimpsProofs Redshift RedshiftSpec RedshiftProofs BgGrowth ExRedshift.

Lemma new_reachable f g zm : nz_reachable (nz_new f g zm).
Proof. exists f, g, zm, []. reflexivity. Qed.

Lemma smail_value a b z0 g zm z : pz (nz_new (Smail a b z0) g zm) z =
  pz_fn (nz_new (Smail a b z0) g zm) z / simpson (pz_fn (nz_new (Smail a b z0) g zm)) 0 zm 256.
Proof. rewrite pz_density by apply new_reachable. reflexivity. Qed.

Lemma smail_density a b z0 g zm : 0 < a -> 0 < b -> 0 < z0 -> 0 < zm ->
  let d := nz_new (Smail a b z0) g zm in
  (forall z, 0 <= z -> 0 <= pz d z) /\ (forall z, 0 < z -> 0 < pz d z) /\ simps (pz d) 0 zm 256 = Ok 1.
Proof.
  intros _ _ _ Hz d. pose proof (smail_norm_pos a b z0 g zm Hz) as HN. split; [ | split ].
  - intros z _. unfold d. rewrite smail_value. apply Rmult_le_pos; [ apply smail_nonneg | left; now apply Rinv_0_lt_compat ].
  - intros z H. unfold d. rewrite smail_value. apply Rdiv_lt_0_compat; [ now apply smail_pos | exact HN ].
  - apply (nz_normalised d); [ apply new_reachable | reflexivity | ]. apply Rgt_not_eq. exact HN.
Qed.

(** x^p e^-x is largest at x = p *)
Lemma ln_quot x y : 0 < x -> 0 < y -> ln (x / y) = ln x - ln y.
Proof. intros Hx Hy. unfold Rdiv. rewrite ln_mult by (auto using Rinv_0_lt_compat). rewrite ln_Rinv by exact Hy. ring. Qed.
Lemma ln_lt_pred x : 0 < x -> x <> 1 -> ln x < x - 1.
Proof. intros Hx N. pose proof (exp_ineq1 (x - 1) ltac:(lra)) as H1. apply exp_lt_inv. rewrite exp_ln by exact Hx. lra. Qed.

Definition smail_fn (a b z0 z : R) : R := rpow z a * exp (- rpow (z / z0) b).
Definition smail_peak (a b z0 : R) : R := z0 * Rpower (a / b) (/ b).
Lemma peak_pos a b z0 : 0 < z0 -> 0 < smail_peak a b z0.
Proof. intros H. apply Rmult_lt_0_compat; [ exact H | apply exp_pos ]. Qed.

(** with t = (z/z0)^b the logarithm of the density is a ln z0 + (a/b) ln t - t *)
Lemma smail_log a b z0 z : 0 < b -> 0 < z0 -> 0 < z ->
  smail_fn a b z0 z = exp (a * ln z0 + a / b * ln (Rpower (z / z0) b) - Rpower (z / z0) b).
Proof.
  intros Hb H0 Hz. unfold smail_fn. assert (Hq : 0 < z / z0) by (now apply Rdiv_lt_0_compat). rewrite !rpow_pos by assumption.
  unfold Rpower at 1. rewrite <- exp_plus. f_equal. unfold Rpower at 2. rewrite ln_exp. rewrite ln_quot by assumption. field. lra.
Qed.
Lemma peak_t a b z0 : 0 < a -> 0 < b -> 0 < z0 -> Rpower (smail_peak a b z0 / z0) b = a / b.
Proof.
  intros Ha Hb H0. unfold smail_peak. replace (z0 * Rpower (a / b) (/ b) / z0) with (Rpower (a / b) (/ b)) by (field; lra).
  rewrite Rpower_mult. rewrite Rinv_l by lra. apply Rpower_1. now apply Rdiv_lt_0_compat.
Qed.
Lemma smail_max a b z0 z : 0 < a -> 0 < b -> 0 < z0 -> 0 <= z -> z <> smail_peak a b z0 ->
  smail_fn a b z0 z < smail_fn a b z0 (smail_peak a b z0).
Proof.
  intros Ha Hb H0 Hz Hne. pose proof (peak_pos a b z0 H0) as HP. destruct Hz as [Hz | <-].
  2:{ unfold smail_fn at 1. unfold rpow at 1. destruct (Req_EM_T 0 0) as [_ | N]; [ | now contradiction N ]. destruct (Req_EM_T a 0); [ lra | ]. rewrite Rmult_0_l.
      rewrite smail_log by assumption. apply exp_pos. }
  rewrite !smail_log by assumption. rewrite peak_t by assumption. apply exp_increasing.
  set (t := Rpower (z / z0) b). assert (Ht : 0 < t) by apply exp_pos. assert (Hq : 0 < a / b) by (now apply Rdiv_lt_0_compat).
  assert (Nt : t <> a / b).
  { intros E. apply Hne. unfold smail_peak. rewrite <- E. unfold t. rewrite Rpower_mult, Rinv_r by lra. rewrite Rpower_1 by (now apply Rdiv_lt_0_compat). field. lra. }
  set (q := a / b) in *. assert (L : ln (t / q) < t / q - 1).
  { apply ln_lt_pred; [ now apply Rdiv_lt_0_compat | ]. intros E. apply Nt. replace t with (t / q * q) by (field; lra). rewrite E. ring. }
  rewrite ln_quot in L by assumption. assert (M : q * (ln t - ln q) < q * (t / q - 1)) by (apply Rmult_lt_compat_l; assumption).
  replace (q * (t / q - 1)) with (t - q) in M by (field; lra). lra.
Qed.

Lemma smail_peaks a b z0 g zm : 0 < a -> 0 < b -> 0 < z0 -> 0 < zm ->
  forall z, 0 <= z -> z <> z0 * Rpower (a / b) (/ b) ->
  pz (nz_new (Smail a b z0) g zm) z < pz (nz_new (Smail a b z0) g zm) (z0 * Rpower (a / b) (/ b)).
Proof.
  intros Ha Hb H0 Hzm z Hz Hne. rewrite !smail_value. apply Rmult_lt_compat_r; [ apply Rinv_0_lt_compat, (smail_norm_pos a b z0 g zm Hzm) | ].
  exact (smail_max a b z0 z Ha Hb H0 Hz Hne).
Qed.

(** shifts *)
Lemma clip_clip x b1 : 0 <= b1 -> Rmax (Rmax x 0 - b1) 0 = Rmax (x - b1) 0.
Proof. intros H. unfold Rmax. repeat destruct (Rle_dec _ _); lra. Qed.
Lemma shift_compose p b1 b2 g1 zm1 g zm z : 0 <= b1 ->
  pz (nz_new (Shift (nz_new (Shift p b1) g1 zm1) b2) g zm) z = pz (nz_new (Shift p (b1 + b2)) g zm) z.
Proof.
  intros H. rewrite !shift_value.
  assert (E : forall t, pz_fn (nz_new (Shift p b1) g1 zm1) (Rmax (t - b2) 0) = pz_fn p (Rmax (t - (b1 + b2)) 0)).
  { intros t. simpl. unfold clip_lo. rewrite clip_clip by exact H. do 2 f_equal. ring. }
  rewrite E. f_equal. apply simpson_ext. intros i _. apply E.
Qed.

Lemma simpson_pos_one f a b N i : a < b -> (2 <= N)%nat -> Nat.even N = true -> (i <= N)%nat -> (forall j, (j <= N)%nat -> 0 <= f (node a b N j)) ->
  0 < f (node a b N i) -> 0 < simpson f a b N.
Proof.
  intros Hab HN HE Hi Hf Hp. unfold simpson. assert (0 < INR N) by (apply lt_0_INR; lia).
  apply Rmult_lt_0_compat; [ apply Rdiv_lt_0_compat; [ apply Rdiv_lt_0_compat; lra | lra ] | ].
  destruct (even_half N HE) as [M ->]. replace (2 * M / 2)%nat with M by (rewrite Nat.mul_comm, Nat.div_mul; lia).
  set (g := fun k => _).
  assert (G : forall k, (k < M)%nat -> 0 <= g k).
  { intros k Hk. unfold g. pose proof (Hf (2 * k)%nat ltac:(lia)). pose proof (Hf (2 * k + 1)%nat ltac:(lia)). pose proof (Hf (2 * k + 2)%nat ltac:(lia)). lra. }
  assert (X : exists k, (k < M)%nat /\ 0 < g k).
  { destruct (Nat.eq_dec i (2 * M)) as [ -> | Ni ].
    - exists (M - 1)%nat. split; [ lia | ]. unfold g. replace (2 * (M - 1) + 2)%nat with (2 * M)%nat by lia.
      pose proof (Hf (2 * (M - 1))%nat ltac:(lia)). pose proof (Hf (2 * (M - 1) + 1)%nat ltac:(lia)). lra.
    - exists (i / 2)%nat. assert (Hd : i = (2 * (i / 2) + i mod 2)%nat) by (apply Nat.div_mod; lia). pose proof (Nat.mod_upper_bound i 2 ltac:(lia)).
      split; [ lia | ]. unfold g. pose proof (Hf (2 * (i / 2))%nat ltac:(lia)). pose proof (Hf (2 * (i / 2) + 1)%nat ltac:(lia)). pose proof (Hf (2 * (i / 2) + 2)%nat ltac:(lia)).
      destruct (Nat.eq_dec (i mod 2) 0) as [E0 | E1].
      + rewrite E0, Nat.add_0_r in Hd. rewrite <- Hd in *. lra.
      + replace (i mod 2) with 1%nat in Hd by lia. rewrite <- Hd in *. lra. }
  destruct X as (k & Hk & Pk). apply Rlt_le_trans with (g k); [ exact Pk | ].
  rewrite <- (Rsum_delta M k g Hk). apply Rsum_le. intros j Hj. destruct (Nat.eqb_spec j k); [ lra | now apply G ].
Qed.

(** the peak of a shifted Smail distribution *)
Lemma shifted_peak a b z0 g zm b' g' zm' z : 0 < a -> 0 < b -> 0 < z0 -> 0 < zm' -> b' < zm' ->
  z <> z0 * Rpower (a / b) (/ b) + b' ->
  pz (nz_new (Shift (nz_new (Smail a b z0) g zm) b') g' zm') z <
  pz (nz_new (Shift (nz_new (Smail a b z0) g zm) b') g' zm') (z0 * Rpower (a / b) (/ b) + b').
Proof.
  intros Ha Hb H0 Hz' Hb' Hne. pose proof (peak_pos a b z0 H0) as HP. fold (smail_peak a b z0) in *. rewrite !shift_value.
  apply Rmult_lt_compat_r.
  { apply Rinv_0_lt_compat. apply (simpson_pos_one _ 0 zm' 256 256); [ exact Hz' | lia | reflexivity | lia | | ].
    - intros j _. apply smail_nonneg.
    - rewrite node_N by lia. apply smail_pos. rewrite Rmax_left by lra. lra. }
  replace (smail_peak a b z0 + b' - b') with (smail_peak a b z0) by ring. rewrite (Rmax_left (smail_peak a b z0)) by lra.
  apply (smail_max a b z0 (Rmax (z - b') 0)); try assumption; [ apply Rmax_r | ].
  intros E. unfold Rmax in E. destruct (Rle_dec (z - b') 0); [ lra | apply Hne; lra ].
Qed.

(** a shifted source plane has no normalisation, unless it falls on a quadrature node *)
Lemma shifted_delta z0 b g0 zm0 g zm : 0 < z0 -> 0 < zm -> (forall i, (i <= 256)%nat -> z0 + b <> INR i * (zm / 256)) ->
  simps (pz_fn (nz_new (Shift (nz_new (Delta z0) g0 zm0) b) g zm)) 0 zm 256 = Ok 0.
Proof.
  intros H0 Hzm HN. rewrite simps256. f_equal.
  rewrite (simpson_ext _ (fun _ => 0)).
  - rewrite (simpson_ext _ (fun x => 0 * 0)) by (intros; ring). rewrite (simpson_scal 0 (fun _ => 0)). ring.
  - intros i Hi. simpl. unfold clip_lo. destruct (Req_EM_T _ _) as [E | ]; [ exfalso | reflexivity ].
    unfold Rmax in E. destruct (Rle_dec _ 0) in E; [ lra | ]. apply (HN i Hi). unfold node in E. replace (INR 256) with 256 in E by (rewrite INR_IZR_INZ; reflexivity). lra.
Qed.

(** shifts do not compose when the inner one is negative *)
Lemma shift_not_compose : exists p b1 b2 g1 zm1 g zm z, nz_reachable p /\ is_delta p = false /\ 0 < zm /\ 0 <= z /\
  pz (nz_new (Shift (nz_new (Shift p b1) g1 zm1) b2) g zm) z <> pz (nz_new (Shift p (b1 + b2)) g zm) z.
Proof.
  exists (nz_new (Smail 1 2 1) 20 2), (- (1 / 2)), (1 / 2), 20, 2, 20, 2, 0.
  split; [ apply new_reachable | split; [ reflexivity | split; [ lra | split; [ lra | ]]]]. rewrite !shift_value.
  replace (- (1 / 2) + 1 / 2) with 0 by lra. rewrite (Rmax_left (0 - 0) 0) by lra. rewrite (Rmax_right (0 - 1 / 2) 0) by lra.
  assert (Z : pz_fn (nz_new (Smail 1 2 1) 20 2) (0 - 0) = 0).
  { rewrite Rminus_0_r. simpl. unfold rpow at 1. destruct (Req_EM_T 0 0) as [_ | N]; [ | now contradiction N ]. destruct (Req_EM_T 1 0); [ lra | ]. ring. }
  rewrite Z. match goal with |- _ <> 0 / ?y => replace (0 / y) with 0 by (unfold Rdiv; ring) end. apply Rgt_not_eq.
  assert (S : forall z, 0 <= z -> 0 < pz_fn (nz_new (Shift (nz_new (Smail 1 2 1) 20 2) (- (1 / 2))) 20 2) z).
  { intros z Hz. change (0 < pz_fn (nz_new (Smail 1 2 1) 20 2) (Rmax (z - - (1 / 2)) 0)). apply smail_pos. rewrite Rmax_left; lra. }
  apply Rdiv_lt_0_compat; [ apply S; lra | ]. apply (simpson_pos_one _ 0 2 256 0); [ lra | lia | reflexivity | lia | | ].
  - intros j _. left. apply S, Rmax_r.
  - apply S, Rmax_r.
Qed.

(** a plane at z = 1 shifted by 1/10, with the default zmax = 10 *)
Lemma shifted_delta_nodes : forall i, (i <= 256)%nat -> 1 + 1 / 10 <> INR i * (10 / 256).
Proof. intros i _ E. assert (E' : IZR 2816 = IZR (100 * Z.of_nat i)) by (rewrite mult_IZR, <- INR_IZR_INZ; lra). apply eq_IZR in E'. lia. Qed.
Lemma shifted_delta_example : exists z0 b g zm, 0 < z0 /\ 0 < z0 + b < zm /\
  simps (pz_fn (nz_new (Shift (nz_new (Delta z0) g zm) b) g zm)) 0 zm 256 = Ok 0.
Proof.
  exists 1, (1 / 10), 20, 10. split; [ lra | split; [ lra | ]]. apply shifted_delta; [ lra | lra | exact shifted_delta_nodes ].
Qed.
