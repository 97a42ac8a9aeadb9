(** * Proofs about the closed-form background functions *)
From Coquelicot Require Import Coquelicot.
From Verif Require Import Np NpLemmas Core Interp Background BgSpec.

Lemma fractions_today c : Omega_m c + Omega_de c + Omega_k c = 1.
Proof. unfold Omega_m, Omega_de, Omega, Omega_k, Omega_m. lra. Qed.

Lemma fractions_at c a : 0 < a -> Esqr c a <> 0 ->
  Omega_m_a c a + Omega_de_a c a + Omega_k c * / a ^ 2 / Esqr c a = 1.
Proof.
  intros Ha HE. unfold Omega_m_a, Omega_de_a.
  replace (Omega_m c * / a ^ 3 / Esqr c a + Omega_de c * exp (f_de c a) / Esqr c a + Omega_k c * / a ^ 2 / Esqr c a)
    with ((Omega_m c * / a ^ 3 + Omega_k c * / a ^ 2 + Omega_de c * exp (f_de c a)) / Esqr c a) by (unfold Rdiv; ring).
  fold (Esqr c a). now apply Rinv_r.
Qed.

Lemma f_de_1 c : f_de c 1 = 0.
Proof. unfold f_de. rewrite ln_1. lra. Qed.
Lemma Esqr_1 c : Esqr c 1 = 1.
Proof. unfold Esqr. rewrite f_de_1, exp_0, !pow1, Rinv_1. pose proof (fractions_today c). lra. Qed.
Lemma H_1 c : H c 1 = 100.
Proof. unfold H, const_H0. rewrite Esqr_1, sqrt_1. lra. Qed.
Lemma Omega_m_a_1 c : Omega_m_a c 1 = Omega_m c /\ Omega_de_a c 1 = Omega_de c.
Proof. unfold Omega_m_a, Omega_de_a. rewrite Esqr_1, f_de_1, exp_0, pow1, Rinv_1. lra. Qed.

(** d f_de / d ln a = -3 (1 + w) *)
Lemma f_de_log_derivative c t : is_derive (fun t => f_de c (exp t)) t (-3 * (1 + w c (exp t))).
Proof.
  unfold f_de. apply is_derive_ext with
    (fun t => -3.0 * (1.0 + _w0 c + _wa c) * t + 3.0 * _wa c * (exp t - 1.0)).
  { intros u. now rewrite ln_exp. }
  auto_derive; [ exact I | ]. unfold w. lra.
Qed.

Lemma f_de_derivative c a : 0 < a -> is_derive (f_de c) a (-3 * (1 + w c a) / a).
Proof.
  intros Ha. apply is_derive_ext with (fun a => -3 * (1 + _w0 c + _wa c) * ln a + 3 * _wa c * (a - 1)).
  { intros t. unfold f_de. lra. }
  auto_derive; [ exact Ha | ]. unfold w. replace (1.0) with 1 by lra. field. lra.
Qed.

Lemma w_exp_continuous c t : continuous (fun t => -3 * (1 + w c (exp t))) t.
Proof.
  unfold w. apply (ex_derive_continuous (fun t => -3 * (1 + (_w0 c + (1.0 - exp t) * _wa c)))). now auto_derive.
Qed.

Lemma f_de_integral c a : 0 < a -> f_de c a = -3 * RInt (fun t => 1 + w c (exp t)) 0 (ln a).
Proof.
  intros Ha.
  assert (I : is_RInt (fun t => -3 * (1 + w c (exp t))) 0 (ln a) (minus (f_de c (exp (ln a))) (f_de c (exp 0)))).
  { apply (is_RInt_derive (fun t => f_de c (exp t))).
    - intros t _. apply f_de_log_derivative.
    - intros t _. apply w_exp_continuous. }
  rewrite exp_ln, exp_0, f_de_1 in I by assumption.
  assert (J : ex_RInt (fun t => 1 + w c (exp t)) 0 (ln a)).
  { apply (ex_RInt_continuous (V := R_CompleteNormedModule)). intros t _. unfold w.
    apply (ex_derive_continuous (fun t => 1 + (_w0 c + (1.0 - exp t) * _wa c))). now auto_derive. }
  pose proof (is_RInt_unique _ _ _ _ I) as E.
  pose proof (RInt_scal (V := R_CompleteNormedModule) (fun t => 1 + w c (exp t)) 0 (ln a) (-3) J) as E2.
  change (RInt (fun t => -3 * (1 + w c (exp t))) 0 (ln a) = -3 * RInt (fun t => 1 + w c (exp t)) 0 (ln a)) in E2.
  rewrite <- E2, E. unfold minus, plus, opp; simpl. ring.
Qed.

Lemma f_de_lambda c a : _w0 c = -1 -> _wa c = 0 -> f_de c a = 0.
Proof. intros H1 H2. unfold f_de. rewrite H1, H2. lra. Qed.

(** physical cosmologies *)
Lemma Esqr_pos c a : physical c -> 0 < a -> 0 < Esqr c a.
Proof.
  intros (Hm & Hk & Hd) Ha. unfold Esqr.
  assert (0 < / a ^ 3) by (apply Rinv_0_lt_compat, pow_lt, Ha).
  assert (0 < / a ^ 2) by (apply Rinv_0_lt_compat, pow_lt, Ha).
  pose proof (exp_pos (f_de c a)).
  assert (0 < Omega_m c * / a ^ 3) by (apply Rmult_lt_0_compat; assumption).
  assert (0 <= Omega_k c * / a ^ 2) by (apply Rmult_le_pos; lra).
  assert (0 <= Omega_de c * exp (f_de c a)) by (apply Rmult_le_pos; lra).
  lra.
Qed.
Lemma physical_expanding c : physical c -> expanding c.
Proof. intros H a Ha. now apply Esqr_pos. Qed.

Lemma H_pos c a : expanding c -> 0 < a -> 0 < H c a.
Proof. intros HE Ha. unfold H, const_H0. apply Rmult_lt_0_compat; [ lra | apply sqrt_lt_R0, HE, Ha ]. Qed.
Lemma dchioverda_pos c a : expanding c -> 0 < a -> 0 < dchioverda c a.
Proof.
  intros HE Ha. unfold dchioverda, const_rh. apply Rdiv_lt_0_compat; [ lra | ].
  apply Rmult_lt_0_compat; [ now apply pow_lt | apply sqrt_lt_R0, HE, Ha ].
Qed.
Lemma dchioverda_H c a : expanding c -> 0 < a -> dchioverda c a = const_c / (a ^ 2 * H c a).
Proof.
  intros HE Ha. unfold dchioverda, H, const_rh, const_c, const_H0.
  assert (0 < sqrt (Esqr c a)) by (apply sqrt_lt_R0, HE, Ha). 
  replace 2997.92458 with (299792.458 / 100) by lra. field. split; lra.
Qed.

Lemma Omega_m_a_range c a : physical c -> 0 < a -> 0 < Omega_m_a c a <= 1 /\ 0 <= Omega_de_a c a < 1.
Proof.
  intros HP Ha. pose proof (Esqr_pos c a HP Ha) as HE. pose proof HP as (Hm & Hk & Hd).
  pose proof (fractions_at c a Ha ltac:(lra)) as F.
  assert (0 < / a ^ 3) by (apply Rinv_0_lt_compat, pow_lt, Ha).
  assert (0 < / a ^ 2) by (apply Rinv_0_lt_compat, pow_lt, Ha).
  pose proof (exp_pos (f_de c a)).
  assert (0 < Omega_m_a c a) by (apply Rdiv_lt_0_compat; [ now apply Rmult_lt_0_compat | assumption ]).
  assert (0 <= Omega_de_a c a) by (apply Rmult_le_pos; [ apply Rmult_le_pos; lra | left; now apply Rinv_0_lt_compat ]).
  assert (0 <= Omega_k c * / a ^ 2 / Esqr c a)
    by (apply Rmult_le_pos; [ apply Rmult_le_pos; lra | left; now apply Rinv_0_lt_compat ]).
  split; split; lra.
Qed.

(** z <-> a *)
Lemma a2z_z2a z : z <> -1 -> a2z (z2a z) = z.
Proof. intros Hz. unfold a2z, z2a. replace (1.0) with 1 by lra. field. lra. Qed.
Lemma z2a_a2z a : a <> 0 -> z2a (a2z a) = a.
Proof. intros Ha. unfold a2z, z2a. replace (1.0) with 1 by lra. field. split; [ assumption | ]. lra. Qed.
Lemma z2a_decr z1 z2 : -1 < z1 < z2 -> 0 < z2a z2 < z2a z1.
Proof.
  intros Hz. unfold z2a. split.
  - apply Rdiv_lt_0_compat; lra.
  - unfold Rdiv. apply Rmult_lt_compat_l; [ lra | ]. apply Rinv_lt_contravar; [ | lra ]. apply Rmult_lt_0_compat; lra.
Qed.
Lemma z2a_0 : z2a 0 = 1.
Proof. unfold z2a. lra. Qed.

(** sinh and sin against the identity *)
Lemma sinh_ge x : 0 <= x -> x <= sinh x.
Proof.
  intros Hx. destruct (Req_dec x 0) as [-> | Hne]; [ rewrite sinh_0; lra | ].
  assert (HD : forall c, 0 <= c <= x -> derivable_pt_lim (fun t => sinh t - t) c (cosh c - 1)).
  { intros c _. apply (derivable_pt_lim_minus sinh id); [ apply derivable_pt_lim_sinh | apply derivable_pt_lim_id ]. }
  destruct (MVT_cor2 (fun t => sinh t - t) (fun c => cosh c - 1) 0 x ltac:(lra) HD) as (c & E & Hc).
  rewrite sinh_0 in E. 
  assert (1 <= cosh c).
  { unfold cosh. pose proof (exp_pos c). assert (P : exp c * exp (- c) = 1) by (rewrite <- exp_plus; rewrite Rplus_opp_r; apply exp_0).
    pose proof (exp_pos (- c)). pose proof (pow2_ge_0 (exp c - exp (- c))).
    assert (4 <= (exp c + exp (- c)) ^ 2) by lra.
    assert (2 <= exp c + exp (- c)); [ | lra ]. apply Rnot_lt_le; intros Hlt. nra. }
  assert (0 <= (cosh c - 1) * (x - 0)) by (apply Rmult_le_pos; lra). lra.
Qed.
Lemma sin_le x : 0 <= x -> sin x <= x.
Proof.
  intros Hx. destruct (Req_dec x 0) as [-> | Hne]; [ rewrite sin_0; lra | ]. left; apply sin_lt_x; lra.
Qed.
