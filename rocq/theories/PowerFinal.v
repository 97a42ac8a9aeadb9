(** * Final forms for power.py and transfer.py *)
From Coquelicot Require Import Coquelicot.
From Verif Require Import Np NpLemmas Integrate IntegrateSpec SimpsProofs RombProofs Core Interp Background BgSpec BgPositive BgGrowth BgFinal2 BgFinal4 Transfer Power PowerSpec PowerProofs TransferProofs.
Opaque chi_table growth_table_ODE growth_table_gamma logspace.

Lemma romberg7_pos f a b : a < b -> (forall x, a <= x <= b -> 0 <= f x) -> 0 < f a -> 0 < romberg f a b 7 7.
Proof.
  intros Hab Hf Ha.
  destruct (midpoints f a b 0) as (M1 & E1 & P1). destruct (midpoints f a b 1) as (M2 & E2 & P2).
  destruct (midpoints f a b 2) as (M3 & E3 & P3). destruct (midpoints f a b 3) as (M4 & E4 & P4).
  destruct (midpoints f a b 4) as (M5 & E5 & P5). destruct (midpoints f a b 5) as (M6 & E6 & P6).
  destruct (midpoints f a b 6) as (M7 & E7 & P7). assert (Hle : a <= b) by lra.
  specialize (P1 Hle Hf). specialize (P2 Hle Hf). specialize (P3 Hle Hf). specialize (P4 Hle Hf).
  specialize (P5 Hle Hf). specialize (P6 Hle Hf). specialize (P7 Hle Hf).
  assert (P0 : 0 < trapezoid f a b (2 ^ 0)).
  { change (2 ^ 0)%nat with 1%nat. rewrite trapezoid_1. pose proof (Hf b ltac:(lra)). nra. }
  assert (Z : forall i, romberg f a b i 0 = trapezoid f a b (2 ^ i)) by (intros [ | i]; reflexivity).
  assert (S1 : forall i k, romberg f a b (S i) (S k) = (4 ^ S k * romberg f a b (S i) k - romberg f a b i k) / (4 ^ S k - 1)) by reflexivity.
  generalize dependent (romberg f a b). intros r Z S1. rewrite <- Z in P0, E1. rewrite <- !Z in *.
  assert (A1 : forall i, r (S i) 1%nat = (4 * r (S i) 0%nat - r i 0%nat) / 3) by (intros; rewrite S1; lra).
  assert (A2 : forall i, r (S i) 2%nat = (16 * r (S i) 1%nat - r i 1%nat) / 15) by (intros; rewrite S1; lra).
  assert (A3 : forall i, r (S i) 3%nat = (64 * r (S i) 2%nat - r i 2%nat) / 63) by (intros; rewrite S1; lra).
  assert (A4 : forall i, r (S i) 4%nat = (256 * r (S i) 3%nat - r i 3%nat) / 255) by (intros; rewrite S1; lra).
  assert (A5 : forall i, r (S i) 5%nat = (1024 * r (S i) 4%nat - r i 4%nat) / 1023) by (intros; rewrite S1; lra).
  assert (A6 : forall i, r (S i) 6%nat = (4096 * r (S i) 5%nat - r i 5%nat) / 4095) by (intros; rewrite S1; lra).
  assert (A7 : forall i, r (S i) 7%nat = (16384 * r (S i) 6%nat - r i 6%nat) / 16383) by (intros; rewrite S1; lra).
  rewrite A7, !A6, !A5, !A4, !A3, !A2, !A1. rewrite E7, E6, E5, E4, E3, E2, E1. lra.
Qed.

Lemma exp_m4 : 0 < exp (-4) <= / 5.
Proof.
  split; [ apply exp_pos | ]. replace (-4) with (- (4)) by lra. rewrite exp_Ropp. apply Rinv_le_contravar; [ lra | ]. pose proof (exp_ineq1 4 ltac:(lra)). lra.
Qed.
Lemma sigma8_positive c T : T c (exp (-4)) <> 0 -> 0 < sigmasqr_default c 8.0 T.
Proof.
  intros HT. unfold sigmasqr_default. rewrite sigmasqr_variance. unfold code_variance. destruct log10_default as [-> ->].
  apply romberg7_pos; [ lra | | ].
  - intros x _. apply variance_density_nonneg. intros k. apply Rmult_le_pos; [ apply pow2_ge_0 | apply primordial_nonneg ].
  - unfold variance_density. pose proof PI_RGT_0. assert (0 < PI ^ 2) by (apply pow_lt; lra). pose proof exp_m4 as E.
    assert (SQ : forall x : R, x <> 0 -> 0 < x ^ 2) by (intros x Hx; replace (x ^ 2) with (Rsqr x) by (unfold Rsqr; ring); now apply Rsqr_pos_lt).
    apply Rdiv_lt_0_compat; [ | lra ]. apply Rmult_lt_0_compat.
    + apply Rmult_lt_0_compat; [ apply pow_lt; lra | ]. apply Rmult_lt_0_compat; [ now apply SQ | ].
      unfold primordial_matter_power. rewrite rpow_pos by lra. apply exp_pos.
    + apply SQ. apply Rgt_not_eq. unfold tophat. apply Rdiv_lt_0_compat; [ | apply pow_lt; lra ].
      pose proof (sin_xcos_pos (exp (-4) * 8.0) ltac:(lra)). lra.
Qed.

Lemma growth_one c : reachable c -> _gamma_growth c = true \/ physical c /\ moderate c -> D c 1 = 1.
Proof. intros HR HC. now apply growth_at_one. Qed.

Lemma sigma8_normalised c T : reachable c -> _gamma_growth c = true \/ physical c /\ moderate c -> sigmasqr_default c 8.0 T <> 0 ->
  code_variance (fun k => linear_matter_power c k 1 T) 8 0.0001 1000 = _sigma8 c ^ 2 /\
  forall a, code_variance (fun k => linear_matter_power c k a T) 8 0.0001 1000 = _sigma8 c ^ 2 * D c a ^ 2.
Proof.
  intros HR HC HS. split; [ | intros; now apply linear_variance ]. rewrite linear_variance by assumption.
  rewrite (growth_one c HR HC). ring.
Qed.
Lemma linear_scaling c T : reachable c -> _gamma_growth c = true \/ physical c /\ moderate c -> sigmasqr_default c 8.0 T <> 0 ->
  (forall k a, linear_matter_power c k a T = linear_matter_power c k 1 T * D c a ^ 2) /\
  (forall k a, 0 <= linear_matter_power c k a T) /\
  (forall k a, 0 < k -> T c k <> 0 -> D c a <> 0 -> _sigma8 c <> 0 -> 0 < linear_matter_power c k a T) /\
  (forall k a s, s <> 0 -> linear_matter_power c k a (fun c k => s * T c k) = linear_matter_power c k a T).
Proof.
  intros HR HC HS. split; [ intros; apply linear_growth; now apply growth_one | ].
  split; [ intros; now apply linear_nonneg | split; [ intros; now apply linear_pos | intros; now apply linear_rescale ]].
Qed.
Lemma linear_tilt c T k1 k2 a : 0 < k1 -> 0 < k2 -> sigmasqr_default c 8.0 T <> 0 ->
  linear_matter_power c k1 a T * (Rpower k2 (_n_s c) * T c k2 ^ 2) = linear_matter_power c k2 a T * (Rpower k1 (_n_s c) * T c k1 ^ 2).
Proof.
  intros H1 H2 HS. unfold linear_matter_power, primordial_matter_power. rewrite !rpow_pos by assumption. cbv zeta. field. exact HS.
Qed.

Lemma ln_le_6 x : 0 < x <= 160 -> ln x <= 6.
Proof.
  intros [H0 H1]. rewrite <- (ln_exp 6). assert (E : 160 < exp 6).
  { replace 6 with (16 * (6 / 16)) by field. assert (P : forall n, exp (INR n * (6 / 16)) = exp (6 / 16) ^ n).
    { induction n as [ | n IH]; [ simpl; rewrite Rmult_0_l; apply exp_0 | ]. rewrite S_INR, Rmult_plus_distr_r, Rmult_1_l, exp_plus, IH. simpl. ring. }
    replace 16 with (INR 16) at 1 by (simpl; lra). rewrite P. pose proof (exp_ineq1 (6 / 16) ltac:(lra)) as Q.
    apply Rlt_le_trans with ((1 + 6 / 16) ^ 16); [ lra | ]. apply pow_incr. lra. }
  destruct (Req_dec x (exp 6)) as [-> | ]; [ lra | left; apply ln_increasing; lra ].
Qed.
Lemma alpha_gamma_realistic c : dense c -> 1 <= 22.3 * (Omega_m c * _h c ^ 2) -> Omega_m c * _h c ^ 2 <= 0.37 -> 2 * Omega_b c <= Omega_m c ->
  0 <= eh_alpha_gamma c.
Proof.
  intros H H1 H2 H3. destruct (dense_pos c H) as (M & WM & WB & _). unfold eh_alpha_gamma.
  replace (0.328 * ln (431.0 * eh_w_m c) * eh_w_b c / eh_w_m c) with (0.328 * ln (431.0 * eh_w_m c) * (Omega_b c / Omega_m c)).
  2: { unfold eh_w_b, eh_w_m. destruct H as (_ & _ & Hh). field. split; lra. }
  fold (eh_w_m c) in H1, H2.
  assert (FB : 0 < Omega_b c / Omega_m c <= 1 / 2).
  { split; [ apply Rdiv_lt_0_compat; [ apply H | exact M ] | ]. apply Rmult_le_reg_r with (Omega_m c); [ exact M | ]. unfold Rdiv at 1. rewrite Rmult_assoc, Rinv_l; lra. }
  set (fb := Omega_b c / Omega_m c) in *.
  assert (L1 : 0 <= ln (431.0 * eh_w_m c) <= 6).
  { split; [ | apply ln_le_6; lra ]. rewrite <- ln_1. destruct (Req_dec 1 (431.0 * eh_w_m c)) as [<- | ]; [ lra | left; apply ln_increasing; lra ]. }
  assert (L2 : 0 <= ln (22.3 * eh_w_m c)).
  { rewrite <- ln_1. destruct (Req_dec 1 (22.3 * eh_w_m c)) as [<- | ]; [ lra | left; apply ln_increasing; lra ]. }
  assert (0 <= fb ^ 2) by apply pow2_ge_0.
  assert (0.328 * ln (431.0 * eh_w_m c) * fb <= 0.328 * 6 * (1 / 2)) by (apply Rmult_le_compat; lra).
  assert (0 <= 0.38 * ln (22.3 * eh_w_m c) * fb ^ 2) by (apply Rmult_le_pos; lra). lra.
Qed.

Lemma transfer_limits c : dense c ->
  filterlim (fun k => match Eisenstein_Hu c k "eisenhu" with Ok t => t | Err _ => 0 end) (at_right 0) (locally 1) /\
  filterlim (fun k => match Eisenstein_Hu c k "eisenhu_osc" with Ok t => t | Err _ => 0 end) (at_right 0) (locally 1).
Proof. intros H. split; [ exact (eisenhu_lim c H) | exact (eisenhu_osc_lim c H) ]. Qed.
Lemma transfer_range c k : dense c -> 0 <= eh_alpha_gamma c -> 0 <= k ->
  exists t, Eisenstein_Hu c k "eisenhu" = Ok t /\ 0 < t <= 1.
Proof. intros. exists (eisenhu c k). split; [ reflexivity | now apply eisenhu_range ]. Qed.
Lemma transfer_unknown c k s : s <> "eisenhu"%string -> s <> "eisenhu_osc"%string -> Eisenstein_Hu c k s = Err NotImplementedError.
Proof. intros H1 H2. unfold Eisenstein_Hu. now rewrite (proj2 (String.eqb_neq _ _) H1), (proj2 (String.eqb_neq _ _) H2). Qed.

Lemma planck_dense : dense Planck15 /\ 1 <= 22.3 * (Omega_m Planck15 * _h Planck15 ^ 2) /\ Omega_m Planck15 * _h Planck15 ^ 2 <= 0.37 /\
  2 * Omega_b Planck15 <= Omega_m Planck15.
Proof. unfold dense, Omega_m, Omega_b, Planck15, make_cosmology; simpl. lra. Qed.
Lemma planck_sigma : sigmasqr_default Planck15 8.0 eisenhu <> 0.
Proof.
  apply Rgt_not_eq. apply sigma8_positive. destruct planck_dense as (P1 & P2 & P3 & P4).
  pose proof (eisenhu_range Planck15 (exp (-4)) P1 (alpha_gamma_realistic Planck15 P1 P2 P3 P4) ltac:(left; apply exp_pos)). lra.
Qed.
Lemma no_wiggle_power c k a : reachable c -> _gamma_growth c = true \/ physical c /\ moderate c -> dense c -> 0 <= eh_alpha_gamma c -> _sigma8 c <> 0 ->
  0 < k -> 0 < D c a -> 0 < linear_matter_power c k a eisenhu.
Proof.
  intros HR HC HD HA H8 Hk Ha. assert (S : 0 < sigmasqr_default c 8.0 eisenhu).
  { apply sigma8_positive. pose proof (eisenhu_range c (exp (-4)) HD HA ltac:(left; apply exp_pos)). lra. }
  pose proof (eisenhu_range c k HD HA ltac:(lra)). apply linear_pos; lra.
Qed.
