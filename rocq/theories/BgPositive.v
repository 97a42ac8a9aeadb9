(** * The ODE growth table is positive and increasing *)
From Coquelicot Require Import Coquelicot.
From Verif Require Import Np NpLemmas Core Ode OdeSpec OdeProofs Interp InterpProofs Background BgSpec BgAlgebra BgTables BgGrowth.

(** one Runge-Kutta step in scaled variables: u = y1, v = h y2, p = h q, r = h^2 r at the start, middle, end *)
Section Step.
  Variables u v ps pm pt rs rm rt : R.
  Hypothesis Hu : 0 <= u.
  Hypothesis Hv : 0 <= v.
  Hypothesis Hps : 0 <= ps <= 0.35.
  Hypothesis Hpm : 0 <= pm <= 0.35.
  Hypothesis Hpt : 0 <= pt <= 0.35.
  Hypothesis Hrs : 0 <= rs <= 0.01.
  Hypothesis Hrm : 0 <= rm <= 0.01.
  Hypothesis Hrt : 0 <= rt <= 0.01.
  Hypothesis Hsm : rs <= 1.4 * rm.
  Definition a1 := - ps * v + rs * u.
  Definition v2 := v + a1 / 2.
  Definition a2 := - pm * v2 + rm * (u + v / 2).
  Definition v3 := v + a2 / 2.
  Definition a3 := - pm * v3 + rm * (u + v2 / 2).
  Definition v4 := v + a3.
  Definition a4 := - pt * v4 + rt * (u + v3).

  Lemma prod_bounds x y b : 0 <= x <= b -> 0 <= y -> 0 <= x * y <= b * y.
  Proof. intros Hx Hy. split; [ apply Rmult_le_pos; lra | apply Rmult_le_compat_r; lra ]. Qed.

  Lemma v2_bounds : 0.8 * v <= v2 <= v + rs * u / 2 /\ 0 <= v2.
  Proof.
    unfold v2, a1. pose proof (prod_bounds ps v _ Hps Hv). pose proof (prod_bounds rs u _ Hrs Hu).
    repeat split; lra.
  Qed.
  Lemma v3_bounds : 0.8 * v + rm * u / 5 <= v3 <= v + rm * (u + v / 2) / 2 /\ 0 <= v3.
  Proof.
    destruct v2_bounds as [[L2 U2] P2]. unfold v3, a2.
    pose proof (prod_bounds pm v2 _ Hpm P2). pose proof (prod_bounds rm u _ Hrm Hu). pose proof (prod_bounds rm v _ Hrm Hv).
    pose proof (prod_bounds rs u _ Hrs Hu).
    assert (rs * u <= 1.4 * (rm * u)) by (replace (1.4 * (rm * u)) with (1.4 * rm * u) by ring; apply Rmult_le_compat_r; assumption).
    assert (L3 : 0.8 * v + rm * u / 5 <= v + (- pm * v2 + rm * (u + v / 2)) / 2).
    { replace (- pm * v2) with (- (pm * v2)) by ring. replace (rm * (u + v / 2)) with (rm * u + rm * v / 2) by field. lra. }
    split; [ split; [ exact L3 | ] | lra ].
    replace (- pm * v2) with (- (pm * v2)) by ring. lra.
  Qed.
  Lemma v4_bounds : 0 <= v4 <= v + 1.01 * rm * u + rm * v.
  Proof.
    destruct v2_bounds as [[L2 U2] P2]. destruct v3_bounds as [[L3 U3] P3]. unfold v4, a3.
    pose proof (prod_bounds pm v3 _ Hpm P3). pose proof (prod_bounds rm u _ Hrm Hu). pose proof (prod_bounds rm v _ Hrm Hv).
    pose proof (prod_bounds rs u _ Hrs Hu). pose proof (prod_bounds rm v2 _ Hrm P2).
    replace (- pm * v3) with (- (pm * v3)) by ring.
    replace (rm * (u + v2 / 2)) with (rm * u + rm * v2 / 2) by field.
    replace (rm * (u + v / 2) / 2) with (rm * u / 2 + rm * v / 4) in U3 by field.
    assert (rm * v2 <= rm * v + rm * (rs * u) / 2).
    { replace (rm * v + rm * (rs * u) / 2) with (rm * (v + rs * u / 2)) by field. apply Rmult_le_compat_l; lra. }
    assert (rm * (rs * u) <= 0.01 * (rm * u)).
    { replace (rm * (rs * u)) with (rs * (rm * u)) by ring. apply Rmult_le_compat_r; lra. }
    split; lra.
  Qed.
  Lemma u_next : u + v / 6 <= u + (v + 2 * v2 + 2 * v3 + v4) / 6.
  Proof. destruct v2_bounds as [_ P2]. destruct v3_bounds as [_ P3]. destruct v4_bounds as [P4 _]. lra. Qed.
  Lemma v_next : v / 2 <= v + (a1 + 2 * a2 + 2 * a3 + a4) / 6.
  Proof.
    destruct v2_bounds as [[L2 U2] P2]. destruct v3_bounds as [[L3 U3] P3]. destruct v4_bounds as [P4 U4].
    unfold a1, a2, a3, a4.
    pose proof (prod_bounds ps v _ Hps Hv). pose proof (prod_bounds pm v2 _ Hpm P2).
    pose proof (prod_bounds pm v3 _ Hpm P3). pose proof (prod_bounds pt v4 _ Hpt P4).
    pose proof (prod_bounds rs u _ Hrs Hu). pose proof (prod_bounds rm u _ Hrm Hu). pose proof (prod_bounds rt u _ Hrt Hu).
    pose proof (prod_bounds rm v _ Hrm Hv). pose proof (prod_bounds rm v2 _ Hrm P2). pose proof (prod_bounds rt v3 _ Hrt P3).
    assert (rs * u <= 1.4 * (rm * u)) by (replace (1.4 * (rm * u)) with (1.4 * rm * u) by ring; apply Rmult_le_compat_r; assumption).
    replace (rm * (u + v / 2)) with (rm * u + rm * v / 2) in * by field.
    replace (rm * (u + v2 / 2)) with (rm * u + rm * v2 / 2) by field.
    replace (rt * (u + v3)) with (rt * u + rt * v3) by ring. lra.
  Qed.
End Step.

(** ** bounds on the coefficients *)
Definition moderate (c : cosmology) : Prop := -7/3 <= _w0 c <= 1 /\ -7/3 <= _w0 c + _wa c <= 1.
Lemma moderate_w c a : moderate c -> 0 <= a <= 1 -> -7/3 <= w c a <= 1.
Proof. intros [H1 H2] Ha. unfold w. split; nra. Qed.

Definition Qc (c : cosmology) (x : R) : R := 2.0 - 0.5 * (Omega_m_a c x + (1.0 + 3.0 * w c x) * Omega_de_a c x).
Lemma Qc_bounds c x : physical c -> moderate c -> 0 < x <= 1 -> 0 <= Qc c x <= 5.
Proof.
  intros HP HM Hx. destruct (moderate_w c x HM ltac:(lra)) as [W1 W2].
  destruct (Omega_m_a_range c x HP ltac:(lra)) as [[M1 M2] [D1 D2]].
  pose proof (Esqr_pos c x HP ltac:(lra)) as HE. pose proof (fractions_at c x ltac:(lra) ltac:(lra)) as F.
  assert (0 <= Omega_k c * / x ^ 2 / Esqr c x).
  { destruct HP as (_ & Hk & _). apply Rmult_le_pos; [ apply Rmult_le_pos; [ lra | ] | left; now apply Rinv_0_lt_compat ].
    left; apply Rinv_0_lt_compat, pow_lt; lra. }
  unfold Qc. split; nra.
Qed.

Lemma f_de_growth c s m : moderate c -> 0 < s -> s <= m <= 1 -> f_de c m <= f_de c s + 4 * (ln m - ln s).
Proof.
  intros HM Hs Hm. destruct (Req_dec s m) as [-> | Hne]; [ lra | ].
  assert (Hln : ln s < ln m) by (apply ln_increasing; lra).
  assert (HD : forall t, ln s <= t <= ln m -> derivable_pt_lim (fun t => f_de c (exp t)) t (-3 * (1 + w c (exp t)))).
  { intros t _. apply is_derive_Reals, f_de_log_derivative. }
  destruct (MVT_cor2 (fun t => f_de c (exp t)) (fun t => -3 * (1 + w c (exp t))) (ln s) (ln m) Hln HD) as (t & E & Ht).
  rewrite !exp_ln in E by lra.
  assert (Het : 0 <= exp t <= 1).
  { split; [ left; apply exp_pos | ]. apply Rle_trans with m; [ | lra ]. rewrite <- (exp_ln m) by lra. left; apply exp_increasing; lra. }
  destruct (moderate_w c (exp t) HM Het) as [W _]. nra.
Qed.

(** x^3 E^2 grows at most like x^7 *)
Lemma x3E_growth c s m : physical c -> moderate c -> 0 < s -> s <= m <= 1 ->
  m ^ 3 * Esqr c m <= (m / s) ^ 7 * (s ^ 3 * Esqr c s).
Proof.
  intros HP HM Hs Hm. destruct HP as (Pm & Pk & Pd).
  assert (E3 : forall x, 0 < x -> x ^ 3 * Esqr c x = Omega_m c + Omega_k c * x + Omega_de c * (x ^ 3 * exp (f_de c x))).
  { intros x Hx. unfold Esqr. field. lra. }
  rewrite !E3 by lra. set (k := m / s). assert (Hk : 1 <= k) by (unfold k; apply Rmult_le_reg_r with s; [ lra | ]; unfold Rdiv; rewrite Rmult_assoc, Rinv_l; lra).
  assert (Hm' : m = k * s) by (unfold k; field; lra).
  assert (P1 : 1 <= k ^ 6) by (apply pow_R1_Rle; lra). assert (P7 : 1 <= k ^ 7) by (apply pow_R1_Rle; lra).
  assert (A : Omega_m c <= k ^ 7 * Omega_m c) by nra.
  assert (B : Omega_k c * m <= k ^ 7 * (Omega_k c * s)).
  { rewrite Hm'. replace (k ^ 7 * (Omega_k c * s)) with (k ^ 6 * (Omega_k c * (k * s))) by ring.
    assert (0 <= Omega_k c * (k * s)) by (apply Rmult_le_pos; [ lra | nra ]). nra. }
  assert (C : m ^ 3 * exp (f_de c m) <= k ^ 7 * (s ^ 3 * exp (f_de c s))).
  { assert (X : exp (f_de c m) <= k ^ 4 * exp (f_de c s)).
    { apply Rle_trans with (exp (f_de c s + 4 * (ln m - ln s))).
      - pose proof (f_de_growth c s m HM Hs Hm) as [L | ->]; [ left; now apply exp_increasing | lra ].
      - rewrite exp_plus, Rmult_comm. apply Req_le. f_equal.
        replace (4 * (ln m - ln s)) with (INR 4 * ln k).
        2: { unfold k. rewrite ln_div by lra. simpl INR. ring. }
        rewrite <- (exp_ln k) at 2 by lra. simpl INR. simpl pow. rewrite Rmult_1_r, <- !exp_plus. f_equal. ring. }
    rewrite Hm' at 1. replace (k ^ 7 * (s ^ 3 * exp (f_de c s))) with ((k * s) ^ 3 * (k ^ 4 * exp (f_de c s))) by ring.
    apply Rmult_le_compat_l; [ apply pow_le; nra | exact X ]. }
  assert (C' : Omega_de c * (m ^ 3 * exp (f_de c m)) <= Omega_de c * (k ^ 7 * (s ^ 3 * exp (f_de c s)))) by (apply Rmult_le_compat_l; lra).
  nra.
Qed.

Definition rc (c : cosmology) (x : R) : R := 1.5 * Omega_m_a c x / x / x.
Lemma rc_bounds c x : physical c -> 0 < x -> 0 <= rc c x <= 1.5 / x ^ 2.
Proof.
  intros HP Hx. destruct (Omega_m_a_range c x HP Hx) as [[M1 M2] _]. unfold rc.
  assert (0 < / x ^ 2) by (apply Rinv_0_lt_compat, pow_lt, Hx).
  replace (1.5 * Omega_m_a c x / x / x) with (1.5 * Omega_m_a c x * / x ^ 2) by (unfold Rdiv; simpl; rewrite Rmult_1_r, Rinv_mult; ring).
  unfold Rdiv. split; nra.
Qed.
Lemma rc_ratio c s m : physical c -> moderate c -> 0 < s -> s <= m <= 1.035 * s -> m <= 1 -> rc c s <= 1.4 * rc c m.
Proof.
  intros HP HM Hs Hm Hm1. pose proof HP as (Pm & _ & _).
  pose proof (Esqr_pos c s HP Hs) as Es. pose proof (Esqr_pos c m HP ltac:(lra)) as Em.
  assert (R : forall x, 0 < x -> 0 < Esqr c x -> rc c x = 1.5 * Omega_m c / (x ^ 2 * (x ^ 3 * Esqr c x))).
  { intros x Hx HE. unfold rc, Omega_m_a. generalize (1.5); intros q. field. split; lra. }
  rewrite !R by lra.
  pose proof (x3E_growth c s m HP HM Hs ltac:(lra)) as G.
  set (X := s ^ 3 * Esqr c s) in *. set (Y := m ^ 3 * Esqr c m) in *.
  assert (HX : 0 < X) by (unfold X; apply Rmult_lt_0_compat; [ apply pow_lt; lra | lra ]).
  assert (HY : 0 < Y) by (unfold Y; apply Rmult_lt_0_compat; [ apply pow_lt; lra | lra ]).
  set (k := m / s) in *.
  assert (Hk : 0 < k <= 1.035).
  { unfold k. split; [ apply Rdiv_lt_0_compat; lra | ]. apply Rmult_le_reg_r with s; [ lra | ].
    unfold Rdiv; rewrite Rmult_assoc, Rinv_l; lra. }
  assert (K9 : k ^ 9 <= 1.4).
  { apply Rle_trans with (1.035 ^ 9); [ apply pow_incr; lra | lra ]. }
  assert (Hm' : m = k * s) by (unfold k; field; lra).
  assert (Y9 : m ^ 2 * Y <= k ^ 9 * (s ^ 2 * X)).
  { replace (k ^ 9 * (s ^ 2 * X)) with ((k * s) ^ 2 * (k ^ 7 * X)) by ring. rewrite Hm' at 1.
    apply Rmult_le_compat_l; [ apply pow_le; nra | assumption ]. }
  assert (S2 : 0 < s ^ 2 * X) by (apply Rmult_lt_0_compat; [ apply pow_lt; lra | assumption ]).
  assert (M2 : 0 < m ^ 2 * Y) by (apply Rmult_lt_0_compat; [ apply pow_lt; lra | assumption ]).
  set (A := s ^ 2 * X) in *. set (B := m ^ 2 * Y) in *.
  assert (HAB : B <= 1.4 * A) by (apply Rle_trans with (k ^ 9 * A); [ assumption | apply Rmult_le_compat_r; lra ]).
  apply Rmult_le_reg_r with (A * B); [ now apply Rmult_lt_0_compat | ].
  replace (1.5 * Omega_m c / A * (A * B)) with (1.5 * Omega_m c * B) by (field; lra).
  replace (1.4 * (1.5 * Omega_m c / B) * (A * B)) with (1.5 * Omega_m c * (1.4 * A)) by (field; lra).
  apply Rmult_le_compat_l; lra.
Qed.

(** ** one step of the table *)
Lemma derivs_QR c y x : D_derivs c y x = (snd y, - (Qc c x / x) * snd y + rc c x * fst y).
Proof. reflexivity. Qed.

Lemma growth_step c s t y1 y2 : physical c -> moderate c -> 0 < s -> s < t <= 1.07 * s -> t <= 1 -> 0 < y1 -> 0 < y2 ->
  let z := rk4_vec (lift (D_derivs c)) (pvec (y1, y2)) s t in
  y1 < z 0%nat /\ 0 < z 1%nat.
Proof.
  intros HP HM Hs Ht Ht1 Hy1 Hy2 z. set (h := t - s). set (m := s + h / 2).
  assert (Hh : 0 < h <= 0.07 * s) by (unfold h; lra).
  assert (Hmid : s <= m <= 1.035 * s) by (unfold m; lra). assert (Hm1 : m <= 1) by (unfold m, h; lra).
  set (ps := h * (Qc c s / s)). set (pm := h * (Qc c m / m)). set (pt := h * (Qc c t / t)).
  set (rs := h ^ 2 * rc c s). set (rm := h ^ 2 * rc c m). set (rt := h ^ 2 * rc c t).
  assert (PB : forall x, s <= x <= 1 -> 0 <= h * (Qc c x / x) <= 0.35).
  { intros x Hx. destruct (Qc_bounds c x HP HM ltac:(lra)) as [Q1 Q2].
    replace (h * (Qc c x / x)) with (Qc c x * (h / x)) by (unfold Rdiv; ring).
    assert (0 <= h / x <= 0.07).
    { split; [ apply Rmult_le_pos; [ lra | left; apply Rinv_0_lt_compat; lra ] | ].
      apply Rmult_le_reg_r with x; [ lra | ]. unfold Rdiv. rewrite Rmult_assoc, Rinv_l; lra. }
    split; nra. }
  assert (RB : forall x, s <= x -> 0 <= h ^ 2 * rc c x <= 0.01).
  { intros x Hx. destruct (rc_bounds c x HP ltac:(lra)) as [R1 R2]. split; [ apply Rmult_le_pos; [ apply pow_le; lra | assumption ] | ].
    apply Rle_trans with (h ^ 2 * (1.5 / x ^ 2)); [ apply Rmult_le_compat_l; [ apply pow_le; lra | assumption ] | ].
    replace (h ^ 2 * (1.5 / x ^ 2)) with (1.5 * (h / x) ^ 2) by (field; lra).
    assert (0 <= h / x <= 0.07).
    { split; [ apply Rmult_le_pos; [ lra | left; apply Rinv_0_lt_compat; lra ] | ].
      apply Rmult_le_reg_r with x; [ lra | ]. unfold Rdiv. rewrite Rmult_assoc, Rinv_l; lra. }
    nra. }
  assert (Hsm : rs <= 1.4 * rm).
  { unfold rs, rm. replace (1.4 * (h ^ 2 * rc c m)) with (h ^ 2 * (1.4 * rc c m)) by ring.
    apply Rmult_le_compat_l; [ apply pow_le; lra | now apply rc_ratio ]. }
  assert (Hv : 0 < h * y2) by (apply Rmult_lt_0_compat; lra).
  pose proof (u_next y1 (h * y2) ps pm rs rm ltac:(lra) ltac:(lra) (PB s ltac:(lra)) (PB m ltac:(lra))
    (RB s ltac:(lra)) (RB m ltac:(lra)) Hsm) as HU.
  pose proof (v_next y1 (h * y2) ps pm pt rs rm rt ltac:(lra) ltac:(lra) (PB s ltac:(lra)) (PB m ltac:(lra)) (PB t ltac:(lra))
    (RB s ltac:(lra)) (RB m ltac:(lra)) (RB t ltac:(lra)) Hsm) as HV.
  assert (E0 : z 0%nat = y1 + (h * y2 + 2 * v2 y1 (h * y2) ps rs + 2 * v3 y1 (h * y2) ps pm rs rm + v4 y1 (h * y2) ps pm rs rm) / 6).
  { unfold z, rk4_vec, lift, pvec. cbn [Nat.eqb fst snd]. rewrite !derivs_QR. cbn [fst snd]. fold h m.
    unfold v4, a3, v3, a2, v2, a1, ps, pm, rs, rm. field. split; lra. }
  assert (E1 : h * z 1%nat = h * y2 + (a1 y1 (h * y2) ps rs + 2 * a2 y1 (h * y2) ps pm rs rm + 2 * a3 y1 (h * y2) ps pm rs rm + a4 y1 (h * y2) ps pm pt rs rm rt) / 6).
  { unfold z, rk4_vec, lift, pvec. cbn [Nat.eqb fst snd]. rewrite !derivs_QR. cbn [fst snd]. fold h m.
    unfold a4, v4, a3, v3, a2, v2, a1, ps, pm, pt, rs, rm, rt. field. repeat split; lra. }
  split; [ rewrite E0; lra | ].
  apply Rmult_lt_reg_l with h; [ lra | ]. rewrite Rmult_0_r, E1. lra.
Qed.

(** ** the default table has steps of at most 7 percent *)
Lemma ln10_le : ln 10 <= 2.75.
Proof.
  apply Rnot_lt_le; intros H. apply exp_increasing in H. rewrite exp_ln in H by lra.
  assert (E : exp 2.75 = exp (1 / 4) ^ 11).
  { simpl. rewrite Rmult_1_r, <- !exp_plus. f_equal. lra. }
  pose proof (exp_ineq1 (1 / 4) ltac:(lra)) as H4.
  assert (1.25 ^ 11 <= exp (1 / 4) ^ 11) by (apply pow_incr; lra). assert (10 < 1.25 ^ 11) by lra. lra.
Qed.
Lemma exp_le_inv x : 0 <= x < 1 -> exp x <= / (1 - x).
Proof.
  intros Hx. pose proof (exp_ineq1_le (- x)) as H. rewrite exp_Ropp in H.
  pose proof (exp_pos x). apply Rmult_le_reg_r with (/ exp x); [ now apply Rinv_0_lt_compat | ].
  rewrite Rinv_r by lra. apply Rmult_le_reg_l with (1 - x); [ lra | ]. rewrite <- Rmult_assoc, Rinv_r by lra. lra.
Qed.
Lemma anode_ratio la n i : 0 <= (0.0 - la) / INR (n - 1) * ln 10 <= 0.065 -> anode la n (i + 1) <= 1.07 * anode la n i.
Proof.
  intros Hs. replace (anode la n (i + 1)) with (anode la n i * exp ((0.0 - la) / INR (n - 1) * ln 10)).
  - pose proof (anode_pos la n i). pose proof (exp_le_inv _ ltac:(split; [ apply Hs | lra ])) as HE.
    assert (/ (1 - (0.0 - la) / INR (n - 1) * ln 10) <= 1.07).
    { set (d := (0.0 - la) / INR (n - 1) * ln 10) in *. apply Rmult_le_reg_l with (1 - d); [ lra | ]. rewrite Rinv_r by lra. lra. }
    rewrite Rmult_comm. apply Rmult_le_compat_r; lra.
  - unfold anode, pow10. rewrite <- exp_plus. f_equal. rewrite plus_INR. simpl INR. ring.
Qed.

Lemma ode_positive c la n : physical c -> moderate c -> la < 0 -> (2 <= n)%nat ->
  (0.0 - la) / INR (n - 1) * ln 10 <= 0.065 ->
  forall i, (i < n)%nat -> let y := nth i (ode_y c la n) (0, 0) in
    0 < fst y /\ 0 < snd y /\ ((i + 1 < n)%nat -> fst y < fst (nth (i + 1) (ode_y c la n) (0, 0))).
Proof.
  intros HP HM Hla Hn Hs. pose proof (ln_step_pos la n Hla Hn) as Hpos.
  destruct (ode_y_spec c la n ltac:(lia)) as (_ & H0 & HS).
  assert (STEP : forall i, (i + 1 < n)%nat -> 0 < fst (nth i (ode_y c la n) (0, 0)) -> 0 < snd (nth i (ode_y c la n) (0, 0)) ->
    fst (nth i (ode_y c la n) (0, 0)) < fst (nth (i + 1) (ode_y c la n) (0, 0)) /\ 0 < snd (nth (i + 1) (ode_y c la n) (0, 0))).
  { intros i Hi P1 P2. specialize (HS i Hi). pose proof (HS 0%nat) as S0. pose proof (HS 1%nat) as S1.
    unfold pvec at 1 in S0. unfold pvec at 1 in S1. simpl in S0, S1.
    destruct (nth i (ode_y c la n) (0, 0)) as [y1 y2]. simpl in P1, P2.
    rewrite S0, S1. simpl fst at 1. apply growth_step; auto.
    - apply anode_pos.
    - split; [ apply anode_lt; auto; lia | apply anode_ratio; lra ].
    - destruct (Nat.eq_dec (i + 1) (n - 1)) as [-> | Hne]; [ rewrite anode_last by lia; lra | ].
      left. rewrite <- (anode_last la n) by lia. apply anode_lt; auto; lia. }
  assert (POS : forall i, (i < n)%nat -> 0 < fst (nth i (ode_y c la n) (0, 0)) /\ 0 < snd (nth i (ode_y c la n) (0, 0))).
  { induction i as [ | i IH]; intros Hi.
    - rewrite H0. simpl. split; [ apply anode_pos | lra ].
    - destruct (IH ltac:(lia)) as [P1 P2]. destruct (STEP i ltac:(lia) P1 P2) as [Q1 Q2].
      rewrite Nat.add_1_r in Q1, Q2. split; lra. }
  intros i Hi y. destruct (POS i Hi) as [P1 P2]. split; [ exact P1 | split; [ exact P2 | ]].
  intros Hi1. now apply STEP.
Qed.

Lemma default_step : (0.0 - -3) / INR (128 - 1) * ln 10 <= 0.065.
Proof.
  replace (INR (128 - 1)) with 127 by (rewrite INR_IZR_INZ; reflexivity).
  pose proof ln10_le. pose proof ln10_pos. lra.
Qed.
