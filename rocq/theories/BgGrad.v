(** * Derivatives of the distances with respect to the parameters *)
From Coquelicot Require Import Coquelicot.
From Verif Require Import Np NpLemmas Core Ode OdeSpec OdeProofs Interp InterpProofs IntegrateSpec SimpsError Background BgSpec BgAlgebra BgTables BgGrowth BgProofs BgFinal BgFinal2 BgFinal4 BgCompare GradSpec.
Opaque chi_table growth_table_ODE growth_table_gamma.

(** the cell that answers a query depends only on the grid *)
Lemma interp1_fixed_cell q xp : (3 <= length xp)%nat -> incr xp ->
  exists k, (k + 1 < length xp)%nat /\ forall fp, length fp = length xp -> interp1 q xp fp = cell xp fp k q.
Proof.
  intros Hn HI. destruct (interp1_cell q xp xp Hn eq_refl HI) as (k & Hk & _ & Hlo & Hhi).
  exists k. split; [ lia | ]. intros fp Hl.
  destruct (Rle_dec (el xp k) q) as [Q1 | Q1].
  - destruct (Rle_dec q (el xp (k + 1))) as [Q2 | Q2].
    + apply interp1_incr; auto; lia.
    + destruct Hhi as [Hhi | ->]; [ lra | ]. apply interp1_above; auto; lra.
  - destruct Hlo as [Hlo | ->]; [ lra | ]. apply interp1_below; auto; lra.
Qed.

Lemma ex_derive_Rsum n (f : nat -> R -> R) x : (forall i, (i < n)%nat -> ex_derive (f i) x) -> ex_derive (fun x => Rsum n (fun i => f i x)) x.
Proof.
  induction n as [ | n IH]; intros H; simpl.
  - apply ex_derive_const.
  - apply (ex_derive_plus (V := R_NormedModule) (fun x => Rsum n (fun i => f i x)) (f n)); [ apply IH; intros; apply H; lia | apply H; lia ].
Qed.

Section Along.
  Variables (c : cosmology) (d : direction).
  Hypothesis HE : expanding c.
  Let cd := displaced c d.
  Lemma displaced_fresh t : fresh (cd t).
  Proof. split; reflexivity. Qed.
  Lemma displaced_reachable t : reachable (cd t).
  Proof. exists (cd t), []. split; [ apply displaced_fresh | reflexivity ]. Qed.
  Lemma displaced_chi t a : chi (cd t) a = chi_of (cd t) (-3) 256 a.
  Proof. apply chi_value, inv_fresh, displaced_fresh. Qed.
  Lemma displaced_E0 x : Esqr (cd 0) x = Esqr c x.
  Proof.
    unfold cd, displaced, make_cosmology, Esqr, f_de, Omega_de, Omega, Omega_m, Omega_k. simpl. rewrite !Rmult_0_l, !Rplus_0_r. reflexivity.
  Qed.
  Lemma displaced_expanding : expanding (cd 0).
  Proof. intros x Hx. rewrite displaced_E0. now apply HE. Qed.
  Lemma Esqr_along x : ex_derive (fun t => Esqr (cd t) x) 0.
  Proof.
    unfold cd, displaced, make_cosmology, Esqr, f_de, Omega_de, Omega, Omega_m, Omega_k. simpl. auto_derive. repeat split.
  Qed.
  Lemma dchi_along x : 0 < x -> ex_derive (fun t => dchioverda (cd t) x) 0.
  Proof.
    intros Hx. unfold dchioverda. pose proof (displaced_expanding x Hx) as P. pose proof (Esqr_along x) as D.
    assert (S0 : sqrt (Esqr (cd 0) x) <> 0) by (apply Rgt_not_eq, sqrt_lt_R0, P).
    set (e := fun t => Esqr (cd t) x) in *. change (ex_derive e 0) in D. change (0 < e 0) in P. change (sqrt (e 0) <> 0) in S0.
    change (ex_derive (fun t => const_rh / (x ^ 2 * sqrt (e t))) 0). clearbody e. generalize const_rh; intros rh.
    assert (X2 : x ^ 2 <> 0) by (apply pow_nonzero; lra). set (x2 := x ^ 2) in *. clearbody x2.
    auto_derive. repeat split; [ exact D | exact P | ]. apply Rmult_integral_contrapositive_currified; assumption.
  Qed.
  Lemma chistep_along j : ex_derive (fun t => chistep (cd t) (-3) 256 j) 0.
  Proof.
    unfold chistep, qstep. set (s := ln (anode (-3) 256 j)). set (u := ln (anode (-3) 256 (j + 1))).
    assert (G : forall x, ex_derive (fun t => dchioverda (cd t) (exp x) * exp x) 0).
    { intros x. apply (ex_derive_mult (fun t => dchioverda (cd t) (exp x)) (fun _ => exp x)); [ apply dchi_along, exp_pos | apply ex_derive_const ]. }
    pose proof (G s) as G1. pose proof (G u) as G2. pose proof (G ((s + u) / 2)) as G3.
    set (g1 := fun t => dchioverda (cd t) (exp s) * exp s) in *. set (g2 := fun t => dchioverda (cd t) (exp u) * exp u) in *.
    set (g3 := fun t => dchioverda (cd t) (exp ((s + u) / 2)) * exp ((s + u) / 2)) in *.
    assert (D1 : ex_derive g1 0) by exact G1. assert (D2 : ex_derive g2 0) by exact G2. assert (D3 : ex_derive g3 0) by exact G3.
    change (ex_derive (fun t => (u - s) / 6 * (g1 t + 4 * g3 t + g2 t)) 0). clearbody g1 g2 g3. clear G1 G2 G3. auto_derive. repeat split; assumption.
  Qed.
  Lemma chi_el_along i : (i < 256)%nat -> ex_derive (fun t => el (snd (chi_table (cd t) (-3) 256)) i) 0.
  Proof.
    intros Hi. apply (ex_derive_ext (fun t => Rsum 255 (chistep (cd t) (-3) 256) - Rsum i (chistep (cd t) (-3) 256))).
    - intros t. rewrite chi_table_el by assumption. reflexivity.
    - apply (ex_derive_minus (V := R_NormedModule)); apply (ex_derive_Rsum _ (fun j t => chistep (cd t) (-3) 256 j)); intros; apply chistep_along.
  Qed.
  Lemma chi_along a : a < 1 -> ex_derive (fun t => chi (cd t) a) 0.
  Proof.
    intros Ha. destruct (interp1_fixed_cell a (logspace (-3) 0.0 256)) as (k & Hk & EK); [ rewrite length_logspace; lia | apply logspace_incr; [ lra | lia ] | ].
    rewrite length_logspace in Hk.
    set (v := fun t => cell (logspace (-3) 0.0 256) (snd (chi_table (cd t) (-3) 256)) k a).
    assert (V : forall t, chi (cd t) a = Rmax (v t) 0).
    { intros t. rewrite displaced_chi. unfold chi_of, clip_lo. rewrite chi_table_fst, EK.
      - unfold v. f_equal. lra.
      - rewrite length_logspace. apply (proj2 (chi_table_length (cd t) (-3) 256)). }
    assert (Dv : ex_derive v 0).
    { unfold v, cell, line. pose proof (chi_el_along k ltac:(lia)) as D0. pose proof (chi_el_along (k + 1) ltac:(lia)) as D1.
      set (y0 := fun t => el (snd (chi_table (cd t) (-3) 256)) k) in *. set (y1 := fun t => el (snd (chi_table (cd t) (-3) 256)) (k + 1)) in *.
      assert (E0 : ex_derive y0 0) by exact D0. assert (E1 : ex_derive y1 0) by exact D1. clear D0 D1.
      set (x0 := el (logspace (-3) 0.0 256) k). set (x1 := el (logspace (-3) 0.0 256) (k + 1)).
      change (ex_derive (fun t => y0 t + (y1 t - y0 t) / (x1 - x0) * (a - x0)) 0). clearbody y0 y1. unfold Rdiv. set (q := / (x1 - x0)). auto_derive. repeat split; assumption. }
    assert (Pv : 0 < v 0).
    { pose proof (V 0) as V0. assert (0 < chi (cd 0) a).
      { rewrite displaced_chi. apply chi_of_pos; [ apply displaced_expanding | lra | lia | assumption ]. }
      unfold Rmax in V0. destruct (Rle_dec (v 0) 0); lra. }
    apply (ex_derive_ext_loc v); [ | exact Dv ].
    pose proof (ex_derive_continuous v 0 Dv) as C.
    assert (L : locally (v 0) (fun y => 0 < y)) by (apply (open_gt 0); exact Pv).
    specialize (C _ L). unfold filtermap in C. apply (filter_imp (fun t => 0 < v t)); [ | exact C ].
    intros t Pt. rewrite V. symmetry. apply Rmax_left. lra.
  Qed.
End Along.

(** ** Curvature *)
Ltac eqR := match goal with |- @eq _ ?u ?v => change (@eq R u v) end; cbv beta.
Lemma sin_taylor y : 0 <= y <= 1 -> Rabs (sin y - y + y ^ 3 / 6) <= y ^ 4 / 24.
Proof.
  intros Hy.
  assert (B3 : forall t, 0 <= t <= 1 -> Rabs (sin t) <= 1 * t ^ 0) by (intros t _; simpl; pose proof (SIN_bound t); apply Rabs_le; lra).
  assert (B2 : forall t, 0 <= t <= 1 -> Rabs (1 - cos t) <= 1 / INR 1 * t ^ 1).
  { apply (bound_up (fun t => 1 - cos t) sin); [ | eqR; rewrite cos_0; ring | exact B3 ]. intros t _. auto_derive; [ exact I | eqR; ring ]. }
  assert (B1 : forall t, 0 <= t <= 1 -> Rabs (t - sin t) <= 1 / INR 1 / INR 2 * t ^ 2).
  { apply (bound_up (fun t => t - sin t) (fun t => 1 - cos t)); [ | eqR; rewrite sin_0; ring | exact B2 ]. intros t _. auto_derive; [ exact I | eqR; ring ]. }
  assert (B0 : forall t, 0 <= t <= 1 -> Rabs (cos t - 1 + t ^ 2 / 2) <= 1 / INR 1 / INR 2 / INR 3 * t ^ 3).
  { apply (bound_up (fun t => cos t - 1 + t ^ 2 / 2) (fun t => t - sin t)); [ | eqR; rewrite cos_0; field | exact B1 ]. intros t _. auto_derive; [ exact I | eqR; field ]. }
  pose proof (bound_up (fun t => sin t - t + t ^ 3 / 6) (fun t => cos t - 1 + t ^ 2 / 2) (1 / INR 1 / INR 2 / INR 3) 3 1) as B.
  eapply Rle_trans; [ apply B; [ | eqR; rewrite sin_0; field | exact B0 | exact Hy ] | apply Req_le; simpl INR; field ].
  intros t _. auto_derive; [ exact I | eqR; field ].
Qed.
Lemma exp1_lt : exp 1 <= 4.
Proof.
  pose proof (exp_ineq1_le (- (1 / 2))) as H. assert (E : exp 1 = / (exp (- (1 / 2)) * exp (- (1 / 2)))).
  { rewrite <- exp_plus. rewrite <- exp_Ropp. f_equal. field. }
  rewrite E. replace 4 with (/ (1 / 4)) by field. apply Rinv_le_contravar; [ lra | nra ].
Qed.
Lemma sinh_bound t : 0 <= t <= 1 -> Rabs (sinh t) <= 2.
Proof.
  intros Ht. unfold sinh. pose proof (exp_pos (- t)). pose proof (exp_pos t). pose proof exp1_lt.
  assert (exp t <= exp 1) by (destruct (Req_dec t 1) as [-> | Hne]; [ lra | left; apply exp_increasing; lra ]).
  assert (exp (- t) <= exp 1) by (left; apply exp_increasing; lra). apply Rabs_le. lra.
Qed.
Lemma sinh_derive x : is_derive sinh x (cosh x).
Proof. apply is_derive_Reals, derivable_pt_lim_sinh. Qed.
Lemma cosh_derive x : is_derive cosh x (sinh x).
Proof. apply is_derive_Reals, derivable_pt_lim_cosh. Qed.
Lemma sinh_taylor y : 0 <= y <= 1 -> Rabs (sinh y - y - y ^ 3 / 6) <= y ^ 4 / 12.
Proof.
  intros Hy.
  assert (B3 : forall t, 0 <= t <= 1 -> Rabs (sinh t) <= 2 * t ^ 0) by (intros t Ht; simpl; pose proof (sinh_bound t Ht); lra).
  assert (B2 : forall t, 0 <= t <= 1 -> Rabs (cosh t - 1) <= 2 / INR 1 * t ^ 1).
  { apply (bound_up (fun t => cosh t - 1) sinh); [ | eqR; rewrite cosh_0; ring | exact B3 ].
    intros t _. evar_last; [ apply (is_derive_minus (V := R_NormedModule) cosh (fun _ => 1)); [ apply cosh_derive | apply is_derive_const ] | ]. unfold minus, plus, opp, zero; simpl. ring. }
  assert (B1 : forall t, 0 <= t <= 1 -> Rabs (sinh t - t) <= 2 / INR 1 / INR 2 * t ^ 2).
  { apply (bound_up (fun t => sinh t - t) (fun t => cosh t - 1)); [ | eqR; rewrite sinh_0; ring | exact B2 ].
    intros t _. evar_last; [ apply (is_derive_minus (V := R_NormedModule) sinh (fun t => t)); [ apply sinh_derive | apply is_derive_id ] | ]. reflexivity. }
  assert (B0 : forall t, 0 <= t <= 1 -> Rabs (cosh t - (1 + t ^ 2 / 2)) <= 2 / INR 1 / INR 2 / INR 3 * t ^ 3).
  { apply (bound_up (fun t => cosh t - (1 + t ^ 2 / 2)) (fun t => sinh t - t)); [ | eqR; rewrite cosh_0; field | exact B1 ].
    intros t _. evar_last; [ apply (is_derive_minus (V := R_NormedModule) cosh (fun t => 1 + t ^ 2 / 2)); [ apply cosh_derive | ] | ].
    - instantiate (1 := t). auto_derive; [ exact I | eqR; field ].
    - reflexivity. }
  pose proof (bound_up (fun t => sinh t - (t + t ^ 3 / 6)) (fun t => cosh t - (1 + t ^ 2 / 2)) (2 / INR 1 / INR 2 / INR 3) 3 1) as B.
  replace (sinh y - y - y ^ 3 / 6) with (sinh y - (y + y ^ 3 / 6)) by ring.
  eapply Rle_trans; [ apply B; [ | eqR; rewrite sinh_0; field | exact B0 | exact Hy ] | apply Req_le; simpl INR; field ].
  intros t _. evar_last; [ apply (is_derive_minus (V := R_NormedModule) sinh (fun t => t + t ^ 3 / 6)); [ apply sinh_derive | ] | ].
  - instantiate (1 := 1 + t ^ 2 / 2). auto_derive; [ exact I | eqR; field ].
  - reflexivity.
Qed.

(** transverse distance as a function of Omega_k and chi *)
Definition fk2 (ok x : R) : R := if Rlt_dec ok 0 then closed_branch ok x else if Rlt_dec 0 ok then open_branch ok x else x.
Lemma f_k_branch_fk2 c x : f_k_branch c x = fk2 (_Omega_k c) x.
Proof.
  unfold f_k_branch, fk2, curv, isign, sqrtk, open_branch, closed_branch, const_rh.
  destruct (Rlt_dec (_Omega_k c) 0); [ reflexivity | ]. destruct (Rlt_dec 0 (_Omega_k c)); reflexivity.
Qed.
Lemma selected_fk2 c x : selected c (_Omega_k c) x = fk2 (_Omega_k c) x.
Proof.
  unfold selected, fk2, curv, isign, flat_branch. destruct (Rlt_dec (_Omega_k c) 0); [ reflexivity | ]. destruct (Rlt_dec 0 (_Omega_k c)); reflexivity.
Qed.

Lemma little_o (r : R -> R) (M dl : R) : 0 <= M -> 0 < dl -> r 0 = 0 -> (forall t, Rabs t < dl -> Rabs (r t) <= M * (Rabs t * sqrt (Rabs t))) -> is_derive r 0 0.
Proof.
  intros HM Hd R0 HB. apply is_derive_Reals. intros eps He.
  set (d1 := (eps / (2 * (M + 1))) ^ 2). assert (E0 : 0 < eps / (2 * (M + 1))) by (apply Rdiv_lt_0_compat; lra). assert (D1 : 0 < d1) by (unfold d1; nra).
  assert (Dm : 0 < Rmin dl d1) by (apply Rmin_glb_lt; assumption).
  exists (mkposreal _ Dm). intros t Nt Ht. simpl in Ht. rewrite Rplus_0_l, R0, !Rminus_0_r.
  assert (T1 : Rabs t < dl) by (eapply Rlt_le_trans; [ exact Ht | apply Rmin_l ]). assert (T2 : Rabs t < d1) by (eapply Rlt_le_trans; [ exact Ht | apply Rmin_r ]).
  specialize (HB t T1). assert (S : sqrt (Rabs t) <= eps / (2 * (M + 1))).
  { rewrite <- (sqrt_pow2 (eps / (2 * (M + 1)))) by lra. apply sqrt_le_1_alt. unfold d1 in T2. lra. }
  pose proof (Rabs_pos_lt t Nt) as Pt. pose proof (sqrt_pos (Rabs t)).
  assert (B : M * sqrt (Rabs t) <= eps / 2). { apply Rle_trans with ((M + 1) * (eps / (2 * (M + 1)))); [ nra | apply Req_le; field; lra ]. }
  unfold Rdiv at 1. rewrite Rabs_mult, Rabs_Rinv by exact Nt. apply (Rmult_lt_reg_r (Rabs t)); [ exact Pt | ]. rewrite Rmult_assoc, Rinv_l, Rmult_1_r by lra. nra.
Qed.

Definition rh : R := 2997.92458.
Lemma rh_pos : 0 < rh. Proof. unfold rh; lra. Qed.
Lemma fk2_taylor k x : 0 <= x -> sqrt (Rabs k) * x <= rh -> Rabs (fk2 k x - x - k * x ^ 3 / (6 * rh ^ 2)) <= x ^ 4 / (12 * rh ^ 3) * (Rabs k * sqrt (Rabs k)).
Proof.
  intros Hx Hs. pose proof rh_pos as Hr. unfold fk2, closed_branch, open_branch. fold rh.
  assert (Y : forall s, 0 < s -> s * x <= rh -> 0 <= s * x / rh <= 1).
  { intros s Hs0 Hle. split; [ apply Rmult_le_pos; [ nra | left; now apply Rinv_0_lt_compat ] | apply (Rmult_le_reg_r rh); [ assumption | ]; unfold Rdiv; rewrite Rmult_assoc, Rinv_l; lra ]. }
  destruct (Rlt_dec k 0) as [K | K]; [ | destruct (Rlt_dec 0 k) as [K' | K'] ].
  - rewrite (Rabs_left k K) in *. set (s := sqrt (- k)) in *. assert (S0 : 0 < s) by (apply sqrt_lt_R0; lra). assert (SS : s * s = - k) by (apply sqrt_sqrt; lra).
    pose proof (sin_taylor _ (Y s S0 Hs)) as T. set (y := s * x / rh) in *.
    replace (rh / s * sin y - x - k * x ^ 3 / (6 * rh ^ 2)) with (rh / s * (sin y - y + y ^ 3 / 6)).
    + rewrite Rabs_mult, (Rabs_pos_eq (rh / s)) by (left; apply Rdiv_lt_0_compat; lra).
      apply Rle_trans with (rh / s * (y ^ 4 / 12)).
      * apply Rmult_le_compat_l; [ left; apply Rdiv_lt_0_compat; lra | ]. pose proof (pow_le y 4 (proj1 (Y s S0 Hs))). lra.
      * apply Req_le. unfold y. replace (- k) with (s * s) by lra. field. lra.
    + unfold y. replace k with (- (s * s)) by lra. field. lra.
  - rewrite (Rabs_pos_eq k) in * by lra. set (s := sqrt k) in *. assert (S0 : 0 < s) by (apply sqrt_lt_R0; lra). assert (SS : s * s = k) by (apply sqrt_sqrt; lra).
    pose proof (sinh_taylor _ (Y s S0 Hs)) as T. set (y := s * x / rh) in *.
    replace (rh / s * sinh y - x - k * x ^ 3 / (6 * rh ^ 2)) with (rh / s * (sinh y - y - y ^ 3 / 6)).
    + rewrite Rabs_mult, (Rabs_pos_eq (rh / s)) by (left; apply Rdiv_lt_0_compat; lra).
      apply Rle_trans with (rh / s * (y ^ 4 / 12)).
      * apply Rmult_le_compat_l; [ left; apply Rdiv_lt_0_compat; lra | lra ].
      * apply Req_le. unfold y. rewrite <- SS. field. lra.
    + unfold y. rewrite <- SS. field. lra.
  - assert (k = 0) as -> by lra. rewrite Rabs_R0. replace (x - x - 0 * x ^ 3 / (6 * rh ^ 2)) with 0 by (field; lra). rewrite Rabs_R0. lra.
Qed.

Lemma transverse_fk2 c d a t : transverse_along c d a t = fk2 (_Omega_k c + t * dOmega_k d) (chi (displaced c d t) a).
Proof. unfold transverse_along. rewrite (trans_value (displaced c d t) _ _ (inv_fresh _ (displaced_fresh c d t))), f_k_branch_fk2. reflexivity. Qed.

(** at flatness *)
Lemma fk2_flat_derive (x : R -> R) (x' q : R) : is_derive x 0 x' -> 0 < x 0 -> is_derive (fun t => fk2 (0 + t * q) (x t)) 0 (x' + q * x 0 ^ 3 / (6 * rh ^ 2)).
Proof.
  intros Dx Px. pose proof rh_pos as Hr. set (r := fun t => fk2 (0 + t * q) (x t) - x t - (t * q) * x t ^ 3 / (6 * rh ^ 2)).
  assert (DR : is_derive r 0 0).
  { assert (C : continuous x 0) by (apply (ex_derive_continuous (V := R_NormedModule)); now exists x').
    assert (B : 0 < Rmin 1 (x 0)) by (apply Rmin_glb_lt; lra).
    destruct (C _ (locally_ball (x 0) (mkposreal _ B))) as [d1 H1].
    set (X := x 0 + 1). set (A := rh / X). assert (A0 : 0 < A) by (unfold A, X; apply Rdiv_lt_0_compat; lra).
    pose proof (Rabs_pos q) as Q.
    assert (D2 : 0 < A ^ 2 / (Rabs q + 1)) by (apply Rdiv_lt_0_compat; nra).
    assert (Dm : 0 < Rmin d1 (A ^ 2 / (Rabs q + 1))) by (apply Rmin_glb_lt; [ apply cond_pos | exact D2 ]).
    apply (little_o r (X ^ 4 / (12 * rh ^ 3) * (Rabs q * sqrt (Rabs q))) (Rmin d1 (A ^ 2 / (Rabs q + 1)))).
    - apply Rmult_le_pos; [ | apply Rmult_le_pos; [ lra | apply sqrt_pos ] ]. apply Rmult_le_pos; [ apply pow_le; unfold X; lra | left; apply Rinv_0_lt_compat; pose proof (pow_lt rh 3 Hr); lra ].
    - exact Dm.
    - unfold r. rewrite !Rmult_0_l. rewrite Rplus_0_r. unfold fk2. destruct (Rlt_dec 0 0); [ lra | ]. field. lra.
    - intros t Ht. assert (T1 : Rabs t < d1) by (eapply Rlt_le_trans; [ exact Ht | apply Rmin_l ]). assert (T2 : Rabs t < A ^ 2 / (Rabs q + 1)) by (eapply Rlt_le_trans; [ exact Ht | apply Rmin_r ]).
      specialize (H1 t). assert (Hb : Rabs (x t - x 0) < Rmin 1 (x 0)). { apply H1. unfold ball; simpl. unfold AbsRing_ball, abs, minus, plus, opp; simpl. now replace (t + - 0) with t by ring. }
      pose proof (Rmin_l 1 (x 0)). pose proof (Rmin_r 1 (x 0)). apply Rabs_def2 in Hb. assert (Hx : 0 <= x t <= X) by (unfold X; lra).
      assert (K : Rabs (t * q) <= A ^ 2). { rewrite Rabs_mult. pose proof (Rabs_pos t). apply Rle_trans with (A ^ 2 / (Rabs q + 1) * (Rabs q + 1)); [ nra | apply Req_le; field; lra ]. }
      assert (SA : sqrt (Rabs (t * q)) <= A). { rewrite <- (sqrt_pow2 A) by lra. now apply sqrt_le_1_alt. }
      assert (L : sqrt (Rabs (t * q)) * x t <= rh). { pose proof (sqrt_pos (Rabs (t * q))). apply Rle_trans with (A * X); [ apply Rmult_le_compat; lra | apply Req_le; unfold A, X; field; unfold X; lra ]. }
      unfold r. replace (0 + t * q) with (t * q) by ring. eapply Rle_trans; [ apply fk2_taylor; [ lra | exact L ] | ].
      rewrite !Rabs_mult. rewrite sqrt_mult by apply Rabs_pos.
      assert (P4 : x t ^ 4 / (12 * rh ^ 3) <= X ^ 4 / (12 * rh ^ 3)). { apply Rmult_le_compat_r; [ left; apply Rinv_0_lt_compat; pose proof (pow_lt rh 3 Hr); lra | apply pow_incr; lra ]. }
      apply Rle_trans with (X ^ 4 / (12 * rh ^ 3) * (Rabs t * Rabs q * (sqrt (Rabs t) * sqrt (Rabs q)))); [ | apply Req_le; ring ].
      apply Rmult_le_compat_r; [ | exact P4 ]. pose proof (Rabs_pos t). pose proof (sqrt_pos (Rabs t)). pose proof (sqrt_pos (Rabs q)). repeat apply Rmult_le_pos; assumption. }
  apply (is_derive_ext (fun t => x t + (t * q) * x t ^ 3 / (6 * rh ^ 2) + r t)); [ intros t; unfold r; eqR; ring | ].
  evar_last.
  - apply (is_derive_plus (V := R_NormedModule) (fun t => x t + t * q * x t ^ 3 / (6 * rh ^ 2)) r); [ | exact DR ].
    instantiate (1 := x' + q * x 0 ^ 3 / (6 * rh ^ 2)). unfold Rdiv. set (z := / (6 * rh ^ 2)). auto_derive; [ repeat split; now exists x' | ].
    replace (Derive (fun x0 => x x0) 0) with x' by (symmetry; apply is_derive_unique; exact Dx). eqR. simpl. ring.
  - unfold plus; simpl. eqR. ring.
Qed.

Lemma branch_ex (c : cosmology) (x : R -> R) (k q : R) : k <> 0 -> ex_derive x 0 -> ex_derive (fun t => selected c (k + t * q) (x t)) 0.
Proof.
  intros Hk Dx. assert (K0 : k + 0 * q <> 0) by (now rewrite Rmult_0_l, Rplus_0_r).
  assert (S0 : sqrt (Rabs (k + 0 * q)) <> 0) by (apply Rgt_not_eq, sqrt_lt_R0, Rabs_pos_lt, K0).
  assert (DS : ex_derive (fun t => sqrt (Rabs (k + t * q))) 0).
  { auto_derive. repeat split; [ exact K0 | apply Rabs_pos_lt, K0 ]. }
  set (s := fun t => sqrt (Rabs (k + t * q))). assert (Ds : ex_derive s 0) by exact DS. assert (s0 : s 0 <> 0) by exact S0.
  assert (O : ex_derive (fun t => open_branch (k + t * q) (x t)) 0).
  { change (ex_derive (fun t => 2997.92458 / s t * sinh (s t * x t / 2997.92458)) 0). generalize 2997.92458; intros z. clearbody s. unfold Rdiv, sinh. auto_derive. repeat split; auto. }
  assert (C : ex_derive (fun t => closed_branch (k + t * q) (x t)) 0).
  { change (ex_derive (fun t => 2997.92458 / s t * sin (s t * x t / 2997.92458)) 0). generalize 2997.92458; intros z. clearbody s. unfold Rdiv. auto_derive. repeat split; auto. }
  unfold selected. destruct (curv c) as [ | p | p]; [ exact Dx | exact C | destruct p; auto ].
Qed.

(** where curvature does not vanish, or is not varied, the tangent is the derivative *)
Lemma curved_gradient c d a : expanding c -> a < 1 -> _Omega_k c <> 0 \/ dOmega_k d = 0 ->
  is_derive (transverse_along c d a) 0 (switch_tangent c d a).
Proof.
  intros HE Ha HK. pose proof (chi_along c d HE a Ha) as Dx. set (x := fun t => chi (displaced c d t) a) in *. assert (DX : ex_derive x 0) by exact Dx. clear Dx.
  assert (EX : ex_derive (fun t => selected c (_Omega_k c + t * dOmega_k d) (x t)) 0).
  { destruct (Req_dec (_Omega_k c) 0) as [Z | NZ]; [ | now apply branch_ex ].
    unfold selected, curv, isign. rewrite Z. destruct (Rlt_dec 0 0); [ lra | ]. exact DX. }
  apply (is_derive_ext_loc (fun t => selected c (_Omega_k c + t * dOmega_k d) (x t))); [ | now apply Derive_correct ].
  assert (SG : locally 0 (fun t => (_Omega_k c < 0 -> _Omega_k c + t * dOmega_k d < 0) /\ (0 < _Omega_k c -> 0 < _Omega_k c + t * dOmega_k d) /\ (_Omega_k c = 0 -> _Omega_k c + t * dOmega_k d = 0))).
  { destruct HK as [HK | HK].
    - pose proof (Rabs_pos (dOmega_k d)) as P. assert (D : 0 < Rabs (_Omega_k c) / (Rabs (dOmega_k d) + 1)) by (apply Rdiv_lt_0_compat; [ now apply Rabs_pos_lt | lra ]).
      exists (mkposreal _ D). intros t Ht. change (Rabs (t - 0) < Rabs (_Omega_k c) / (Rabs (dOmega_k d) + 1)) in Ht. rewrite Rminus_0_r in Ht.
      assert (B : Rabs (t * dOmega_k d) < Rabs (_Omega_k c)).
      { rewrite Rabs_mult. apply Rle_lt_trans with (Rabs t * (Rabs (dOmega_k d) + 1)); [ pose proof (Rabs_pos t); nra | ].
        apply Rlt_le_trans with (Rabs (_Omega_k c) / (Rabs (dOmega_k d) + 1) * (Rabs (dOmega_k d) + 1)); [ apply Rmult_lt_compat_r; lra | apply Req_le; field; lra ]. }
      split; [ | split ]; intros S; [ rewrite (Rabs_left _ S) in B | rewrite (Rabs_pos_eq (_Omega_k c)) in B by lra | contradiction ]; apply Rabs_def2 in B; lra.
    - apply filter_forall. intros t. rewrite HK. lra. }
  apply (filter_imp (fun t => (_Omega_k c < 0 -> _Omega_k c + t * dOmega_k d < 0) /\ (0 < _Omega_k c -> 0 < _Omega_k c + t * dOmega_k d) /\ (_Omega_k c = 0 -> _Omega_k c + t * dOmega_k d = 0))); [ | exact SG ].
  intros t (S1 & S2 & S3). rewrite transverse_fk2. unfold selected, fk2, curv, isign, flat_branch.
  set (k := _Omega_k c + t * dOmega_k d) in *.
  destruct (Rlt_dec (_Omega_k c) 0) as [A | A].
  - destruct (Rlt_dec k 0) as [B | B]; [ reflexivity | exfalso; apply B; auto ].
  - destruct (Rlt_dec 0 (_Omega_k c)) as [A' | A'].
    + specialize (S2 A'). destruct (Rlt_dec k 0); [ lra | ]. destruct (Rlt_dec 0 k); [ reflexivity | lra ].
    + assert (k = 0) as -> by (apply S3; lra). destruct (Rlt_dec 0 0); [ lra | reflexivity ].
Qed.

(** at flatness the tangent misses a term *)
Lemma flat_gradient c d a : expanding c -> a < 1 -> _Omega_k c = 0 ->
  is_derive (transverse_along c d a) 0 (switch_tangent c d a + dOmega_k d * chi (displaced c d 0) a ^ 3 / (6 * 2997.92458 ^ 2)).
Proof.
  intros HE Ha K. pose proof (chi_along c d HE a Ha) as Dx. set (x := fun t => chi (displaced c d t) a) in *. assert (DX : ex_derive x 0) by exact Dx. clear Dx.
  assert (P : 0 < x 0). { unfold x. rewrite displaced_chi. apply chi_of_pos; [ now apply displaced_expanding | lra | lia | assumption ]. }
  assert (T : switch_tangent c d a = Derive x 0).
  { unfold switch_tangent. apply Derive_ext. intros t. unfold selected, curv, isign. rewrite K. destruct (Rlt_dec 0 0); [ lra | ]. reflexivity. }
  rewrite T. apply (is_derive_ext (fun t => fk2 (0 + t * dOmega_k d) (x t))).
  - intros t. rewrite transverse_fk2, K. reflexivity.
  - apply fk2_flat_derive; [ now apply Derive_correct | exact P ].
Qed.

(** ** Public statements *)
Lemma displaced_zero c d a : reachable c -> expanding c -> a <= 1 -> chi (displaced c d 0) a = chi c a.
Proof.
  intros Rc HE Ha. pose proof (displaced_reachable c d 0) as R0. pose proof (displaced_expanding c d HE) as E0.
  apply Rle_antisym; apply distance_order; auto; intros x Hx; unfold H; rewrite displaced_E0; lra.
Qed.
Lemma hubble_along c d a : expanding c -> 0 < a -> ex_derive (fun t => H (displaced c d t) a) 0.
Proof.
  intros HE Ha. pose proof (Esqr_along c d a) as D. pose proof (displaced_expanding c d HE a Ha) as P. unfold H.
  set (e := fun t => Esqr (displaced c d t) a) in *. assert (D' : ex_derive e 0) by exact D. change (0 < e 0) in P.
  change (ex_derive (fun t => const_H0 * sqrt (e t)) 0). generalize const_H0; intros z. clear D. clearbody e. auto_derive. repeat split; assumption.
Qed.
Lemma distances_differentiable c d a : reachable c -> expanding c -> 0 < a < 1 ->
  ex_derive (fun t => H (displaced c d t) a) 0 /\ ex_derive (fun t => chi (displaced c d t) a) 0 /\
  ex_derive (fun t => f_k (displaced c d t) a) 0 /\ chi (displaced c d 0) a = chi c a.
Proof.
  intros Rc HE Ha. split; [ apply hubble_along; tauto || lra | ]. split; [ now apply chi_along | ]. split; [ | apply displaced_zero; auto; lra ].
  destruct (Req_dec (_Omega_k c) 0) as [Z | Z].
  - eexists. apply (flat_gradient c d a HE); [ lra | exact Z ].
  - eexists. apply (curved_gradient c d a HE); [ lra | now left ].
Qed.
Lemma flat_gradient_value c d a : reachable c -> expanding c -> a < 1 -> _Omega_k c = 0 ->
  is_derive (transverse_along c d a) 0 (switch_tangent c d a + dOmega_k d * chi c a ^ 3 / (6 * 2997.92458 ^ 2)).
Proof. intros Rc HE Ha K. rewrite <- (displaced_zero c d a Rc HE) by lra. now apply flat_gradient. Qed.
Definition along_Omega_k : direction := Direction 0 0 0 0 0 1 0 0.
Lemma flat_gradient_wrong c a : reachable c -> expanding c -> a < 1 -> _Omega_k c = 0 ->
  ~ is_derive (transverse_along c along_Omega_k a) 0 (switch_tangent c along_Omega_k a).
Proof.
  intros Rc HE Ha K HD. pose proof (flat_gradient c along_Omega_k a HE Ha K) as T.
  apply is_derive_unique in HD. apply is_derive_unique in T.
  assert (P : 0 < chi (displaced c along_Omega_k 0) a). { rewrite displaced_chi. apply chi_of_pos; [ now apply displaced_expanding | lra | lia | assumption ]. }
  pose proof (pow_lt _ 3 P). rewrite HD in T. simpl dOmega_k in T. lra.
Qed.
Lemma gradient_refuted : exists c d a, reachable c /\ expanding c /\ 0 < a < 1 /\ ~ is_derive (transverse_along c d a) 0 (switch_tangent c d a).
Proof.
  exists Planck15, along_Omega_k, (1 / 2). destruct planck_ok as (P1 & _ & _ & P4 & _). repeat split; try lra; auto.
  apply flat_gradient_wrong; auto; try lra. unfold Planck15, make_cosmology; simpl; lra.
Qed.
Definition open_planck : cosmology := make_cosmology 0.2589 0.04860 0.6774 0.9667 0.8159 0.1 (-0.9) 0.1 None.
Lemma open_planck_ok : reachable open_planck /\ expanding open_planck /\ _Omega_k open_planck <> 0 /\ selected open_planck = open_branch.
Proof.
  split; [ exists open_planck, []; split; [ split; reflexivity | reflexivity ] | ].
  split; [ apply physical_expanding; unfold physical, Omega_de, Omega_m, Omega_k, Omega, open_planck, make_cosmology; simpl; repeat split; lra | ].
  split; [ unfold open_planck, make_cosmology; simpl; lra | ].
  unfold selected, curv, isign, open_planck, make_cosmology; simpl. destruct (Rlt_dec 0.1 0); [ lra | ]. destruct (Rlt_dec 0 0.1); [ reflexivity | lra ].
Qed.
