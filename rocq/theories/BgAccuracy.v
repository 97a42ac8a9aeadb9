(** * Accuracy of the tabulated comoving distance *)
From Coquelicot Require Import Coquelicot.
From Verif Require Import Np NpLemmas Core Ode OdeSpec OdeProofs Interp InterpProofs IntegrateSpec SimpsError Background BgSpec BgAlgebra BgTables BgGrowth BgPositive BgProofs BgFinal BgFinal2 BgFinal4 BgCompare.
Opaque chi_table growth_table_ODE growth_table_gamma.

(** ** Numbers *)
Lemma exp_ge2 x : 0 <= x -> 1 + x + x ^ 2 / 2 <= exp x.
Proof.
  intros Hx. destruct (Req_dec x 0) as [-> | Hne]; [ rewrite exp_0; lra | ].
  destruct (MVT_cor2 (fun t => exp t - (1 + t + t ^ 2 / 2)) (fun t => exp t - (1 + t)) 0 x ltac:(lra)) as (c & E & Hc).
  { intros t _. apply is_derive_Reals. auto_derive; [ exact I | field ]. }
  rewrite exp_0 in E. pose proof (exp_ineq1_le c). nra.
Qed.
Lemma ln10_tight : ln 10 <= 2.31.
Proof.
  apply Rnot_lt_le; intros H. apply exp_increasing in H. rewrite exp_ln in H by lra.
  assert (E : exp 2.31 = exp 0.1155 ^ 20). { simpl. rewrite Rmult_1_r, <- !exp_plus. f_equal. lra. }
  pose proof (exp_ge2 0.1155 ltac:(lra)) as H4.
  assert (1.1221 ^ 20 <= exp 0.1155 ^ 20) by (apply pow_incr; lra). assert (10 < 1.1221 ^ 20) by lra. lra.
Qed.
Definition dstep : R := 3 / 255 * ln 10.
Lemma dstep_range : 0 < dstep <= 0.02718.
Proof. unfold dstep. pose proof ln10_pos. pose proof ln10_tight. lra. Qed.
Lemma dstep_exp : exp dstep - 1 <= 0.02794.
Proof.
  pose proof dstep_range. pose proof (exp_le_inv dstep ltac:(lra)).
  assert (/ (1 - dstep) <= 1.02794). { apply Rmult_le_reg_l with (1 - dstep); [ lra | ]. rewrite Rinv_r by lra. lra. } lra.
Qed.

Lemma prod_abs a b A B : Rabs a <= A -> Rabs b <= B -> Rabs (a * b) <= A * B.
Proof. intros Ha Hb. rewrite Rabs_mult. apply Rmult_le_compat; auto using Rabs_pos. Qed.

(** ** Four derivatives of exp(x/2)/sqrt F, for F with logarithmically bounded derivatives *)
Section Four.
  Variables (F F1 F2 F3 F4 : R -> R) (B1 B2 B3 B4 x1 : R).
  Hypothesis P : forall x, 0 < F x.
  Hypothesis D0 : forall x, is_derive F x (F1 x).
  Hypothesis D1 : forall x, is_derive F1 x (F2 x).
  Hypothesis D2 : forall x, is_derive F2 x (F3 x).
  Hypothesis D3 : forall x, is_derive F3 x (F4 x).
  Hypothesis H1 : forall x, x <= x1 -> Rabs (F1 x) <= B1 * F x.
  Hypothesis H2 : forall x, x <= x1 -> Rabs (F2 x) <= B2 * F x.
  Hypothesis H3 : forall x, x <= x1 -> Rabs (F3 x) <= B3 * F x.
  Hypothesis H4 : forall x, x <= x1 -> Rabs (F4 x) <= B4 * F x.

  Let r1 x := F1 x / F x. Let r2 x := F2 x / F x. Let r3 x := F3 x / F x. Let r4 x := F4 x / F x.
  Definition gx x := exp (x / 2) / sqrt (F x).
  Let p1 x := 1 / 2 - r1 x / 2.
  Let p2 x := 1 / 4 - r1 x / 2 + 3 / 4 * r1 x ^ 2 - r2 x / 2.
  Let p3 x := 1 / 8 - 3 / 8 * r1 x + 9 / 8 * r1 x ^ 2 - 3 / 4 * r2 x - 15 / 8 * r1 x ^ 3 + 9 / 4 * (r1 x * r2 x) - r3 x / 2.
  Let p4 x := 1 / 16 - 1 / 4 * r1 x + 9 / 8 * r1 x ^ 2 - 3 / 4 * r2 x - 15 / 4 * r1 x ^ 3 + 9 / 2 * (r1 x * r2 x) - r3 x
    + 105 / 16 * r1 x ^ 4 - 45 / 4 * (r1 x ^ 2 * r2 x) + 9 / 4 * r2 x ^ 2 + 3 * (r1 x * r3 x) - r4 x / 2.

  Lemma r1_derive x : is_derive r1 x (r2 x - r1 x ^ 2).
  Proof.
    pose proof (P x). pose proof (D0 x) as A0. pose proof (D1 x) as A1. unfold r1, r2.
    evar_last; [ apply (is_derive_div F1 F); [ exact A1 | exact A0 | lra ] | ]. field. lra.
  Qed.
  Lemma r2_derive x : is_derive r2 x (r3 x - r1 x * r2 x).
  Proof.
    pose proof (P x). unfold r1, r2, r3.
    evar_last; [ apply (is_derive_div F2 F); [ apply D2 | apply D0 | lra ] | ]. field. lra.
  Qed.
  Lemma r3_derive x : is_derive r3 x (r4 x - r1 x * r3 x).
  Proof.
    pose proof (P x). unfold r1, r3, r4.
    evar_last; [ apply (is_derive_div F3 F); [ apply D3 | apply D0 | lra ] | ]. field. lra.
  Qed.
  Lemma gx_pos x : 0 < gx x.
  Proof. apply Rdiv_lt_0_compat; [ apply exp_pos | apply sqrt_lt_R0, P ]. Qed.
  Lemma gx_derive x : is_derive gx x (gx x * p1 x).
  Proof.
    pose proof (P x) as Px. pose proof (sqrt_lt_R0 _ Px) as Ps. pose proof (sqrt_sqrt (F x) ltac:(lra)) as E.
    unfold gx, p1, r1. pose proof (D0 x) as A0.
    assert (DA : is_derive (fun x => exp (x / 2)) x (exp (x / 2) / 2)) by (auto_derive; [ exact I | unfold Rdiv; ring ]).
    assert (DB : is_derive (fun x => sqrt (F x)) x (F1 x / (2 * sqrt (F x)))).
    { apply (is_derive_sqrt F); assumption. }
    evar_last.
    - apply (is_derive_div (fun x => exp (x / 2)) (fun x => sqrt (F x)) x _ _ DA DB). lra.
    - replace (F1 x / F x) with (F1 x / (sqrt (F x) * sqrt (F x))) by (now rewrite E). field. lra.
  Qed.
  Lemma r1_ex x : ex_derive (fun x => r1 x) x. Proof. eexists; apply r1_derive. Qed.
  Lemma r2_ex x : ex_derive (fun x => r2 x) x. Proof. eexists; apply r2_derive. Qed.
  Lemma r3_ex x : ex_derive (fun x => r3 x) x. Proof. eexists; apply r3_derive. Qed.
  Lemma gx_ex x : ex_derive (fun x => gx x) x. Proof. eexists; apply gx_derive. Qed.
  Lemma r1_D x : Derive (fun x => r1 x) x = r2 x - r1 x ^ 2. Proof. apply is_derive_unique, r1_derive. Qed.
  Lemma r2_D x : Derive (fun x => r2 x) x = r3 x - r1 x * r2 x. Proof. apply is_derive_unique, r2_derive. Qed.
  Lemma r3_D x : Derive (fun x => r3 x) x = r4 x - r1 x * r3 x. Proof. apply is_derive_unique, r3_derive. Qed.
  Lemma gx_D x : Derive (fun x => gx x) x = gx x * p1 x. Proof. apply is_derive_unique, gx_derive. Qed.
  Lemma gx_derive2 x : is_derive (fun x => gx x * p1 x) x (gx x * p2 x).
  Proof.
    unfold p1. auto_derive; [ repeat split; apply gx_ex || apply r1_ex | ]. rewrite gx_D, r1_D. unfold p1, p2. field.
  Qed.
  Lemma gx_derive3 x : is_derive (fun x => gx x * p2 x) x (gx x * p3 x).
  Proof.
    unfold p2. auto_derive; [ repeat split; apply gx_ex || apply r1_ex || apply r2_ex | ]. rewrite gx_D, r1_D, r2_D. unfold p1, p3. field.
  Qed.
  Lemma gx_derive4 x : is_derive (fun x => gx x * p3 x) x (gx x * p4 x).
  Proof.
    unfold p3. auto_derive; [ repeat split; apply gx_ex || apply r1_ex || apply r2_ex || apply r3_ex | ]. rewrite gx_D, r1_D, r2_D, r3_D. unfold p1, p4. field.
  Qed.

  Lemma ratio_bound u f B : 0 < f -> Rabs u <= B * f -> Rabs (u / f) <= B.
  Proof.
    intros Pf Hu. unfold Rdiv. rewrite Rabs_mult, Rabs_inv, (Rabs_right f) by lra.
    apply Rmult_le_reg_r with f; [ assumption | ]. rewrite Rmult_assoc, Rinv_l by lra. lra.
  Qed.
  Definition K4 : R := 1 / 16 + B1 / 4 + 9 / 8 * (B1 * B1) + 3 / 4 * B2 + 15 / 4 * (B1 * (B1 * B1)) + 9 / 2 * (B1 * B2) + B3
    + 105 / 16 * (B1 * B1 * (B1 * B1)) + 45 / 4 * (B1 * B1 * B2) + 9 / 4 * (B2 * B2) + 3 * (B1 * B3) + B4 / 2.
  Lemma p4_bound x : x <= x1 -> Rabs (p4 x) <= K4.
  Proof.
    intros Hx. pose proof (ratio_bound _ _ _ (P x) (H1 x Hx)) as R1. pose proof (ratio_bound _ _ _ (P x) (H2 x Hx)) as R2.
    pose proof (ratio_bound _ _ _ (P x) (H3 x Hx)) as R3. pose proof (ratio_bound _ _ _ (P x) (H4 x Hx)) as R4.
    fold (r1 x) in R1. fold (r2 x) in R2. fold (r3 x) in R3. fold (r4 x) in R4.
    pose proof (prod_abs _ _ _ _ R1 R1) as A11. pose proof (prod_abs _ _ _ _ R1 A11) as A111. pose proof (prod_abs _ _ _ _ A11 A11) as A1111.
    pose proof (prod_abs _ _ _ _ R1 R2) as A12. pose proof (prod_abs _ _ _ _ A11 R2) as A112. pose proof (prod_abs _ _ _ _ R2 R2) as A22.
    pose proof (prod_abs _ _ _ _ R1 R3) as A13.
    unfold p4. replace (r1 x ^ 2) with (r1 x * r1 x) by ring. replace (r1 x ^ 3) with (r1 x * (r1 x * r1 x)) by ring.
    replace (r1 x ^ 4) with (r1 x * r1 x * (r1 x * r1 x)) by ring. replace (r2 x ^ 2) with (r2 x * r2 x) by ring.
    repeat match goal with A : Rabs _ <= _ |- _ => apply Rabs_le_between in A end.
    unfold K4. apply Rabs_le.
    set (m11 := r1 x * r1 x) in *. set (m111 := r1 x * m11) in *. set (m1111 := m11 * m11) in *. set (m12 := r1 x * r2 x) in *.
    set (m112 := m11 * r2 x) in *. set (m22 := r2 x * r2 x) in *. set (m13 := r1 x * r3 x) in *. clearbody m11 m111 m1111 m12 m112 m22 m13.
    set (b11 := B1 * B1) in *. set (b111 := B1 * b11) in *. set (b1111 := b11 * b11) in *. set (b12 := B1 * B2) in *. set (b112 := b11 * B2) in *.
    set (b22 := B2 * B2) in *. set (b13 := B1 * B3) in *. clearbody b11 b111 b1111 b12 b112 b22 b13. lra.
  Qed.

  Lemma gx_four N a b m : a <= b -> b <= x1 -> (forall x, a <= x <= b -> gx x <= m) -> Nat.Even N -> (2 <= N)%nat ->
    Rabs (simpson gx a b N - RInt gx a b) <= (m * K4) * (b - a) ^ 5 / (180 * INR N ^ 4).
  Proof.
    intros Hab Hb Hm HN HN2. apply (simpson_error gx (fun x => gx x * p1 x) (fun x => gx x * p2 x) (fun x => gx x * p3 x) (fun x => gx x * p4 x)); auto.
    intros x Hx. split; [ apply gx_derive | split; [ apply gx_derive2 | split; [ apply gx_derive3 | split; [ apply gx_derive4 | ] ] ] ].
    rewrite Rabs_mult, (Rabs_right (gx x)) by (left; apply gx_pos). pose proof (gx_pos x). specialize (Hm x Hx).
    apply Rmult_le_compat; [ lra | apply Rabs_pos | lra | apply p4_bound; lra ].
  Qed.
End Four.

(** ** Linear interpolation error *)
Lemma convex_below (u u' u'' : R -> R) (a b x : R) : (forall t, a <= t <= b -> is_derive u t (u' t)) -> (forall t, a <= t <= b -> is_derive u' t (u'' t)) ->
  (forall t, a <= t <= b -> 0 <= u'' t) -> u a = 0 -> u b = 0 -> a <= x <= b -> u x <= 0.
Proof.
  intros Hu Hu' Pos Ea Eb Hx. destruct (Req_dec a x) as [<- | Ha]; [ lra | ]. destruct (Req_dec x b) as [-> | Hb]; [ lra | ].
  destruct (MVT_cor2 u u' a x ltac:(lra)) as (c1 & E1 & C1). { intros t Ht. apply is_derive_Reals, Hu. lra. }
  destruct (MVT_cor2 u u' x b ltac:(lra)) as (c2 & E2 & C2). { intros t Ht. apply is_derive_Reals, Hu. lra. }
  destruct (MVT_cor2 u' u'' c1 c2 ltac:(lra)) as (c3 & E3 & C3). { intros t Ht. apply is_derive_Reals, Hu'. lra. }
  pose proof (Pos c3 ltac:(lra)). assert (u' c1 <= u' c2) by nra.
  apply Rnot_lt_le. intros Hp. rewrite Ea in E1. rewrite Eb in E2.
  assert (0 < u' c1) by (apply Rmult_lt_reg_r with (x - a); lra). assert (u' c2 < 0) by (apply Rmult_lt_reg_r with (b - x); lra). lra.
Qed.
Lemma line_error (f f' f'' : R -> R) (M a b x : R) : a < b -> (forall t, a <= t <= b -> is_derive f t (f' t)) -> (forall t, a <= t <= b -> is_derive f' t (f'' t)) ->
  (forall t, a <= t <= b -> Rabs (f'' t) <= M) -> a <= x <= b -> Rabs (line a (f a) b (f b) x - f x) <= M * (b - a) ^ 2 / 8.
Proof.
  intros Hab Hf Hf' HM Hx. set (q := (f b - f a) / (b - a)).
  assert (Eb : f a + q * (b - a) = f b) by (unfold q; field; lra).
  assert (G : forall sg, (sg = 1 \/ sg = -1) -> sg * (f x - (f a + q * (x - a))) <= M * (x - a) * (b - x) / 2).
  { intros sg Hsg.
    pose proof (convex_below (fun t => sg * (f t - (f a + q * (t - a))) - M * (t - a) * (b - t) / 2)
      (fun t => sg * (f' t - q) - M * (a + b - 2 * t) / 2) (fun t => sg * f'' t + M) a b x) as C.
    cbv beta in C. apply Rplus_le_reg_r with (- (M * (x - a) * (b - x) / 2)). rewrite Rplus_opp_r. apply C; clear C.
    - intros t Ht. pose proof (Hf t Ht) as A. auto_derive; [ eexists; exact A | ]. replace (Derive (fun x0 => f x0) t) with (f' t) by (symmetry; now apply is_derive_unique). field.
    - intros t Ht. pose proof (Hf' t Ht) as A. auto_derive; [ eexists; exact A | ]. replace (Derive (fun x0 => f' x0) t) with (f'' t) by (symmetry; now apply is_derive_unique). field.
    - intros t Ht. specialize (HM t Ht). apply Rabs_le_between in HM. destruct Hsg as [-> | ->]; lra.
    - field.
    - rewrite Eb. field.
    - assumption. }
  assert (Q : M * (x - a) * (b - x) / 2 <= M * (b - a) ^ 2 / 8).
  { assert (0 <= M) by (eapply Rle_trans; [ apply Rabs_pos | apply (HM a); lra ]).
    replace (M * (b - a) ^ 2 / 8 - M * (x - a) * (b - x) / 2) with (M * ((x - (a + b) / 2) ^ 2 / 2)) by field.
    apply Rminus_le. replace (M * (x - a) * (b - x) / 2 - M * (b - a) ^ 2 / 8) with (- (M * ((x - (a + b) / 2) ^ 2 / 2))) by field.
    assert (0 <= M * ((x - (a + b) / 2) ^ 2 / 2)); [ | lra ]. apply Rmult_le_pos; [ assumption | ]. pose proof (pow2_ge_0 (x - (a + b) / 2)). lra. }
  unfold line. fold q. pose proof (G 1 ltac:(now left)). pose proof (G (-1) ltac:(now right)). apply Rabs_le. lra.
Qed.

(** ** The integrand of the distance in ln a *)
Definition psi (c : cosmology) x := -3 * (_w0 c + _wa c) * x + 3 * _wa c * (exp x - 1).
Definition mu (c : cosmology) x := -3 * (_w0 c + _wa c) + 3 * _wa c * exp x.
Definition nu (c : cosmology) x := 3 * _wa c * exp x.
Definition Fx c x := Omega_m c + Omega_k c * exp x + Omega_de c * exp (psi c x).
Definition Fx1 c x := Omega_k c * exp x + Omega_de c * exp (psi c x) * mu c x.
Definition Fx2 c x := Omega_k c * exp x + Omega_de c * exp (psi c x) * (mu c x ^ 2 + nu c x).
Definition Fx3 c x := Omega_k c * exp x + Omega_de c * exp (psi c x) * (mu c x ^ 3 + 3 * (mu c x * nu c x) + nu c x).
Definition Fx4 c x := Omega_k c * exp x + Omega_de c * exp (psi c x) *
  (mu c x ^ 4 + 6 * (mu c x ^ 2 * nu c x) + 3 * nu c x ^ 2 + 4 * (mu c x * nu c x) + nu c x).
Lemma psi_derive c x : is_derive (psi c) x (mu c x).
Proof. unfold psi, mu. auto_derive; [ exact I | ring ]. Qed.
Lemma mu_derive c x : is_derive (mu c) x (nu c x).
Proof. unfold mu, nu. auto_derive; [ exact I | ring ]. Qed.
Lemma nu_derive c x : is_derive (nu c) x (nu c x).
Proof. unfold nu. auto_derive; [ exact I | ring ]. Qed.
Lemma psi_ex c x : ex_derive (fun x => psi c x) x. Proof. eexists; apply psi_derive. Qed.
Lemma mu_ex c x : ex_derive (fun x => mu c x) x. Proof. eexists; apply mu_derive. Qed.
Lemma nu_ex c x : ex_derive (fun x => nu c x) x. Proof. eexists; apply nu_derive. Qed.
Lemma psi_D c x : Derive (fun x => psi c x) x = mu c x. Proof. apply is_derive_unique, psi_derive. Qed.
Lemma mu_D c x : Derive (fun x => mu c x) x = nu c x. Proof. apply is_derive_unique, mu_derive. Qed.
Lemma nu_D c x : Derive (fun x => nu c x) x = nu c x. Proof. apply is_derive_unique, nu_derive. Qed.
Opaque psi mu nu.
Ltac dd := auto_derive;
  [ repeat split; match goal with
    | |- ex_derive (fun x => psi _ x) _ => apply psi_ex
    | |- ex_derive (fun x => mu _ x) _ => apply mu_ex
    | |- ex_derive (fun x => nu _ x) _ => apply nu_ex
    end
  | repeat match goal with
    | |- context [ Derive (fun x => psi _ x) _ ] => rewrite psi_D
    | |- context [ Derive (fun x => mu _ x) _ ] => rewrite mu_D
    | |- context [ Derive (fun x => nu _ x) _ ] => rewrite nu_D
    end; simpl; ring ].
Lemma Fx_D0 c x : is_derive (Fx c) x (Fx1 c x).
Proof. unfold Fx, Fx1. dd. Qed.
Lemma Fx_D1 c x : is_derive (Fx1 c) x (Fx2 c x).
Proof. unfold Fx1, Fx2. dd. Qed.
Lemma Fx_D2 c x : is_derive (Fx2 c) x (Fx3 c x).
Proof. unfold Fx2, Fx3. dd. Qed.
Lemma Fx_D3 c x : is_derive (Fx3 c) x (Fx4 c x).
Proof. unfold Fx3, Fx4. dd. Qed.
Transparent psi mu nu.
Lemma Fx_E c x : Fx c x = exp (3 * x) * Esqr c (exp x).
Proof.
  unfold Fx, Esqr, f_de, psi. rewrite ln_exp.
  replace (-3.0 * (1.0 + _w0 c + _wa c) * x + 3.0 * _wa c * (exp x - 1.0)) with (-3 * (_w0 c + _wa c) * x + 3 * _wa c * (exp x - 1) + - (3 * x)) by lra.
  rewrite (exp_plus _ (- (3 * x))), exp_Ropp. replace (exp (3 * x)) with (exp x ^ 3). 2: { simpl. rewrite Rmult_1_r, <- !exp_plus. f_equal. ring. }
  pose proof (exp_pos x). field. lra.
Qed.
Lemma Fx_pos c x : physical c -> Omega_m c <= Fx c x.
Proof. intros (P1 & P2 & P3). unfold Fx. pose proof (exp_pos x). pose proof (exp_pos (psi c x)). nra. Qed.

Lemma part_bound c x q B : physical c -> 1 <= B -> Rabs q <= B ->
  Rabs (Omega_k c * exp x + Omega_de c * exp (psi c x) * q) <= B * Fx c x.
Proof.
  intros (P1 & P2 & P3) HB Hq. unfold Fx. pose proof (exp_pos x). pose proof (exp_pos (psi c x)).
  assert (0 <= Omega_k c * exp x) by (apply Rmult_le_pos; lra). assert (0 <= Omega_de c * exp (psi c x)) by (apply Rmult_le_pos; lra).
  apply Rabs_le_between in Hq. set (u := Omega_k c * exp x) in *. set (v := Omega_de c * exp (psi c x)) in *.
  apply Rabs_le. nra.
Qed.
Section Bounds.
  Variables (c : cosmology) (m n : R).
  Hypothesis HP : physical c.
  Hypothesis Hm : forall x, x <= 0 -> Rabs (mu c x) <= m.
  Hypothesis Hn : forall x, x <= 0 -> Rabs (nu c x) <= n.
  Hypothesis Hm1 : 1 <= m.
  Hypothesis Hn0 : 0 <= n.
  Definition b1 := m. Definition b2 := m * m + n. Definition b3 := m * (m * m) + 3 * (m * n) + n.
  Definition b4 := m * m * (m * m) + 6 * (m * m * n) + 3 * (n * n) + 4 * (m * n) + n.
  Lemma Fx_B1 x : x <= 0 -> Rabs (Fx1 c x) <= b1 * Fx c x.
  Proof. intros Hx. apply part_bound; auto. Qed.
  Lemma Fx_B2 x : x <= 0 -> Rabs (Fx2 c x) <= b2 * Fx c x.
  Proof.
    intros Hx. apply part_bound; auto; [ unfold b2; nra | ]. pose proof (Hm x Hx) as A. pose proof (Hn x Hx) as B.
    pose proof (prod_abs _ _ _ _ A A). replace (mu c x ^ 2) with (mu c x * mu c x) by ring. eapply Rle_trans; [ apply Rabs_triang | ]. unfold b2. lra.
  Qed.
  Lemma Fx_B3 x : x <= 0 -> Rabs (Fx3 c x) <= b3 * Fx c x.
  Proof.
    intros Hx. pose proof (Hm x Hx) as A. pose proof (Hn x Hx) as B.
    pose proof (prod_abs _ _ _ _ A A) as A2. pose proof (prod_abs _ _ _ _ A A2) as A3. pose proof (prod_abs _ _ _ _ A B) as AB.
    apply part_bound; auto. { unfold b3. assert (1 <= m * m) by nra. assert (1 <= m * (m * m)) by nra. nra. }
    replace (mu c x ^ 3) with (mu c x * (mu c x * mu c x)) by ring.
    apply Rabs_le_between in A3. apply Rabs_le_between in AB. apply Rabs_le_between in B. apply Rabs_le. unfold b3. lra.
  Qed.
  Lemma Fx_B4 x : x <= 0 -> Rabs (Fx4 c x) <= b4 * Fx c x.
  Proof.
    intros Hx. pose proof (Hm x Hx) as A. pose proof (Hn x Hx) as B.
    pose proof (prod_abs _ _ _ _ A A) as A2. pose proof (prod_abs _ _ _ _ A2 A2) as A4. pose proof (prod_abs _ _ _ _ A B) as AB.
    pose proof (prod_abs _ _ _ _ A2 B) as A2B. pose proof (prod_abs _ _ _ _ B B) as BB.
    apply part_bound; auto. { unfold b4. assert (1 <= m * m) by nra. assert (1 <= m * m * (m * m)) by nra. assert (0 <= m * n) by nra. nra. }
    replace (mu c x ^ 4) with (mu c x * mu c x * (mu c x * mu c x)) by ring. replace (mu c x ^ 2) with (mu c x * mu c x) by ring. replace (nu c x ^ 2) with (nu c x * nu c x) by ring.
    apply Rabs_le_between in A4. apply Rabs_le_between in A2B. apply Rabs_le_between in BB. apply Rabs_le_between in AB. apply Rabs_le_between in B. apply Rabs_le. unfold b4. lra.
  Qed.
  Lemma Fx_P x : 0 < Fx c x.
  Proof. pose proof (Fx_pos c x HP). destruct HP. lra. Qed.

  Definition G0 := gx (Fx c).
  Lemma G0_value x : const_rh * G0 x = dchioverda c (exp x) * exp x.
  Proof.
    unfold G0, gx, dchioverda. pose proof (exp_pos x) as Pe. pose proof (Esqr_pos c (exp x) HP Pe) as PE.
    assert (Es : sqrt (Fx c x) = exp (x / 2) * exp x * sqrt (Esqr c (exp x))).
    { rewrite Fx_E. rewrite sqrt_mult by (left; apply exp_pos || assumption). f_equal.
      replace (exp (3 * x)) with ((exp (x / 2) * exp x) * (exp (x / 2) * exp x)) by (rewrite <- !exp_plus; f_equal; field).
      apply sqrt_square. left. apply Rmult_lt_0_compat; apply exp_pos. }
    rewrite Es. pose proof (exp_pos (x / 2)). pose proof (sqrt_lt_R0 _ PE). field. repeat split; lra.
  Qed.
  Lemma G0_pos x : 0 < G0 x.
  Proof. apply gx_pos, Fx_P. Qed.
  Lemma G0_le x : G0 x <= exp (x / 2) / sqrt (Omega_m c).
  Proof.
    unfold G0, gx, Rdiv. apply Rmult_le_compat_l; [ left; apply exp_pos | ]. pose proof (proj1 HP).
    apply Rinv_le_contravar; [ now apply sqrt_lt_R0 | apply sqrt_le_1_alt, Fx_pos, HP ].
  Qed.
  Lemma G0_le0 x : x <= 0 -> G0 x <= / sqrt (Omega_m c).
  Proof.
    intros Hx. eapply Rle_trans; [ apply G0_le | ]. pose proof (sqrt_lt_R0 _ (proj1 HP)).
    assert (exp (x / 2) <= 1). { rewrite <- exp_0. destruct (Req_dec x 0) as [-> | Hne]; [ right; f_equal; field | left; apply exp_increasing; lra ]. }
    unfold Rdiv. rewrite <- (Rmult_1_l (/ sqrt (Omega_m c))) at 2. apply Rmult_le_compat_r; [ left; now apply Rinv_0_lt_compat | lra ].
  Qed.
  Lemma G0_continuous x : continuous G0 x.
  Proof. apply (ex_derive_continuous G0). eexists. apply (gx_derive (Fx c) (Fx1 c) Fx_P (Fx_D0 c)). Qed.
  Definition GI x := RInt G0 0 x.
  Lemma GI_derive x : is_derive GI x (G0 x).
  Proof.
    apply (is_derive_RInt (V := R_NormedModule) G0 GI 0 x); [ | apply G0_continuous ].
    exists (mkposreal 1 Rlt_0_1). intros y _. apply (RInt_correct (V := R_CompleteNormedModule)).
    apply (ex_RInt_continuous (V := R_CompleteNormedModule)). intros; apply G0_continuous.
  Qed.
  Lemma GI_RInt a b : RInt G0 a b = GI b - GI a.
  Proof.
    unfold GI. assert (X : forall u v, ex_RInt G0 u v) by (intros; apply (ex_RInt_continuous (V := R_CompleteNormedModule)); intros; apply G0_continuous).
    pose proof (RInt_Chasles (V := R_CompleteNormedModule) G0 0 a b (X _ _) (X _ _)) as E. unfold plus in E; simpl in E. lra.
  Qed.
  (** exact distance *)
  Definition exact_X (a : R) : R := - const_rh * GI (ln a).
  Lemma GI_0 : GI 0 = 0.
  Proof. unfold GI. rewrite (RInt_point (V := R_CompleteNormedModule)). reflexivity. Qed.
  Lemma exact_X_1 : exact_X 1 = 0.
  Proof. unfold exact_X. rewrite ln_1, GI_0. ring. Qed.
  Lemma exact_X_derive a : 0 < a -> is_derive exact_X a (- dchioverda c a).
  Proof.
    intros Ha. unfold exact_X. evar_last.
    - apply (is_derive_scal (fun a => GI (ln a))). apply (is_derive_comp GI ln); [ apply GI_derive | apply is_derive_ln; assumption ].
    - unfold scal; simpl; unfold mult; simpl. replace (- const_rh * (/ a * G0 (ln a))) with (- (const_rh * G0 (ln a)) * / a) by ring.
      rewrite G0_value, exp_ln by assumption. field. lra.
  Qed.
  Lemma dchi_continuous a : 0 < a -> continuous (dchioverda c) a.
  Proof.
    intros Ha. pose proof (Esqr_pos c a HP Ha) as PE. apply (ex_derive_continuous (dchioverda c)). unfold dchioverda, Esqr, f_de in *.
    auto_derive. repeat split; try lra; try (apply Rmult_integral_contrapositive_currified; [ lra | ]; try (apply Rgt_not_eq, sqrt_lt_R0); lra).
    all: try exact PE; try (assert (0 < a * (a * 1)) by nra; lra).
    all: try (assert (0 < a * (a * (a * 1))) by (assert (0 < a * (a * 1)) by nra; nra); lra).
    apply Rmult_integral_contrapositive_currified; [ assert (0 < a * (a * 1)) by nra; lra | apply Rgt_not_eq, sqrt_lt_R0, PE ].
  Qed.
  Lemma exact_X_RInt a : 0 < a <= 1 -> RInt (dchioverda c) a 1 = exact_X a.
  Proof.
    intros Ha. assert (Hp : forall x, Rmin a 1 <= x <= Rmax a 1 -> 0 < x) by (intros x; rewrite Rmin_left by lra; lra).
    pose proof (is_RInt_derive (V := R_CompleteNormedModule) (fun a => - exact_X a) (dchioverda c) a 1) as D.
    assert (E : is_RInt (dchioverda c) a 1 (minus (- exact_X 1) (- exact_X a))).
    { apply D.
      - intros x Hx. evar_last; [ apply (is_derive_opp exact_X), exact_X_derive, Hp, Hx | unfold opp; simpl; ring ].
      - intros x Hx. apply dchi_continuous, Hp, Hx. }
    rewrite (is_RInt_unique (V := R_CompleteNormedModule) _ _ _ _ E), exact_X_1. unfold minus, plus, opp; simpl. ring.
  Qed.

  (** nodes *)
  Definition K4c := K4 b1 b2 b3 b4.
  Lemma K4c_pos : 0 <= K4c.
  Proof.
    unfold K4c, K4, b1, b2, b3, b4.
    assert (0 <= m * m) by nra. assert (0 <= m * n) by nra. assert (0 <= n * n) by nra. assert (0 <= m * (m * m)) by nra. assert (0 <= m * m * (m * m)) by nra.
    assert (0 <= m * m * n) by nra. assert (0 <= m * (m * m + n)) by nra. assert (0 <= m * m * (m * m + n)) by nra. assert (0 <= (m * m + n) * (m * m + n)) by nra.
    assert (0 <= m * (m * (m * m) + 3 * (m * n) + n)) by (apply Rmult_le_pos; lra). lra.
  Qed.
  Definition se := / sqrt (Omega_m c).
  Lemma se_pos : 0 < se.
  Proof. apply Rinv_0_lt_compat, sqrt_lt_R0, HP. Qed.
  Lemma chistep_error j : (j + 1 < 256)%nat ->
    Rabs (chistep c (-3) 256 j - (exact_X (anode (-3) 256 j) - exact_X (anode (-3) 256 (j + 1)))) <= const_rh * (se * K4c * dstep ^ 5 / 2880).
  Proof.
    intros Hj. unfold chistep, qstep, exact_X. set (s := ln (anode (-3) 256 j)). set (t := ln (anode (-3) 256 (j + 1))).
    assert (Hst : t - s = dstep). { unfold s, t. rewrite ln_anode_step. unfold dstep. change (256 - 1)%nat with 255%nat. rewrite (INR_IZR_INZ 255). change (IZR (Z.of_nat 255)) with 255. lra. }
    assert (Ht : t <= 0). { unfold t. rewrite <- ln_1. apply ln_le; [ apply anode_pos | ]. rewrite anode_table. apply table_node_range; lia. }
    pose proof dstep_range as Hd. rewrite <- !G0_value.
    pose proof (gx_four (Fx c) (Fx1 c) (Fx2 c) (Fx3 c) (Fx4 c) b1 b2 b3 b4 0 Fx_P (Fx_D0 c) (Fx_D1 c) (Fx_D2 c) (Fx_D3 c) Fx_B1 Fx_B2 Fx_B3 Fx_B4 2 s t se
      ltac:(lra) Ht ltac:(intros x Hx; apply G0_le0; lra) ltac:(exists 1%nat; reflexivity) ltac:(lia)) as E.
    fold G0 in E. fold K4c in E. rewrite GI_RInt, simpson2, Hst in E. simpl (INR 2) in E.
    replace ((t - s) / 6 * (const_rh * G0 s + 4 * (const_rh * G0 ((s + t) / 2)) + const_rh * G0 t) - (- const_rh * GI s - - const_rh * GI t))
      with (const_rh * (dstep / 6 * (G0 s + 4 * G0 ((s + t) / 2) + G0 t) - (GI t - GI s))) by (rewrite Hst; field).
    rewrite Rabs_mult, (Rabs_right const_rh) by (unfold const_rh; lra). apply Rmult_le_compat_l; [ unfold const_rh; lra | ].
    eapply Rle_trans; [ exact E | ]. apply Req_le. field.
  Qed.
  Lemma node_error i : (i < 256)%nat -> Rabs (el (snd (chi_table c (-3) 256)) i - exact_X (anode (-3) 256 i)) <= INR (255 - i) * (const_rh * (se * K4c * dstep ^ 5 / 2880)).
  Proof.
    intros Hi. rewrite chi_table_el by assumption. change (256 - 1)%nat with 255%nat.
    assert (Q : forall k j, (j + k = 255)%nat ->
      Rabs (Rsum 255 (chistep c (-3) 256) - Rsum j (chistep c (-3) 256) - exact_X (anode (-3) 256 j)) <= INR k * (const_rh * (se * K4c * dstep ^ 5 / 2880))).
    { induction k as [ | k IH]; intros j Hj.
      - replace j with 255%nat by lia. pose proof (anode_last (-3) 256 ltac:(lia)) as L. change (256 - 1)%nat with 255%nat in L. rewrite L, exact_X_1. simpl INR.
        replace (Rsum 255 (chistep c (-3) 256) - Rsum 255 (chistep c (-3) 256) - 0) with 0 by ring. rewrite Rabs_R0. lra.
      - specialize (IH (j + 1)%nat ltac:(lia)). pose proof (chistep_error j ltac:(lia)) as E. rewrite S_INR.
        replace (Rsum (j + 1) (chistep c (-3) 256)) with (Rsum j (chistep c (-3) 256) + chistep c (-3) 256 j) in IH by (rewrite Nat.add_1_r; reflexivity).
        apply Rabs_le_between in IH. apply Rabs_le_between in E. apply Rabs_le. lra. }
    apply Q. lia.
  Qed.
  Lemma node_error_total i : (i < 256)%nat -> Rabs (el (snd (chi_table c (-3) 256)) i - exact_X (anode (-3) 256 i)) <= const_rh * se * (K4c * 1.32e-9).
  Proof.
    intros Hi. eapply Rle_trans; [ now apply node_error | ].
    assert (INR (255 - i) <= 255). { replace 255 with (INR 255) by (rewrite INR_IZR_INZ; reflexivity). apply le_INR. lia. }
    pose proof (pos_INR (255 - i)). pose proof dstep_range. pose proof K4c_pos. pose proof se_pos. assert (0 < const_rh) by (unfold const_rh; lra).
    assert (D5 : dstep ^ 5 <= 0.02718 ^ 5) by (apply pow_incr; lra). assert (0 <= dstep ^ 5) by (apply pow_le; lra).
    set (u := dstep ^ 5) in *. assert (Hu : 255 * (u / 2880) <= 1.32e-9) by lra.
    assert (INR (255 - i) * (u / 2880) <= 1.32e-9) by nra.
    replace (INR (255 - i) * (const_rh * (se * K4c * u / 2880))) with (const_rh * se * (K4c * (INR (255 - i) * (u / 2880)))) by (unfold Rdiv; ring).
    apply Rmult_le_compat_l; [ nra | ]. apply Rmult_le_compat_l; lra.
  Qed.

  (** second derivative of the exact distance *)
  Definition X2 (a : R) : R := dchioverda c a / a * ((1 + Fx1 c (ln a) / Fx c (ln a)) / 2).
  Lemma exact_X_derive2 a : 0 < a -> is_derive (fun a => - dchioverda c a) a (X2 a).
  Proof.
    intros Ha. apply (is_derive_ext_loc (fun a => - const_rh * (G0 (ln a) / a))).
    - exists (mkposreal (a / 2) ltac:(lra)). intros y Hy. unfold ball in Hy; simpl in Hy; unfold AbsRing_ball, abs, minus, plus, opp in Hy; simpl in Hy.
      apply Rabs_lt_between in Hy. assert (0 < y) by lra. replace (- const_rh * (G0 (ln y) / y)) with (- (const_rh * G0 (ln y)) / y) by (unfold Rdiv; ring).
      rewrite G0_value, exp_ln by assumption. match goal with |- @eq _ ?u ?v => change (@eq R u v) end. field. lra.
    - pose proof (gx_derive (Fx c) (Fx1 c) Fx_P (Fx_D0 c) (ln a)) as Dg. fold G0 in Dg.
      evar_last.
      + apply (is_derive_scal (fun a => G0 (ln a) / a)). apply (is_derive_div (fun a => G0 (ln a)) (fun a => a)).
        * apply (is_derive_comp G0 ln); [ exact Dg | apply is_derive_ln; assumption ].
        * apply is_derive_id.
        * lra.
      + unfold scal; simpl; unfold mult, one; simpl. unfold X2. replace (dchioverda c a) with (const_rh * G0 (ln a) / a).
        2: { rewrite G0_value, exp_ln by assumption. field. lra. }
        pose proof (Fx_P (ln a)). field. lra.
  Qed.
  Lemma sqrt_exp_half a : 0 < a -> exp (ln a / 2) = sqrt a.
  Proof.
    intros Ha. symmetry. apply sqrt_lem_1; [ lra | left; apply exp_pos | ]. rewrite <- exp_plus. replace (ln a / 2 + ln a / 2) with (ln a) by field. now apply exp_ln.
  Qed.
  Lemma X2_bound a0 a : 0 < a0 <= a -> a <= 1 -> Rabs (X2 a) <= const_rh * se * ((1 + m) / 2) / a0 ^ 2 .
  Proof.
    intros Ha Ha1. unfold X2. replace (dchioverda c a) with (const_rh * G0 (ln a) / a).
    2: { rewrite G0_value, exp_ln by lra. field. lra. }
    assert (L : ln a <= 0) by (rewrite <- ln_1; apply ln_le; lra).
    pose proof (ratio_bound _ _ _ (Fx_P (ln a)) (Fx_B1 (ln a) L)) as Rb. unfold b1 in Rb.
    assert (A1 : Rabs ((1 + Fx1 c (ln a) / Fx c (ln a)) / 2) <= (1 + m) / 2) by (apply Rabs_le_between in Rb; apply Rabs_le; lra).
    pose proof (G0_le0 (ln a) L) as Gl. fold se in Gl. pose proof (G0_pos (ln a)) as Gp. assert (Pr : 0 < const_rh) by (unfold const_rh; lra).
    rewrite Rabs_mult. rewrite (Rabs_right (const_rh * G0 (ln a) / a / a)).
    2: { left. repeat apply Rdiv_lt_0_compat; try lra. apply Rmult_lt_0_compat; lra. }
    replace (const_rh * se * ((1 + m) / 2) / a0 ^ 2) with (const_rh * se * / a0 ^ 2 * ((1 + m) / 2)) by (field; lra).
    replace (const_rh * G0 (ln a) / a / a) with (const_rh * G0 (ln a) * / a ^ 2) by (field; lra).
    assert (0 < a ^ 2) by (apply pow_lt; lra). assert (0 < a0 ^ 2) by (apply pow_lt; lra).
    assert (/ a ^ 2 <= / a0 ^ 2) by (apply Rinv_le_contravar; [ assumption | apply pow_incr; lra ]). assert (0 < / a ^ 2) by (now apply Rinv_0_lt_compat).
    apply Rmult_le_compat; [ | apply Rabs_pos | | exact A1 ].
    - apply Rmult_le_pos; [ nra | lra ].
    - apply Rmult_le_compat; [ nra | lra | apply Rmult_le_compat_l; lra | assumption ].
  Qed.

  Lemma anode_step i : anode (-3) 256 (i + 1) = anode (-3) 256 i * exp dstep.
  Proof.
    pose proof (ln_anode_step (-3) 256 i) as E. pose proof (anode_pos (-3) 256 i). pose proof (anode_pos (-3) 256 (i + 1)).
    replace dstep with (ln (anode (-3) 256 (i + 1)) - ln (anode (-3) 256 i)).
    - unfold Rminus. rewrite exp_plus, exp_Ropp, !exp_ln by assumption. field. lra.
    - rewrite E. unfold dstep. change (256 - 1)%nat with 255%nat. rewrite (INR_IZR_INZ 255). change (IZR (Z.of_nat 255)) with 255. lra.
  Qed.
  Lemma find_cell a k : anode (-3) 256 1 <= a -> a <= anode (-3) 256 (S k) -> exists i, (1 <= i)%nat /\ (i <= k \/ k = 0 /\ i = 1)%nat /\ anode (-3) 256 i <= a <= anode (-3) 256 (i + 1).
  Proof.
    induction k as [ | k IH]; intros H1 H2.
    - exists 1%nat. split; [ lia | split; [ lia | ] ]. pose proof (anode_lt (-3) 256 1 2 ltac:(lra) ltac:(lia) ltac:(lia)). change (1 + 1)%nat with 2%nat. lra.
    - destruct (Rle_dec a (anode (-3) 256 (S k))) as [L | L].
      + destruct (IH H1 L) as (i & I1 & I2 & I3). exists i. split; [ assumption | split; [ lia | assumption ] ].
      + exists (S k). split; [ lia | split; [ lia | ] ]. replace (S k + 1)%nat with (S (S k)) by lia. lra.
  Qed.

  Lemma distance_error a : anode (-3) 256 1 <= a <= 1 ->
    Rabs (chi_of c (-3) 256 a - exact_X a) <= const_rh * se * (K4c * 1.32e-9 + (1 + m) * 4.89e-5).
  Proof.
    intros Ha. destruct (find_cell a 254 (proj1 Ha)) as (i & I1 & I2 & I3).
    { pose proof (anode_last (-3) 256 ltac:(lia)) as L. change (256 - 1)%nat with 255%nat in L. lra. }
    assert (Hi : (i + 1 < 256)%nat) by lia. clear I2.
    pose proof (physical_expanding c HP) as HE. destruct (chi_table_length c (-3) 256) as [L1 L2].
    assert (HI : incr (logspace (-3) 0.0 256)) by (apply logspace_incr; [ lra | lia ]).
    pose proof (anode_pos (-3) 256 i) as P0. pose proof (anode_lt (-3) 256 i (i + 1) ltac:(lra) ltac:(lia) ltac:(lia)) as LT.
    assert (A1 : anode (-3) 256 (i + 1) <= 1) by (rewrite anode_table; apply table_node_range; lia).
    assert (Xp : 0 <= exact_X a).
    { rewrite <- exact_X_RInt by lra. apply RInt_ge_0; [ lra | | intros x Hx; left; apply dchioverda_pos; [ assumption | lra ] ].
      apply (ex_RInt_continuous (V := R_CompleteNormedModule)). intros x. rewrite Rmin_left, Rmax_right by lra. intros Hx. apply dchi_continuous. lra. }
    unfold chi_of, clip_lo.
    assert (EI : interp1 a (fst (chi_table c (-3) 256)) (snd (chi_table c (-3) 256)) =
      line (anode (-3) 256 i) (el (snd (chi_table c (-3) 256)) i) (anode (-3) 256 (i + 1)) (el (snd (chi_table c (-3) 256)) (i + 1)) a).
    { rewrite chi_table_fst. rewrite (interp1_incr a _ _ i); rewrite ?length_logspace; auto; try lia.
      - unfold cell. rewrite !logspace_el by lia. reflexivity.
      - rewrite !logspace_el by lia. assumption. }
    rewrite EI.
    pose proof (node_error_total i ltac:(lia)) as N0. pose proof (node_error_total (i + 1) Hi) as N1.
    set (NE := const_rh * se * (K4c * 1.32e-9)) in *.
    set (x0 := anode (-3) 256 i) in *. set (x1 := anode (-3) 256 (i + 1)) in *. set (y0 := el (snd (chi_table c (-3) 256)) i) in *. set (y1 := el (snd (chi_table c (-3) 256)) (i + 1)) in *.
    assert (E1 : Rabs (line x0 y0 x1 y1 a - line x0 (exact_X x0) x1 (exact_X x1) a) <= NE).
    { unfold line. set (u := (a - x0) / (x1 - x0)).
      assert (Hu : 0 <= u <= 1).
      { unfold u. split; [ apply Rmult_le_pos; [ lra | left; apply Rinv_0_lt_compat; lra ] | ]. apply Rmult_le_reg_r with (x1 - x0); [ lra | ]. unfold Rdiv. rewrite Rmult_assoc, Rinv_l by lra. lra. }
      replace (y0 + (y1 - y0) / (x1 - x0) * (a - x0) - (exact_X x0 + (exact_X x1 - exact_X x0) / (x1 - x0) * (a - x0)))
        with ((1 - u) * (y0 - exact_X x0) + u * (y1 - exact_X x1)) by (unfold u; field; lra).
      apply Rabs_le_between in N0. apply Rabs_le_between in N1. apply Rabs_le. nra. }
    pose proof (line_error exact_X (fun a => - dchioverda c a) X2 (const_rh * se * ((1 + m) / 2) / x0 ^ 2) x0 x1 a LT
      (fun t Ht => exact_X_derive t ltac:(lra)) (fun t Ht => exact_X_derive2 t ltac:(lra)) (fun t Ht => X2_bound x0 t ltac:(lra) ltac:(lra)) I3) as E2.
    assert (E3 : const_rh * se * ((1 + m) / 2) / x0 ^ 2 * (x1 - x0) ^ 2 / 8 <= const_rh * se * ((1 + m) * 4.89e-5)).
    { unfold x1. rewrite anode_step. fold x0. replace (const_rh * se * ((1 + m) / 2) / x0 ^ 2 * (x0 * exp dstep - x0) ^ 2 / 8) with (const_rh * se * ((1 + m) * ((exp dstep - 1) ^ 2 / 16))) by (field; lra).
      pose proof dstep_exp. pose proof dstep_range. assert (1 < exp dstep) by (rewrite <- exp_0; apply exp_increasing; lra).
      assert ((exp dstep - 1) ^ 2 <= 0.02794 ^ 2) by (apply pow_incr; lra). pose proof se_pos. assert (0 < const_rh) by (unfold const_rh; lra).
      apply Rmult_le_compat_l; [ nra | ]. apply Rmult_le_compat_l; lra. }
    replace (const_rh * se * (K4c * 1.32e-9 + (1 + m) * 4.89e-5)) with (NE + const_rh * se * ((1 + m) * 4.89e-5)) by (unfold NE; ring).
    replace (0.0) with 0 by lra.
    apply Rabs_le_between in E1. apply Rabs_le_between in E2.
    set (L := line x0 y0 x1 y1 a) in *. destruct (Rle_dec 0 L) as [HL | HL]; [ rewrite Rmax_left by lra | rewrite Rmax_right by lra ]; apply Rabs_le; lra.
  Qed.
End Bounds.

(** ** Public statements *)
Lemma accuracy_general c a m n e : reachable c -> physical c -> 1 <= m -> 0 <= n -> (forall x, x <= 0 -> Rabs (mu c x) <= m) -> (forall x, x <= 0 -> Rabs (nu c x) <= n) ->
  const_rh * (K4c m n * 1.32e-9 + (1 + m) * 4.89e-5) <= e -> table_node 256 1 <= a <= 1 ->
  Rabs (chi c a - RInt (fun x => 299792.458 / (x ^ 2 * H c x)) a 1) <= e / sqrt (Omega_m c).
Proof.
  intros Hr HP H1 H0 Hm Hn He Ha. destruct (inv_reach c Hr) as (c0 & HI & EE & ED & _ & _ & SP).
  rewrite <- anode_table in Ha. pose proof (anode_pos (-3) 256 1) as P1. pose proof (physical_expanding c HP) as HX.
  assert (EI : RInt (fun x => 299792.458 / (x ^ 2 * H c x)) a 1 = RInt (dchioverda c) a 1).
  { apply (RInt_ext (V := R_CompleteNormedModule)). intros x. rewrite Rmin_left, Rmax_right by lra. intros Hx. symmetry. apply hubble_rate; [ assumption | lra ]. }
  rewrite EI. rewrite (exact_X_RInt c HP a ltac:(lra)).
  assert (EC : chi c a = chi_of c (-3) 256 a).
  { rewrite (chi_value c0 c a HI). unfold chi_of. destruct HI as (u & v & -> & _). rewrite chi_table_ws. reflexivity. }
  rewrite EC. eapply Rle_trans; [ apply (distance_error c m n HP Hm Hn H1 H0 a Ha) | ].
  change (e / sqrt (Omega_m c)) with (e * se c). pose proof (se_pos c HP).
  replace (const_rh * se c * (K4c m n * 1.32e-9 + (1 + m) * 4.89e-5)) with (const_rh * (K4c m n * 1.32e-9 + (1 + m) * 4.89e-5) * se c) by ring.
  apply Rmult_le_compat_r; lra.
Qed.
Lemma distance_accuracy c a : reachable c -> physical c -> moderate c -> table_node 256 1 <= a <= 1 ->
  Rabs (chi c a - RInt (fun x => 299792.458 / (x ^ 2 * H c x)) a 1) <= 1.5 / sqrt (Omega_m c).
Proof.
  intros Hr HP HM Ha. apply (accuracy_general c a 7 10); auto; try lra.
  - intros x Hx. assert (Ex : 0 < exp x <= 1). { split; [ apply exp_pos | ]. rewrite <- exp_0. destruct Hx as [Hx | ->]; [ left; now apply exp_increasing | lra ]. }
    destruct (moderate_w c (exp x) HM ltac:(lra)) as [W1 W2]. unfold w in W1, W2. unfold mu. apply Rabs_le. lra.
  - intros x Hx. assert (Ex : 0 < exp x <= 1). { split; [ apply exp_pos | ]. rewrite <- exp_0. destruct Hx as [Hx | ->]; [ left; now apply exp_increasing | lra ]. }
    destruct HM as [M1 M2]. unfold nu. apply Rabs_le. nra.
  - unfold K4c, K4, b1, b2, b3, b4, const_rh. lra.
Qed.
Lemma distance_accuracy_lambda c a : reachable c -> physical c -> _w0 c = -1 -> _wa c = 0 -> table_node 256 1 <= a <= 1 ->
  Rabs (chi c a - RInt (fun x => 299792.458 / (x ^ 2 * H c x)) a 1) <= 0.6 / sqrt (Omega_m c).
Proof.
  intros Hr HP W0 Wa Ha. apply (accuracy_general c a 3 0); auto; try lra.
  - intros x Hx. unfold mu. rewrite W0, Wa. apply Rabs_le. lra.
  - intros x Hx. unfold nu. rewrite Wa. apply Rabs_le. lra.
  - unfold K4c, K4, b1, b2, b3, b4, const_rh. lra.
Qed.
(** at the nodes themselves only the quadrature error is left *)
Lemma distance_accuracy_node c i : reachable c -> physical c -> _w0 c = -1 -> _wa c = 0 -> (1 <= i < 256)%nat ->
  Rabs (chi c (table_node 256 i) - RInt (fun x => 299792.458 / (x ^ 2 * H c x)) (table_node 256 i) 1) <= 0.01 / sqrt (Omega_m c).
Proof.
  intros Hr HP W0 Wa Hi. destruct (inv_reach c Hr) as (c0 & HI & EE & ED & _ & _ & SP). pose proof (physical_expanding c HP) as HX.
  pose proof (table_node_range 256 i ltac:(lia) ltac:(lia)) as Ha.
  assert (EI : RInt (fun x => 299792.458 / (x ^ 2 * H c x)) (table_node 256 i) 1 = RInt (dchioverda c) (table_node 256 i) 1).
  { apply (RInt_ext (V := R_CompleteNormedModule)). intros x. rewrite Rmin_left, Rmax_right by lra. intros Hx. symmetry. apply hubble_rate; [ assumption | lra ]. }
  rewrite EI. rewrite (exact_X_RInt c HP (table_node 256 i) ltac:(lra)).
  assert (EC : chi c (table_node 256 i) = el (snd (chi_table c (-3) 256)) i).
  { rewrite (chi_value c0 c _ HI). rewrite <- (chi_of_node c (-3) 256 i HX ltac:(lra) ltac:(lia) Hi). unfold chi_of. destruct HI as (u & v & -> & _). rewrite chi_table_ws, anode_table. reflexivity. }
  rewrite EC, <- anode_table.
  assert (Hm : forall x, x <= 0 -> Rabs (mu c x) <= 3) by (intros x Hx; unfold mu; rewrite W0, Wa; apply Rabs_le; lra).
  assert (Hn : forall x, x <= 0 -> Rabs (nu c x) <= 0) by (intros x Hx; unfold nu; rewrite Wa; apply Rabs_le; lra).
  eapply Rle_trans; [ apply (node_error_total c 3 0 HP Hm Hn ltac:(lra) ltac:(lra) i ltac:(lia)) | ].
  change (0.01 / sqrt (Omega_m c)) with (0.01 * se c). pose proof (se_pos c HP).
  replace (const_rh * se c * (K4c 3 0 * 1.32e-9)) with (const_rh * (K4c 3 0 * 1.32e-9) * se c) by ring.
  apply Rmult_le_compat_r; [ lra | ]. unfold K4c, K4, b1, b2, b3, b4, const_rh. lra.
Qed.
Lemma planck_accuracy_case : reachable Planck15 /\ physical Planck15 /\ moderate Planck15 /\ _w0 Planck15 = -1 /\ _wa Planck15 = 0 /\ table_node 256 1 <= 1 / 2 <= 1.
Proof.
  destruct planck_ok as (P1 & P2 & P3 & _). repeat split; try apply P1; try apply P2; try apply P3; try (unfold Planck15, make_cosmology; simpl; lra).
  replace (1 / 2) with (pow10 (ln (1 / 2) / ln 10)).
  - unfold table_node, pow10. left. apply exp_increasing. pose proof ln10_tight.
    assert (T : 2 < ln 10). { pose proof (exp_ge2 0 ltac:(lra)). rewrite <- (ln_exp 2). apply ln_increasing; [ apply exp_pos | ]. replace 2 with (1 + 1) by ring. rewrite exp_plus. pose proof exp_le_3. pose proof (exp_pos 1). nra. }
    assert (L : - 1 <= ln (1 / 2)). { rewrite <- (ln_exp (-1)). destruct (Rle_dec (exp (-1)) (1 / 2)) as [Q | Q].
      - destruct Q as [Q | Q]; [ left; apply ln_increasing; [ apply exp_pos | exact Q ] | rewrite Q; lra ].
      - exfalso. apply Q. replace (-1) with (- (1)) by lra. rewrite exp_Ropp. replace (1 / 2) with (/ 2) by lra. apply Rinv_le_contravar; [ lra | ]. pose proof (exp_ineq1_le 1). lra. }
    replace (ln (1 / 2) / ln 10 * ln 10) with (ln (1 / 2)) by (field; lra).
    replace (INR (256 - 1)) with 255 by (simpl; lra). change (INR 1) with 1. nra.
  - unfold pow10. replace (ln (1 / 2) / ln 10 * ln 10) with (ln (1 / 2)). { apply exp_ln. lra. }
    field. apply Rgt_not_eq. rewrite <- ln_1. apply ln_increasing; lra.
Qed.
