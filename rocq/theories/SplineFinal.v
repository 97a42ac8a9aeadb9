(** * Spline properties in terms of the constructor and the methods *)
From Coquelicot Require Import Coquelicot.
From Verif Require Import Np NpLemmas Interp OdeSpec InterpProofs Sparse SparseSpec IntegrateSpec Spline SplineSpec SplineLists SplineGlue SplineEval SplineSystem SplineQuad SplineLinear SplineSolve SplineProofs SplineUnique.

Lemma init_size solve x y k e s : spline_init solve (Array1 x) (Array1 y) (Z.of_nat k) e None = Ok s -> degree k /\ length y = length x /\ (k < length x)%nat.
Proof.
  intros E. unfold spline_init in E. simpl atleast_1d in E.
  destruct (Z.eqb_spec (Z.of_nat k) 1) as [e1 | n1]; [ | destruct (Z.eqb_spec (Z.of_nat k) 2) as [e2 | n2]; [ | destruct (Z.eqb_spec (Z.of_nat k) 3) as [e3 | n3]; [ | discriminate ]]];
    simpl in E; destruct (Nat.eqb_spec (length x) (length y)) as [El | Nl]; try discriminate; simpl in E.
  - split; [ left; lia | split; [ easy | ]]. destruct (Nat.ltb_spec 1 (length x)); [ lia | discriminate ].
  - split; [ right; left; lia | split; [ easy | ]]. destruct (Nat.ltb_spec 2 (length x)); [ lia | discriminate ].
  - split; [ right; right; lia | split; [ easy | ]]. destruct (Nat.ltb_spec 3 (length x)); [ lia | discriminate ].
Qed.
Lemma built_of solve x y k e s : solve_ok solve -> incr x -> spline_init solve (Array1 x) (Array1 y) (Z.of_nat k) e None = Ok s ->
  exists co e', s = Spline (kz k) x y co e' /\ built k (negb (String.eqb e "not-a-knot")) x y co /\ (k = 2%nat -> e = "not-a-knot"%string).
Proof. intros HS Hx E. destruct (init_size _ _ _ _ _ _ E) as (Hk & Hy & HN). apply (init_built solve); [ exact HS | exact Hk | split; [ exact Hy | split; [ exact HN | exact Hx ]] | exact E ]. Qed.
Lemma call_G k nat x y co e q : built k nat x y co -> spline_call (Spline (kz k) x y co e) q = G k x y co 0 q.
Proof. intros (Hs & Hx & _). now apply call_eq. Qed.
Lemma deriv_G k nat x y co e q n : built k nat x y co -> (n <= k)%nat -> spline_derivative (Spline (kz k) x y co e) q (Z.of_nat n) = Ok (G k x y co n q).
Proof. intros (Hs & Hx & _) Hn. now apply derivative_eq. Qed.
Lemma anti_G k nat x y co e q : built k nat x y co -> spline_antiderivative (Spline (kz k) x y co e) q = GI k x y co q.
Proof. intros (Hs & Hx & _). now apply anti_eq. Qed.

(** C57 *)
Lemma spline_through_data solve x y k e s : solve_ok solve -> incr x -> spline_init solve (Array1 x) (Array1 y) (Z.of_nat k) e None = Ok s ->
  forall i, (i < length x)%nat -> spline_call s (el x i) = el y i.
Proof.
  intros HS Hx E i Hi. destruct (built_of _ _ _ _ _ _ HS Hx E) as (co & e' & -> & HB & _). rewrite (call_G _ _ _ _ _ _ _ HB). now apply (G_interpolates _ _ _ _ _ HB).
Qed.
(** C58 *)
Lemma is_derive_n_fext (f g : R -> R) n q l : (forall r, f r = g r) -> is_derive_n f n q l -> is_derive_n g n q l.
Proof. intros H. apply is_derive_n_ext. exact H. Qed.
Lemma smooth_ext n f g : (forall q, f q = g q) -> smooth n f -> smooth n g.
Proof.
  intros E H m Hm q. destruct (H m Hm q) as [A B]. split.
  - now apply (ex_derive_n_ext f).
  - apply (continuous_ext (Derive_n f m)); [ | exact B ]. intros r. apply Derive_n_ext, E.
Qed.
Lemma spline_smooth solve x y k e s : solve_ok solve -> incr x -> spline_init solve (Array1 x) (Array1 y) (Z.of_nat k) e None = Ok s ->
  smooth (k - 1) (spline_call s) /\ piecewise k x (spline_call s).
Proof.
  intros HS Hx E. destruct (built_of _ _ _ _ _ _ HS Hx E) as (co & e' & -> & HB & _). split.
  - apply (smooth_ext _ (G k x y co 0)); [ intros; symmetry; now apply (call_G k _ x y co e' q HB) | now apply (G_smooth _ _ _ _ _ HB) ].
  - destruct (G_piecewise _ _ _ _ _ HB) as (a & b & c & d & H1 & H2 & H3). exists a, b, c, d. split; [ exact H1 | split; [ exact H2 | ]]. intros i q Hp. rewrite (call_G k _ x y co e' q HB). now apply H3.
Qed.
(** C63 *)
Lemma spline_derivative_correct solve x y k e s n q : solve_ok solve -> incr x -> spline_init solve (Array1 x) (Array1 y) (Z.of_nat k) e None = Ok s ->
  (n < k)%nat \/ (n = k /\ ~ breakpoint k x q) ->
  exists v, spline_derivative s q (Z.of_nat n) = Ok v /\ is_derive_n (spline_call s) n q v.
Proof.
  intros HS Hx E Hn. destruct (built_of _ _ _ _ _ _ HS Hx E) as (co & e' & -> & HB & _). exists (G k x y co n q). split.
  - apply (deriv_G _ _ _ _ _ _ _ _ HB). destruct Hn as [Hn | [Hn _]]; lia.
  - apply (is_derive_n_fext (G k x y co 0)); [ intros; symmetry; apply (call_G _ _ _ _ _ _ _ HB) | ]. destruct Hn as [Hn | [-> NB]]; [ now apply (G_derive_n _ _ _ _ _ HB) | now apply (G_derive_n_off _ _ _ _ _ HB) ].
Qed.
Lemma spline_derivative_order solve x y k e s q n : solve_ok solve -> incr x -> spline_init solve (Array1 x) (Array1 y) (Z.of_nat k) e None = Ok s ->
  ((exists v, spline_derivative s q n = Ok v) <-> (0 <= n <= Z.of_nat k)%Z) /\ (spline_derivative s q n = Err AssertionError <-> (n < 0 \/ Z.of_nat k < n)%Z).
Proof.
  intros HS Hx E. destruct (built_of _ _ _ _ _ _ HS Hx E) as (co & e' & -> & HB & _).
  assert (Bad : (n < 0 \/ Z.of_nat k < n)%Z -> spline_derivative (Spline (kz k) x y co e') q n = Err AssertionError) by (intros; now apply derivative_bad).
  assert (Good : (0 <= n <= Z.of_nat k)%Z -> exists v, spline_derivative (Spline (kz k) x y co e') q n = Ok v).
  { intros Hn. replace n with (Z.of_nat (Z.to_nat n)) by lia. eexists. apply (deriv_G _ _ _ _ _ _ _ _ HB). lia. }
  split; split.
  - intros [v Hv]. destruct (Z_lt_dec n 0); [ rewrite Bad in Hv by lia; discriminate | ]. destruct (Z_lt_dec (Z.of_nat k) n); [ rewrite Bad in Hv by lia; discriminate | lia ].
  - exact Good.
  - intros Hv. destruct (Z_lt_dec n 0); [ now left | ]. destruct (Z_lt_dec (Z.of_nat k) n); [ now right | ]. destruct Good as [v Hv']; [ lia | congruence ].
  - exact Bad.
Qed.
(** C64 *)
Lemma spline_antiderivative_correct solve x y k e s : solve_ok solve -> incr x -> spline_init solve (Array1 x) (Array1 y) (Z.of_nat k) e None = Ok s ->
  (forall q, is_derive (spline_antiderivative s) q (spline_call s q)) /\ spline_antiderivative s (knot k x 0) = 0.
Proof.
  intros HS Hx E. destruct (built_of _ _ _ _ _ _ HS Hx E) as (co & e' & -> & HB & _). split.
  - intros q. rewrite (call_G _ _ _ _ _ _ _ HB). apply (is_derive_ext (GI k x y co)); [ intros r; symmetry; apply (anti_G _ _ _ _ _ _ _ HB) | now apply (GI_derive _ _ _ _ _ HB) ].
  - rewrite (anti_G _ _ _ _ _ _ _ HB). now apply (GI_first _ _ _ _ _ HB).
Qed.
Lemma spline_call_continuous solve x y k e s : solve_ok solve -> incr x -> spline_init solve (Array1 x) (Array1 y) (Z.of_nat k) e None = Ok s -> forall q : R, continuous (spline_call s) q.
Proof. intros HS Hx E q. destruct (spline_smooth _ _ _ _ _ _ HS Hx E) as [H _]. apply (H 0%nat); lia. Qed.
Lemma spline_integral_correct solve x y k e s a b : solve_ok solve -> incr x -> spline_init solve (Array1 x) (Array1 y) (Z.of_nat k) e None = Ok s ->
  spline_integral s a b = [RInt (spline_call s) a b] /\ is_RInt (spline_call s) a b (RInt (spline_call s) a b) /\
  exists v, spline_integral s a b = [v] /\ spline_integral s b a = [- v].
Proof.
  intros HS Hx E. destruct (spline_antiderivative_correct _ _ _ _ _ _ HS Hx E) as [HD _]. pose proof (spline_call_continuous _ _ _ _ _ _ HS Hx E) as HC.
  assert (HI : forall u v : R, is_RInt (spline_call s) u v (spline_antiderivative s v - spline_antiderivative s u)).
  { intros u v. apply (is_RInt_derive (V := R_CompleteNormedModule) (spline_antiderivative s)); intros; [ apply HD | apply HC ]. }
  assert (EI : forall u v, spline_integral s u v = [spline_antiderivative s v - spline_antiderivative s u]).
  { intros u v. unfold spline_integral. destruct (Rlt_dec v u); unfold diff, vscale; simpl; f_equal; ring. }
  split; [ | split ].
  - rewrite EI, (is_RInt_unique _ _ _ _ (HI a b)). reflexivity.
  - rewrite (is_RInt_unique _ _ _ _ (HI a b)). apply HI.
  - eexists. split; [ apply EI | ]. rewrite EI. f_equal. ring.
Qed.
(** C59 *)
Lemma Derive_nak k x f g : (forall q, f q = g q) -> not_a_knot k x f -> not_a_knot k x g.
Proof. intros E [A B]. split; intros; rewrite <- !(Derive_n_ext f g k _ E); [ now apply A | now apply B ]. Qed.
Lemma spline_not_a_knot solve x y k s : solve_ok solve -> incr x -> (2 <= k)%nat -> spline_init solve (Array1 x) (Array1 y) (Z.of_nat k) "not-a-knot" None = Ok s ->
  not_a_knot k x (spline_call s) /\
  (forall q q', q < knot k x 2 -> q' < knot k x 2 -> spline_derivative s q (Z.of_nat k) = spline_derivative s q' (Z.of_nat k)) /\
  (forall q q', knot k x (n_pieces k x - 2) < q -> knot k x (n_pieces k x - 2) < q' -> spline_derivative s q (Z.of_nat k) = spline_derivative s q' (Z.of_nat k)).
Proof.
  intros HS Hx K E. destruct (init_size _ _ _ _ _ _ E) as (Hk & _). assert (K2 : (k = 2 \/ k = 3)%nat) by (destruct Hk as [e | [e | e]]; lia).
  destruct (built_of _ _ _ _ _ _ HS Hx E) as (co & e' & -> & HB & _). simpl negb in HB. split; [ | split ].
  - apply (Derive_nak k x (G k x y co 0)); [ intros; symmetry; now apply (call_G k _ x y co e' q HB) | now apply (G_not_a_knot _ _ _ _ _ HB) ].
  - intros q q' L L'. rewrite !(deriv_G _ _ _ _ _ _ _ _ HB) by lia. f_equal. now apply (top_low _ _ _ _ _ HB).
  - intros q q' L L'. rewrite !(deriv_G _ _ _ _ _ _ _ _ HB) by lia. f_equal. now apply (top_high _ _ _ _ _ HB).
Qed.
(** C61 *)
Lemma cubic_system_unique natural x y : (3 < length x)%nat -> length y = length x -> incr x ->
  exists! z, wf1 (length x) z /\ is_matvec (length x) (length x) (cubic_matrix natural x) z (cubic_rhs x y).
Proof.
  intros HN Hy Hx. destruct (cubic_matrix_rows x HN natural) as [W _]. destruct (cubic_rhs_rows x y HN Hy) as [L _].
  destruct (solve_mx_ok _ _ _ W (cubic_invertible natural x HN Hx) L) as [L' Mv]. eexists. split; [ split; [ exact L' | exact Mv ] | ].
  intros z [Lz Hz]. apply (wf1_el_ext (length x)); [ exact L' | exact Lz | ]. apply (cubic_unique x y natural); [ exact HN | exact Hx | now apply cubic_matvec | now apply cubic_matvec ].
Qed.
Lemma quad_system_unique x y : (2 < length x)%nat -> length y = length x -> incr x ->
  exists! z, wf1 (S (length x)) z /\ is_matvec (S (length x)) (S (length x)) (quad_matrix x) z (quad_rhs y).
Proof.
  intros HN Hy Hx. destruct (quad_matrix_rows x HN) as [W _]. destruct (quad_rhs_rows x y HN Hy) as [L _].
  destruct (solve_mx_ok _ _ _ W (quad_invertible x HN Hx) L) as [L' Mv]. eexists. split; [ split; [ exact L' | exact Mv ] | ].
  intros z [Lz Hz]. apply (wf1_el_ext (S (length x))); [ exact L' | exact Lz | ]. intros i Hi. apply (quad_unique x y); [ exact HN | exact Hx | now apply quad_matvec | now apply quad_matvec | lia ].
Qed.
Lemma spline_solver_independent solve solve' x y k e : solve_ok solve -> solve_ok solve' -> incr x ->
  spline_init solve (Array1 x) (Array1 y) (Z.of_nat k) e None = spline_init solve' (Array1 x) (Array1 y) (Z.of_nat k) e None.
Proof.
  intros HS HS' Hx. unfold spline_init. destruct (negb _); [ reflexivity | ]. destruct (Nat.eqb_spec (length (atleast_1d (Array1 x))) (length (atleast_1d (Array1 y)))) as [El | Nl]; simpl negb; cbv iota; [ | reflexivity ]. simpl atleast_1d in *.
  destruct (Z.eqb (Z.of_nat k) 1); [ reflexivity | ]. destruct (Z.eqb (Z.of_nat k) 2).
  - destruct (Nat.ltb_spec 2 (length x)) as [HN | HN]; [ | reflexivity ]. simpl negb; cbv iota. destruct (negb _); [ reflexivity | ]. f_equal. f_equal.
    rewrite length_quad_knots by lia. destruct (quad_matrix_rows x HN) as [W _]. destruct (quad_rhs_rows x y HN (eq_sym El)) as [L _].
    destruct (HS _ _ _ W (quad_invertible x HN Hx) L) as [L1 M1]. destruct (HS' _ _ _ W (quad_invertible x HN Hx) L) as [L2 M2].
    destruct (quad_system_unique x y HN (eq_sym El) Hx) as (z & _ & U). rewrite <- (U _ (conj L1 M1)), <- (U _ (conj L2 M2)). reflexivity.
  - destruct (Nat.ltb_spec 3 (length x)) as [HN | HN]; [ | reflexivity ]. simpl negb; cbv iota zeta. set (e' := if (String.eqb e "natural" || String.eqb e "not-a-knot")%bool then e else "natural"%string). f_equal. f_equal.
    destruct (cubic_matrix_rows x HN (String.eqb e' "natural")) as [W _]. destruct (cubic_rhs_rows x y HN (eq_sym El)) as [L _].
    destruct (HS _ _ _ W (cubic_invertible (String.eqb e' "natural") x HN Hx) L) as [L1 M1]. destruct (HS' _ _ _ W (cubic_invertible (String.eqb e' "natural") x HN Hx) L) as [L2 M2].
    destruct (cubic_system_unique (String.eqb e' "natural") x y HN (eq_sym El) Hx) as (z & _ & U). rewrite <- (U _ (conj L1 M1)), <- (U _ (conj L2 M2)). reflexivity.
Qed.
(** the code computes the interpolating spline *)
Lemma spline_is_the_spline solve x y k s : solve_ok solve -> incr x -> spline_init solve (Array1 x) (Array1 y) (Z.of_nat k) "not-a-knot" None = Ok s ->
  is_spline k x y (spline_call s) /\ (k = 1%nat \/ not_a_knot k x (spline_call s)) /\
  forall f, is_spline k x y f -> (k = 1%nat \/ not_a_knot k x f) -> forall q, f q = spline_call s q.
Proof.
  intros HS Hx E. destruct (init_size _ _ _ _ _ _ E) as (Hk & _). destruct (spline_smooth _ _ _ _ _ _ HS Hx E) as [Sm Pw]. split; [ | split ].
  - split; [ exact Pw | split; [ exact Sm | ]]. intros i Hi. now apply (spline_through_data solve x y k "not-a-knot").
  - destruct Hk as [-> | Hk]; [ now left | right ]. apply (spline_not_a_knot solve x y k s HS Hx); [ lia | exact E ].
  - intros f ((a & b & c & d & Hd & Hc & Hf) & Hsm & Hip) BC q. destruct (built_of _ _ _ _ _ _ HS Hx E) as (co & e' & -> & HB & _). rewrite (call_G _ _ _ _ _ _ _ HB).
    apply (f_unique k _ x y co HB f a b c d Hd Hc Hf Hsm Hip q); [ reflexivity | exact BC ].
Qed.
(** C62 *)
Lemma poly_cubic (c : nat -> R) k q : degree k -> poly c k q = cubic (c 0%nat) (c 1%nat) (if Nat.ltb 1 k then c 2%nat else 0) (if Nat.ltb 2 k then c 3%nat else 0) (q - 0).
Proof. unfold poly, cubic. intros [-> | [-> | ->]]; simpl; ring. Qed.
Lemma poly_spline c k x y : degree k -> (forall i, (i < length x)%nat -> el y i = poly c k (el x i)) -> is_spline k x y (poly c k) /\ not_a_knot k x (poly c k).
Proof.
  intros Hk Hd. set (A2 := if Nat.ltb 1 k then c 2%nat else 0). set (A3 := if Nat.ltb 2 k then c 3%nat else 0).
  assert (D : forall m q, Derive_n (poly c k) m q = cubic_d m (c 0%nat) (c 1%nat) A2 A3 (q - 0)).
  { intros m q. rewrite (Derive_n_ext _ _ m q (fun r => poly_cubic c k r Hk)). apply cubic_Derive_n. }
  split; [ split; [ | split ] | ].
  - exists (fun i => cubic (c 0%nat) (c 1%nat) A2 A3 (knot k x i)), (fun i => c 1%nat + 2 * A2 * knot k x i + 3 * A3 * knot k x i ^ 2), (fun i => A2 + 3 * A3 * knot k x i), (fun _ => A3).
    split; [ | split ].
    + intros i H. unfold A3. destruct (Nat.ltb_spec 2 k); [ lia | reflexivity ].
    + intros i H. unfold A2, A3. destruct (Nat.ltb_spec 2 k); [ lia | ]. destruct (Nat.ltb_spec 1 k); [ lia | ring ].
    + intros i q _. rewrite poly_cubic by exact Hk. fold A2 A3. unfold cubic. ring.
  - intros m _ q. split.
    + apply (ex_derive_n_ext (fun q => cubic (c 0%nat) (c 1%nat) A2 A3 (q - 0))); [ intros r; symmetry; now apply poly_cubic | ]. destruct m as [ | m]; [ exact I | ].
      exists (cubic_d (S m) (c 0%nat) (c 1%nat) A2 A3 (q - 0)). apply (cubic_is_derive_n (S m)).
    + apply (continuous_ext (fun q => cubic_d m (c 0%nat) (c 1%nat) A2 A3 (q - 0))); [ intros r; symmetry; apply D | apply cubic_d_continuous ].
  - intros i Hi. symmetry. now apply Hd.
  - assert (T : forall q q', Derive_n (poly c k) k q = Derive_n (poly c k) k q').
    { intros q q'. rewrite !D. unfold A2, A3. destruct Hk as [-> | [-> | ->]]; simpl; ring. }
    split; intros; apply T.
Qed.
Lemma spline_reproduces_poly solve x y k s c : solve_ok solve -> incr x -> spline_init solve (Array1 x) (Array1 y) (Z.of_nat k) "not-a-knot" None = Ok s ->
  (forall i, (i < length x)%nat -> el y i = poly c k (el x i)) -> forall q, spline_call s q = poly c k q.
Proof.
  intros HS Hx E Hy q. destruct (init_size _ _ _ _ _ _ E) as (Hk & _). destruct (poly_spline c k x y Hk Hy) as [S1 S2].
  destruct (spline_is_the_spline _ _ _ _ _ HS Hx E) as (_ & _ & U). symmetry. apply U; [ exact S1 | right; exact S2 ].
Qed.
Lemma spline_natural_line solve x y k e s a b : solve_ok solve -> incr x -> spline_init solve (Array1 x) (Array1 y) (Z.of_nat k) e None = Ok s ->
  (forall i, (i < length x)%nat -> el y i = a + b * el x i) -> forall q, spline_call s q = a + b * q.
Proof.
  intros HS Hx E Hy q. destruct (init_size _ _ _ _ _ _ E) as (Hk & _ & HN). destruct (String.eqb_spec e "not-a-knot") as [-> | ne].
  - rewrite (spline_reproduces_poly solve x y k s (fun j => match j with 0%nat => a | 1%nat => b | _ => 0 end) HS Hx E).
    + unfold poly. destruct Hk as [-> | [-> | ->]]; simpl; ring.
    + intros i Hi. rewrite Hy by exact Hi. unfold poly. destruct Hk as [-> | [-> | ->]]; simpl; ring.
  - destruct (built_of _ _ _ _ _ _ HS Hx E) as (co & e' & -> & HB & H2). rewrite (call_G _ _ _ _ _ _ _ HB). pose proof HB as (Hs & _ & Sy).
    assert (H22 : (2 <= length x)%nat) by (destruct Hk as [-> | [-> | ->]]; lia).
    unfold G. destruct (index_spec k x q H22 Hx) as (I0 & _). set (i := index k x q) in *. pose proof (hh_pos k x i Hx H22 I0) as Pi. unfold P.
    destruct Hk as [-> | [-> | ->]]; [ | specialize (H2 eq_refl); contradiction | ]; unfold n_pieces in I0; simpl in I0; unfold cubic_d, cubic, cA, cB, cC, cD; simpl in Sy.
    + rewrite Sy by lia. rewrite !Hy by lia. unfold hh in Pi. simpl knot in *. unfold knot in Pi. simpl in Pi. unfold knot. simpl. field. lra.
    + assert (Z0 : cubic_system x y (negb (String.eqb e "not-a-knot")) (fun _ => 0)).
      { split; [ | split ].
        - unfold first_row. destruct (negb _); ring.
        - unfold last_row. destruct (negb _); ring.
        - intros j Hj. unfold mid_row, mid_rhs. rewrite !Hy by lia. pose proof (Hx j (S j) ltac:(lia)). pose proof (Hx (S j) (S (S j)) ltac:(lia)). field. lra. }
      pose proof (cubic_unique x y _ _ _ HN Hx Sy Z0) as U. rewrite !U by lia. rewrite !Hy by lia. unfold hh, knot in Pi |- *. simpl Nat.eqb in *. cbv iota in *. field. lra.
Qed.
(** C60 *)
Lemma spline_natural_ends solve x y e s : solve_ok solve -> incr x -> e <> "not-a-knot"%string -> spline_init solve (Array1 x) (Array1 y) 3 e None = Ok s ->
  spline_derivative s (el x 0) 2 = Ok 0 /\
  spline_derivative s (el x (length x - 1)) 2 = spline_derivative s (el x (length x - 2)) 2.
Proof.
  intros HS Hx ne E. change 3%Z with (Z.of_nat 3) in E. destruct (init_size _ _ _ _ _ _ E) as (_ & _ & HN).
  destruct (built_of _ _ _ _ _ _ HS Hx E) as (co & e' & -> & HB & _). apply String.eqb_neq in ne. rewrite ne in HB. simpl negb in HB.
  assert (H22 : (2 <= length x)%nat) by lia. pose proof HB as (_ & _ & (F & L & _)). unfold first_row in F. unfold last_row in L.
  change 2%Z with (Z.of_nat 2). rewrite !(deriv_G _ _ _ _ _ _ _ _ HB) by lia. unfold G.
  assert (Ht : forall i j, (i < j)%nat -> (j <= n_pieces 3 x)%nat -> knot 3 x i < knot 3 x j) by (intros; now apply incr_knot).
  pose proof (fun q => index_spec 3 x q H22 Hx) as Hidx.
  assert (IU := idx_unique (knot 3 x) (n_pieces 3 x) (pieces_pos 3 x H22) Ht (index 3 x) Hidx). unfold n_pieces in IU; simpl Nat.eqb in IU; cbv iota in IU. set (N := length x) in *.
  rewrite (IU 0%nat (el x 0)), (IU (N - 2)%nat (el x (N - 1))), (IU (N - 2)%nat (el x (N - 2))); [ | lia | right; change (el x (N - 2) <= el x (N - 2)); lra | left; lia | lia | right; change (el x (N - 2) <= el x (N - 1)); apply incr_le; (exact Hx || (fold N; lia)) | left; lia | lia | left; reflexivity | right; change (el x 0 < el x 1); apply Hx; fold N; lia ].
  unfold P, cubic_d, cC, cD, hh, knot. simpl Nat.eqb. cbv iota. replace (S (N - 2)) with (N - 1)%nat by lia. split.
  - f_equal. rewrite F. ring.
  - f_equal. assert (L' : el co (N - 1) - el co (N - 2) = 0) by exact L. rewrite L'. pose proof (Hx (N - 2)%nat (N - 1)%nat ltac:(fold N; lia)). field. lra.
Qed.
(** C65 *)
Lemma spline_validation solve x0 y0 k e : let x := atleast_1d x0 in let y := atleast_1d y0 in
  (spline_init solve x0 y0 k e None = Err AssertionError <->
     ~ (k = 1 \/ k = 2 \/ k = 3)%Z \/ length x <> length y \/ (Z.of_nat (length x) <= k)%Z \/ (k = 2%Z /\ e <> "not-a-knot"%string)) /\
  ((exists s, spline_init solve x0 y0 k e None = Ok s) <->
     (k = 1 \/ k = 2 \/ k = 3)%Z /\ length x = length y /\ (k < Z.of_nat (length x))%Z /\ (k = 2%Z -> e = "not-a-knot"%string)).
Proof.
  intros x y. unfold spline_init. fold x y.
  destruct (Z.eqb_spec k 1) as [e1 | n1]; [ | destruct (Z.eqb_spec k 2) as [e2 | n2]; [ | destruct (Z.eqb_spec k 3) as [e3 | n3] ]]; simpl orb; simpl negb; cbv iota.
  - destruct (Nat.eqb_spec (length x) (length y)) as [El | Nl]; simpl negb; cbv iota.
    + destruct (Nat.ltb_spec 1 (length x)); simpl negb; cbv iota; split; split; intros Hq; try discriminate.
      * exfalso. destruct Hq as [Hq | [Hq | [Hq | [Hq _]]]]; lia.
      * split; [ lia | split; [ exact El | split; [ lia | lia ]]].
      * eexists; reflexivity.
      * right; right; left; lia.
      * reflexivity.
      * destruct Hq as [s Hs]; discriminate.
      * exfalso; lia.
    + split; split; intros Hq; try discriminate; try tauto; try reflexivity. destruct Hq as [s Hs]; discriminate.
  - destruct (Nat.eqb_spec (length x) (length y)) as [El | Nl]; simpl negb; cbv iota.
    + destruct (Nat.ltb_spec 2 (length x)); simpl negb; cbv iota; [ destruct (String.eqb_spec e "not-a-knot") as [es | ns]; simpl negb; cbv iota | ]; split; split; intros Hq; try discriminate; try reflexivity.
      * exfalso. destruct Hq as [Hq | [Hq | [Hq | [_ Hq]]]]; try lia. contradiction.
      * split; [ lia | split; [ exact El | split; [ lia | auto ]]].
      * eexists; reflexivity.
      * right; right; right. now split.
      * destruct Hq as [s Hs]; discriminate.
      * destruct Hq as (_ & _ & _ & Hq). specialize (Hq e2). contradiction.
      * right; right; left; lia.
      * destruct Hq as [s Hs]; discriminate.
      * exfalso; lia.
    + split; split; intros Hq; try discriminate; try tauto; try reflexivity. destruct Hq as [s Hs]; discriminate.
  - destruct (Nat.eqb_spec (length x) (length y)) as [El | Nl]; simpl negb; cbv iota.
    + destruct (Nat.ltb_spec 3 (length x)); simpl negb; cbv iota; split; split; intros Hq; try discriminate; try reflexivity.
      * exfalso. destruct Hq as [Hq | [Hq | [Hq | [Hq _]]]]; lia.
      * split; [ lia | split; [ exact El | split; [ lia | lia ]]].
      * eexists; reflexivity.
      * right; right; left; lia.
      * destruct Hq as [s Hs]; discriminate.
      * exfalso; lia.
    + split; split; intros Hq; try discriminate; try tauto; try reflexivity. destruct Hq as [s Hs]; discriminate.
  - split; split; intros Hq; try discriminate; try tauto; try reflexivity. destruct Hq as [s Hs]; discriminate.
Qed.
Lemma spline_unknown_endpoint solve x0 y0 e : e <> "not-a-knot"%string -> spline_init solve x0 y0 3 e None = spline_init solve x0 y0 3 "natural" None.
Proof. intros ne. apply String.eqb_neq in ne. unfold spline_init. rewrite ne. destruct (String.eqb_spec e "natural") as [-> | n]; reflexivity. Qed.
(** C31 *)
Lemma spline_pytree solve solve' x0 y0 k e co s : spline_init solve x0 y0 k e co = Ok s ->
  let '(children, aux) := spline_flatten s in spline_unflatten solve' aux children = Ok s.
Proof.
  intros E. unfold spline_flatten. unfold spline_init in E. set (x := atleast_1d x0) in *. set (y := atleast_1d y0) in *.
  destruct (Z.eqb_spec k 1) as [e1 | n1]; [ | destruct (Z.eqb_spec k 2) as [e2 | n2]; [ | destruct (Z.eqb_spec k 3) as [e3 | n3]; [ | discriminate ]]];
    simpl orb in E; simpl negb in E; cbv iota in E; destruct (Nat.eqb_spec (length x) (length y)) as [El | Nl]; simpl negb in E; cbv iota in E; try discriminate.
  - assert (F : sp_k s = 1%Z /\ sp_x s = x /\ sp_y s = y).
    { destruct co; [ injection E as <-; now subst | ]. destruct (Nat.ltb 1 (length x)); [ | discriminate ]. injection E as <-. now subst. }
    destruct F as (F1 & F2 & F3). unfold spline_unflatten, spline_init. simpl fst; simpl snd; simpl atleast_1d. rewrite F1, F2, F3. simpl orb; simpl negb; cbv iota. rewrite El, Nat.eqb_refl. simpl. f_equal. destruct s; simpl in *. congruence.
  - assert (F : sp_k s = 2%Z /\ sp_x s = x /\ sp_y s = y).
    { destruct co; [ injection E as <-; now subst | ]. destruct (Nat.ltb 2 (length x)); [ | discriminate ]. simpl negb in E; cbv iota in E. destruct (String.eqb e "not-a-knot"); [ | discriminate ]. injection E as <-. now subst. }
    destruct F as (F1 & F2 & F3). unfold spline_unflatten, spline_init. simpl fst; simpl snd; simpl atleast_1d. rewrite F1, F2, F3. simpl orb; simpl negb; cbv iota. rewrite El, Nat.eqb_refl. simpl. f_equal. destruct s; simpl in *. congruence.
  - assert (F : sp_k s = 3%Z /\ sp_x s = x /\ sp_y s = y).
    { destruct co; [ injection E as <-; now subst | ]. destruct (Nat.ltb 3 (length x)); [ | discriminate ]. cbv zeta in E. simpl negb in E; cbv iota in E. injection E as <-. now subst. }
    destruct F as (F1 & F2 & F3). unfold spline_unflatten, spline_init. simpl fst; simpl snd; simpl atleast_1d. rewrite F1, F2, F3. simpl orb; simpl negb; cbv iota. rewrite El, Nat.eqb_refl. simpl. f_equal. destruct s; simpl in *. congruence.
Qed.
