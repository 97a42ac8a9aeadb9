(** * Property theorems C31, C57-C65 and C84 (scipy/interpolate.py, InterpolatedUnivariateSpline) *)
From Coquelicot Require Import Coquelicot.
From Verif Require Import Np NpLemmas Interp OdeSpec Sparse SparseSpec IntegrateSpec Spline SplineSpec SplineLinear SplineFinal ExSpline.

(** C31: the round trip returns the same spline, whatever solver the other side has *)
Theorem C31_spline_pytree : forall solve solve' x0 y0 k e co s,
  spline_init solve x0 y0 k e co = Ok s ->
  let '(children, aux) := spline_flatten s in spline_unflatten solve' aux children = Ok s.
Proof. exact spline_pytree. Qed.
Print Assumptions C31_spline_pytree.
Example C31_case : exists s, spline_init solve_mx (Array1 sx) (Array1 sy) (Z.of_nat 3) "not-a-knot" None = Ok s.
Proof. exact ex_cubic. Qed.

(** C57 *)
Theorem C57_through_data : forall solve x y k e s,
  solve_ok solve -> incr x -> spline_init solve (Array1 x) (Array1 y) (Z.of_nat k) e None = Ok s ->
  forall i, (i < length x)%nat -> spline_call s (el x i) = el y i.
Proof. exact spline_through_data. Qed.
Print Assumptions C57_through_data.
Example C57_case : solve_ok solve_mx /\ incr sx /\ (exists s, spline_init solve_mx (Array1 sx) (Array1 sy) (Z.of_nat 2) "not-a-knot" None = Ok s).
Proof. exact (conj ex_solver (conj sx_incr ex_quadratic)). Qed.

(** C58: k-1 continuous derivatives everywhere, knots included, and a polynomial of degree at most k on each piece *)
Theorem C58_smooth : forall solve x y k e s,
  solve_ok solve -> incr x -> spline_init solve (Array1 x) (Array1 y) (Z.of_nat k) e None = Ok s ->
  smooth (k - 1) (spline_call s) /\ piecewise k x (spline_call s).
Proof. exact spline_smooth. Qed.
Print Assumptions C58_smooth.
Example C58_case : solve_ok solve_mx /\ incr sx /\ (exists s, spline_init solve_mx (Array1 sx) (Array1 sy) (Z.of_nat 3) "not-a-knot" None = Ok s).
Proof. exact (conj ex_solver (conj sx_incr ex_cubic)). Qed.

(** C59: the k-th derivative (as a function, and as returned by [derivative]) does not jump at the first and last interior knot *)
Theorem C59_not_a_knot : forall solve x y k s,
  solve_ok solve -> incr x -> (2 <= k)%nat -> spline_init solve (Array1 x) (Array1 y) (Z.of_nat k) "not-a-knot" None = Ok s ->
  not_a_knot k x (spline_call s) /\
  (forall q q', q < knot k x 2 -> q' < knot k x 2 -> spline_derivative s q (Z.of_nat k) = spline_derivative s q' (Z.of_nat k)) /\
  (forall q q', knot k x (n_pieces k x - 2) < q -> knot k x (n_pieces k x - 2) < q' -> spline_derivative s q (Z.of_nat k) = spline_derivative s q' (Z.of_nat k)).
Proof. exact spline_not_a_knot. Qed.
Print Assumptions C59_not_a_knot.
Example C59_case : exists s, spline_init solve_mx (Array1 sx) (Array1 sy) (Z.of_nat 3) "not-a-knot" None = Ok s.
Proof. exact ex_cubic. Qed.

(** C60: false at the right end, where the code equates the last two coefficients *)
Theorem C60_natural_refuted : exists x y, incr x /\ (exists solve s, solve_ok solve /\ spline_init solve (Array1 x) (Array1 y) 3 "natural" None = Ok s) /\
  forall solve s, solve_ok solve -> spline_init solve (Array1 x) (Array1 y) 3 "natural" None = Ok s ->
    exists v, spline_derivative s (el x (length x - 1)) 2 = Ok v /\ is_derive_n (spline_call s) 2 (el x (length x - 1)) v /\ v <> 0.
Proof. exact natural_refuted. Qed.
Print Assumptions C60_natural_refuted.
(** what does hold: zero curvature at the left end, constant curvature on the last interval *)
Theorem C60_natural_left_partial : forall solve x y e s,
  solve_ok solve -> incr x -> e <> "not-a-knot"%string -> spline_init solve (Array1 x) (Array1 y) 3 e None = Ok s ->
  spline_derivative s (el x 0) 2 = Ok 0 /\
  spline_derivative s (el x (length x - 1)) 2 = spline_derivative s (el x (length x - 2)) 2.
Proof. exact spline_natural_ends. Qed.
Print Assumptions C60_natural_left_partial.
Example C60_case : exists s, spline_init solve_mx (Array1 sx) (Array1 sy) 3 "natural" None = Ok s.
Proof. exact ex_natural. Qed.

(** C61 *)
Theorem C61_cubic_system : forall natural x y,
  (3 < length x)%nat -> length y = length x -> incr x ->
  exists! z, wf1 (length x) z /\ is_matvec (length x) (length x) (cubic_matrix natural x) z (cubic_rhs x y).
Proof. exact cubic_system_unique. Qed.
Print Assumptions C61_cubic_system.
Theorem C61_quadratic_system : forall x y,
  (2 < length x)%nat -> length y = length x -> incr x ->
  exists! z, wf1 (S (length x)) z /\ is_matvec (S (length x)) (S (length x)) (quad_matrix x) z (quad_rhs y).
Proof. exact quad_system_unique. Qed.
Print Assumptions C61_quadratic_system.
Theorem C61_any_solver : forall solve solve' x y k e,
  solve_ok solve -> solve_ok solve' -> incr x ->
  spline_init solve (Array1 x) (Array1 y) (Z.of_nat k) e None = spline_init solve' (Array1 x) (Array1 y) (Z.of_nat k) e None.
Proof. exact spline_solver_independent. Qed.
Print Assumptions C61_any_solver.
Example C61_case : (3 < length sx)%nat /\ length sy = length sx /\ incr sx /\ solve_ok solve_mx.
Proof. exact (conj (le_n 4) (conj eq_refl (conj sx_incr ex_solver))). Qed.

(** C62 *)
Theorem C62_polynomials : forall solve x y k s c,
  solve_ok solve -> incr x -> spline_init solve (Array1 x) (Array1 y) (Z.of_nat k) "not-a-knot" None = Ok s ->
  (forall i, (i < length x)%nat -> el y i = poly c k (el x i)) -> forall q, spline_call s q = poly c k q.
Proof. exact spline_reproduces_poly. Qed.
Print Assumptions C62_polynomials.
Theorem C62_lines_any_endpoints : forall solve x y k e s a b,
  solve_ok solve -> incr x -> spline_init solve (Array1 x) (Array1 y) (Z.of_nat k) e None = Ok s ->
  (forall i, (i < length x)%nat -> el y i = a + b * el x i) -> forall q, spline_call s q = a + b * q.
Proof. exact spline_natural_line. Qed.
Print Assumptions C62_lines_any_endpoints.
Example C62_case : forall i, (i < length sx)%nat -> el [0; 0; 6; 24] i = poly (fun j => match j with 1%nat => -1 | 3%nat => 1 | _ => 0 end) 3 (el sx i).
Proof. exact ex_poly. Qed.
Example C62_case_line : forall i, (i < length sx)%nat -> el [1; 3; 5; 7] i = 1 + 2 * el sx i.
Proof. exact ex_line. Qed.

(** C63 *)
Theorem C63_derivative : forall solve x y k e s n q,
  solve_ok solve -> incr x -> spline_init solve (Array1 x) (Array1 y) (Z.of_nat k) e None = Ok s ->
  (n < k)%nat \/ (n = k /\ ~ breakpoint k x q) ->
  exists v, spline_derivative s q (Z.of_nat n) = Ok v /\ is_derive_n (spline_call s) n q v.
Proof. exact spline_derivative_correct. Qed.
Print Assumptions C63_derivative.
Theorem C63_orders : forall solve x y k e s q n,
  solve_ok solve -> incr x -> spline_init solve (Array1 x) (Array1 y) (Z.of_nat k) e None = Ok s ->
  ((exists v, spline_derivative s q n = Ok v) <-> (0 <= n <= Z.of_nat k)%Z) /\ (spline_derivative s q n = Err AssertionError <-> (n < 0 \/ Z.of_nat k < n)%Z).
Proof. exact spline_derivative_order. Qed.
Print Assumptions C63_orders.
Example C63_case : forall k, ~ breakpoint k sx (3 / 4).
Proof. exact ex_not_breakpoint. Qed.

(** C64 *)
Theorem C64_antiderivative : forall solve x y k e s,
  solve_ok solve -> incr x -> spline_init solve (Array1 x) (Array1 y) (Z.of_nat k) e None = Ok s ->
  (forall q, is_derive (spline_antiderivative s) q (spline_call s q)) /\ spline_antiderivative s (knot k x 0) = 0.
Proof. exact spline_antiderivative_correct. Qed.
Print Assumptions C64_antiderivative.
Theorem C64_integral : forall solve x y k e s a b,
  solve_ok solve -> incr x -> spline_init solve (Array1 x) (Array1 y) (Z.of_nat k) e None = Ok s ->
  spline_integral s a b = [RInt (spline_call s) a b] /\ is_RInt (spline_call s) a b (RInt (spline_call s) a b) /\
  exists v, spline_integral s a b = [v] /\ spline_integral s b a = [- v].
Proof. exact spline_integral_correct. Qed.
Print Assumptions C64_integral.
Example C64_case : exists s, spline_init solve_mx (Array1 sx) (Array1 sy) (Z.of_nat 1) "not-a-knot" None = Ok s.
Proof. exact ex_linear. Qed.

(** C65 *)
Theorem C65_validation : forall solve x0 y0 k e,
  let x := atleast_1d x0 in let y := atleast_1d y0 in
  (spline_init solve x0 y0 k e None = Err AssertionError <->
     ~ (k = 1 \/ k = 2 \/ k = 3)%Z \/ length x <> length y \/ (Z.of_nat (length x) <= k)%Z \/ (k = 2%Z /\ e <> "not-a-knot"%string)) /\
  ((exists s, spline_init solve x0 y0 k e None = Ok s) <->
     (k = 1 \/ k = 2 \/ k = 3)%Z /\ length x = length y /\ (k < Z.of_nat (length x))%Z /\ (k = 2%Z -> e = "not-a-knot"%string)).
Proof. exact spline_validation. Qed.
Print Assumptions C65_validation.
Example C65_case : spline_init solve_mx (Array1 sx) (Array1 sy) 4 "not-a-knot" None = Err AssertionError /\
  exists s, spline_init solve_mx (Array1 sx) (Array1 sy) 3 "not-a-knot" None = Ok s.
Proof.
  split; [ apply (spline_validation solve_mx (Array1 sx) (Array1 sy) 4 "not-a-knot"); left; intros [E | [E | E]]; discriminate | exact ex_cubic ].
Qed.
Theorem C65_unknown_endpoint : forall solve x0 y0 e,
  e <> "not-a-knot"%string -> spline_init solve x0 y0 3 e None = spline_init solve x0 y0 3 "natural" None.
Proof. exact spline_unknown_endpoint. Qed.
Print Assumptions C65_unknown_endpoint.

(** C84: the constructed function is the interpolating spline, and there is no other *)
Theorem C84_the_spline : forall solve x y k s,
  solve_ok solve -> incr x -> spline_init solve (Array1 x) (Array1 y) (Z.of_nat k) "not-a-knot" None = Ok s ->
  is_spline k x y (spline_call s) /\ (k = 1%nat \/ not_a_knot k x (spline_call s)) /\
  forall f, is_spline k x y f -> (k = 1%nat \/ not_a_knot k x f) -> forall q, f q = spline_call s q.
Proof. exact spline_is_the_spline. Qed.
Print Assumptions C84_the_spline.
Example C84_case : solve_ok solve_mx /\ incr sx /\ (exists s, spline_init solve_mx (Array1 sx) (Array1 sy) (Z.of_nat 3) "not-a-knot" None = Ok s).
Proof. exact (conj ex_solver (conj sx_incr ex_cubic)). Qed.
