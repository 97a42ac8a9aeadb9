(** * C154: splines evaluated, differentiated and integrated on arrays of any shape *)
From Coq Require Import Reals Lra Lia ZArith String List.
From Coquelicot Require Import Coquelicot.
From Verif Require Import Np NpLemmas Interp OdeSpec SparseSpec Spline SplineSpec SplineLinear SplineSolve SplineProofs SplineFinal ExSpline Nd NdSpec NdProofs SplineNd SplineNdProofs ExSplineNd.
Import ListNotations.
Local Open Scope R_scope.

(** C154  evaluating at an array of any shape never raises and gives the spline's value at every entry, in the same shape *)
Theorem C154_call : forall s q, exists r, spline_call_nd s q = Ok r /\ elementwise (spline_call s) q r.
Proof. exact call_nd. Qed.
Print Assumptions C154_call.
(** the n-th derivative, at every entry; at the highest order no entry may be an interior knot *)
Theorem C154_derivative : forall solve x y k e s, solve_ok solve -> incr x -> spline_init solve (Array1 x) (Array1 y) (Z.of_nat k) e None = Ok s ->
  forall q n, (n < k)%nat \/ (n = k /\ forall i, inside (shp q) i -> ~ breakpoint k x (get q i)) ->
  exists r, spline_derivative_nd s q (Z.of_nat n) = Ok r /\ shp r = shp q /\ forall i, inside (shp q) i -> is_derive_n (spline_call s) n (get q i) (get r i).
Proof. exact derivatives_nd. Qed.
Print Assumptions C154_derivative.
Example C154_case : solve_ok solve_mx /\ incr sx /\ (exists s, spline_init solve_mx (Array1 sx) (Array1 sy) (Z.of_nat 3) "not-a-knot" None = Ok s) /\
  shp grid22 = [2%nat; 2%nat] /\ forall i, inside (shp grid22) i -> ~ breakpoint 3 sx (get grid22 i).
Proof. exact (conj ex_solver (conj sx_incr (conj ex_cubic (conj eq_refl grid22_free)))). Qed.
(** other orders are refused *)
Theorem C154_orders : forall s q n, (n < 0 \/ sp_k s < n)%Z -> spline_derivative_nd s q n = Err AssertionError.
Proof. exact derivative_nd_order. Qed.
Print Assumptions C154_orders.
Example C154_case_orders : (sp_k (Spline 3 sx sy [] "natural") < 4)%Z.
Proof. reflexivity. Qed.
(** the antiderivative at every entry: the integral from the first knot *)
Theorem C154_antiderivative : forall solve x y k e s, solve_ok solve -> incr x -> spline_init solve (Array1 x) (Array1 y) (Z.of_nat k) e None = Ok s ->
  forall q, exists r, spline_antiderivative_nd s q = Ok r /\ shp r = shp q /\ forall i, inside (shp q) i -> is_RInt (spline_call s) (knot k x 0) (get q i) (get r i).
Proof. exact antiderivatives_nd. Qed.
Print Assumptions C154_antiderivative.
(** the definite integral between two numbers is an array with one entry *)
Theorem C154_integral : forall solve x y k e s, solve_ok solve -> incr x -> spline_init solve (Array1 x) (Array1 y) (Z.of_nat k) e None = Ok s ->
  forall a b, exists r, spline_integral_nd s (num0 a) (num0 b) = Ok r /\ shp r = [1%nat] /\ is_RInt (spline_call s) a b (get r [0%nat]).
Proof. exact integral_numbers. Qed.
Print Assumptions C154_integral.
(** between arrays with more than one entry it raises *)
Theorem C154_integral_arrays : forall s a b t, bshape (shp b) (shp a) = Some t -> (1 < length (indices t))%nat -> spline_integral_nd s a b = Err ValueError.
Proof. exact integral_arrays. Qed.
Print Assumptions C154_integral_arrays.
Example C154_case_arrays : bshape (shp (vec [1; 2])) (shp (num0 0)) = Some [2%nat] /\ (1 < length (indices [2%nat]))%nat.
Proof. exact (conj eq_refl (le_n 2)). Qed.
(** between arrays with one entry (of rank 1 or more) it returns an array without entries *)
Theorem C154_integral_one : forall s a b j, shp a = repeat 1%nat (S j) -> shp b = repeat 1%nat (S j) -> exists r, spline_integral_nd s a b = Ok r /\ indices (shp r) = [].
Proof. exact integral_one. Qed.
Print Assumptions C154_integral_one.
Example C154_case_one : shp (vec [0]) = repeat 1%nat 1 /\ shp (vec [1]) = repeat 1%nat 1.
Proof. exact (conj eq_refl eq_refl). Qed.
(** so the claim that one-entry arrays give the integral is false *)
Theorem C154_integral_refuted : exists solve x y s a b, solve_ok solve /\ incr x /\ spline_init solve (Array1 x) (Array1 y) (Z.of_nat 3) "not-a-knot" None = Ok s /\
  exists r, spline_integral_nd s (vec [a]) (vec [b]) = Ok r /\ flat r <> [RInt (spline_call s) a b].
Proof. exact one_entry_refuted. Qed.
Print Assumptions C154_integral_refuted.
(** data: vectors are accepted as in C65, arrays of rank 2 or more and single numbers are refused *)
Theorem C154_data_vectors : forall solve v w k e co, spline_init_nd solve (vec v) (vec w) k e co = spline_init solve (Array1 v) (Array1 w) k e co.
Proof. exact init_nd_vectors. Qed.
Print Assumptions C154_data_vectors.
Theorem C154_data_rank : forall solve x y k e co, (2 <= length (shp x))%nat \/ (2 <= length (shp y))%nat -> spline_init_nd solve x y k e co = Err AssertionError.
Proof. exact init_nd_rank. Qed.
Print Assumptions C154_data_rank.
Example C154_case_rank : (2 <= length (shp grid22))%nat /\ shp (vec [0; 1]) = [2%nat].
Proof. exact (conj (le_n 2) eq_refl). Qed.
Theorem C154_data_numbers : forall solve a b k e, spline_init_nd solve (num0 a) (num0 b) k e None = Err AssertionError.
Proof. exact init_nd_numbers. Qed.
Print Assumptions C154_data_numbers.
