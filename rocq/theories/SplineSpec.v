(** * Specification for InterpolatedUnivariateSpline: what an interpolating spline is, without reference to the code *)
From Coquelicot Require Import Coquelicot.
From Verif Require Import Np OdeSpec SparseSpec Spline.

(** what np.linalg.solve is trusted to do: on an invertible square matrix it returns a solution *)
Definition solve_ok (solve : solve_t) : Prop :=
  forall n A s, wf2 n n A -> invertible n A -> wf1 n s -> wf1 n (solve n A s) /\ is_matvec n n A (solve n A s) s.

(** knots: the data points for degrees 1 and 3, their midpoints (and two outer points) for degree 2 *)
Definition n_pieces (k : nat) (x : list R) : nat := if Nat.eqb k 2 then length x else (length x - 1)%nat.
Definition knot (k : nat) (x : list R) (i : nat) : R :=
  if Nat.eqb k 2 then
    if Nat.eqb i 0 then el x 0 - (el x 1 - el x 0) / 2
    else if Nat.eqb i (length x) then el x (length x - 1) + (el x (length x - 1) - el x (length x - 2)) / 2
    else (el x (i - 1) + el x i) / 2
  else el x i.
(** interior knots, where two pieces meet *)
Definition breakpoint (k : nat) (x : list R) (q : R) : Prop := exists i, (S i < n_pieces k x)%nat /\ q = knot k x (S i).
(** the points served by piece i; the first and last pieces extrapolate *)
Definition in_piece (k : nat) (x : list R) (i : nat) (q : R) : Prop :=
  (i < n_pieces k x)%nat /\ (i = O \/ knot k x i <= q) /\ (S i = n_pieces k x \/ q <= knot k x (S i)).

Definition cubic (a b c d u : R) : R := a + b * u + c * u ^ 2 + d * u ^ 3.

(** f is a polynomial of degree at most k on each piece *)
Definition piecewise (k : nat) (x : list R) (f : R -> R) : Prop :=
  exists a b c d : nat -> R, (forall i, (k <= 2)%nat -> d i = 0) /\ (forall i, (k <= 1)%nat -> c i = 0) /\
    forall i q, in_piece k x i q -> f q = cubic (a i) (b i) (c i) (d i) (q - knot k x i).

(** f has continuous derivatives up to order n *)
Definition smooth (n : nat) (f : R -> R) : Prop :=
  forall m, (m <= n)%nat -> forall q : R, ex_derive_n f m q /\ continuous (Derive_n f m) q.

(** f interpolates the data *)
Definition interpolates (x y : list R) (f : R -> R) : Prop := forall i, (i < length x)%nat -> f (el x i) = el y i.

(** an interpolating spline of degree k *)
Definition is_spline (k : nat) (x y : list R) (f : R -> R) : Prop :=
  piecewise k x f /\ smooth (k - 1) f /\ interpolates x y f.

(** not-a-knot: the highest derivative does not jump at the first and at the last interior knot *)
Definition not_a_knot (k : nat) (x : list R) (f : R -> R) : Prop :=
  let M := n_pieces k x in
  (forall q q', q < knot k x 2 -> q' < knot k x 2 -> q <> knot k x 1 -> q' <> knot k x 1 -> Derive_n f k q = Derive_n f k q') /\
  (forall q q', knot k x (M - 2) < q -> knot k x (M - 2) < q' -> q <> knot k x (M - 1) -> q' <> knot k x (M - 1) ->
     Derive_n f k q = Derive_n f k q').

(** enough data for degree k *)
Definition enough (k : nat) (x y : list R) : Prop := length y = length x /\ (k < length x)%nat /\ incr x.
