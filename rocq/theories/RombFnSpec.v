(** * Specification: integrands of quadratures *)
From Verif Require Import Np Integrate Nd RombFn.

(** the function acts entry by entry as [f], as the documentation of the quadratures asks *)
Definition vectorised (F : pyfn) (f : R -> R) : Prop :=
  (forall x, on_number F x = f x) /\ forall v, shp (on_vector F v) = [length v] /\ forall i, (i < length v)%nat -> get (on_vector F v) [i] = f (el v i).
(** the python function lambda x: y, which ignores its argument *)
Definition ignores_argument (F : pyfn) (y : R) : Prop := (forall x, on_number F x = y) /\ forall v, on_vector F v = num0 y.
(** Richardson extrapolation of a sequence, as in the Romberg scheme *)
Fixpoint richardson (T : nat -> R) (i k : nat) : R :=
  match k with
  | O => T i
  | S k' => match i with O => T 0%nat | S i' => (4 ^ k * richardson T i k' - richardson T i' k') / (4 ^ k - 1) end
  end.
