(** * Specification of convergence for odeint: solutions, Lipschitz right-hand sides, grids *)
From Coquelicot Require Import Coquelicot.
From Verif Require Import Np.

(** y' = f(y, t) on [a, b], for a number and for two numbers *)
Definition solves (f : R -> R -> R) (y : R -> R) (a b : R) : Prop := forall t, a <= t <= b -> is_derive y t (f (y t) t).
Definition solves2 (f : R * R -> R -> R * R) (u v : R -> R) (a b : R) : Prop :=
  forall t, a <= t <= b -> is_derive u t (fst (f (u t, v t) t)) /\ is_derive v t (snd (f (u t, v t) t)).

(** Lipschitz constant in y on [a, b]; the distance of pairs is the sum of the two distances *)
Definition dist2 (p q : R * R) : R := Rabs (fst p - fst q) + Rabs (snd p - snd q).
Definition lipschitz (f : R -> R -> R) (L a b : R) : Prop :=
  0 <= L /\ forall t u v, a <= t <= b -> Rabs (f u t - f v t) <= L * Rabs (u - v).
Definition lipschitz2 (f : R * R -> R -> R * R) (L a b : R) : Prop :=
  0 <= L /\ forall t u v, a <= t <= b -> dist2 (f u t) (f v t) <= L * dist2 u v.

(** a grid from a, inside [a, b], with steps at most h *)
Definition grid (t : list R) (a b h : R) : Prop :=
  t <> [] /\ el t 0 = a /\ (forall i, (i + 1 < length t)%nat -> 0 <= el t (i + 1) - el t i <= h) /\ el t (length t - 1) <= b.
