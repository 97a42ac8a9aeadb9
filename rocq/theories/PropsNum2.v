(** * Property theorems C85 and C86 (scipy/integrate.py) *)
From Coquelicot Require Import Coquelicot.
From Verif Require Import Np NpLemmas Integrate IntegrateSpec RombPos.

(** C85  Romberg weights are positive: bounds, order, and accuracy certified by any nearby polynomial *)
Theorem C85_bounds : forall f a b d m M,
  (1 <= d)%nat -> a <= b -> (forall x, a <= x <= b -> m <= f x <= M) ->
  exists v err, romb f a b d = Ok (v, err) /\ (b - a) * m <= v <= (b - a) * M.
Proof. exact romb_bounds. Qed.
Print Assumptions C85_bounds.
Theorem C85_monotone : forall f g a b d,
  (1 <= d)%nat -> a <= b -> (forall x, a <= x <= b -> f x <= g x) ->
  exists u v eu ev, romb f a b d = Ok (u, eu) /\ romb g a b d = Ok (v, ev) /\ u <= v.
Proof. exact romb_monotone. Qed.
Print Assumptions C85_monotone.
Theorem C85_vs_trapezoid : forall f a b d,
  (1 <= d)%nat -> a <= b -> (forall x, a <= x <= b -> 0 <= f x) ->
  exists v err, romb f a b d = Ok (v, err) /\ 2 / 5 * trapezoid f a b (2 ^ d) <= v <= 3 / 2 * trapezoid f a b (2 ^ d).
Proof. exact romb_vs_trapezoid. Qed.
Print Assumptions C85_vs_trapezoid.
Theorem C85_near_best : forall f c deg a b d e,
  (1 <= d)%nat -> (deg <= 2 * d + 1)%nat -> a <= b -> (forall x, a <= x <= b -> continuous f x) ->
  (forall x, a <= x <= b -> Rabs (f x - poly c deg x) <= e) ->
  exists v err, romb f a b d = Ok (v, err) /\ Rabs (v - RInt f a b) <= 2 * (b - a) * e.
Proof. exact romb_near_best. Qed.
Print Assumptions C85_near_best.
Example C85_case : (forall x, 0 <= x <= 1 -> 0 <= Rabs (x - 1 / 2) <= 1 / 2) /\ (forall x, continuous (fun x => Rabs (x - 1 / 2)) x) /\
  (forall x, 0 <= x <= 1 -> Rabs (Rabs (x - 1 / 2) - poly (fun _ => 1 / 4) 0 x) <= 1 / 4) /\ exists err, romb (fun x => Rabs (x - 1 / 2)) 0 1 1 = Ok (1 / 6, err).
Proof. exact (conj tent_bounds (conj tent_continuous (conj tent_near tent_case))). Qed.


(** C86  both quadrature rules converge for every continuous integrand *)
Theorem C86_simps : forall (f : R -> R) a b eps,
  a <= b -> (forall x, a <= x <= b -> continuous f x) -> 0 < eps ->
  exists n0, forall N, (2 <= N)%nat -> Nat.even N = true -> (n0 <= N)%nat ->
    exists v, simps f a b N = Ok v /\ Rabs (v - RInt f a b) <= eps.
Proof. exact simps_converges. Qed.
Print Assumptions C86_simps.
Theorem C86_romb : forall (f : R -> R) a b eps,
  a <= b -> (forall x, a <= x <= b -> continuous f x) -> 0 < eps ->
  exists n0, forall d, (1 <= d)%nat -> (n0 <= d)%nat -> exists v err, romb f a b d = Ok (v, err) /\ Rabs (v - RInt f a b) <= eps.
Proof. exact romb_converges. Qed.
Print Assumptions C86_romb.
Example C86_case : forall x : R, 0 <= x <= 1 -> continuous (fun x => Rabs (x - 1 / 2)) x.
Proof. exact (fun x _ => tent_continuous x). Qed.
