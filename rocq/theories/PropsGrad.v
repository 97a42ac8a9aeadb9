(** * Property theorems C89 and C90: derivatives of distances with respect to the parameters (background.py) *)
From Coquelicot Require Import Coquelicot.
From Verif Require Import Np Core Background BgSpec BgFinal4 GradSpec BgGrad.

(** C89  distances are differentiable in every parameter direction *)
Theorem C89_differentiable : forall c d a,
  reachable c -> expanding c -> 0 < a < 1 ->
  ex_derive (fun t => H (displaced c d t) a) 0 /\ ex_derive (fun t => chi (displaced c d t) a) 0 /\
  ex_derive (fun t => f_k (displaced c d t) a) 0 /\ chi (displaced c d 0) a = chi c a.
Proof. exact distances_differentiable. Qed.
Print Assumptions C89_differentiable.
Example C89_case : (reachable Planck15 /\ expanding Planck15) /\ (reachable open_planck /\ expanding open_planck /\ _Omega_k open_planck <> 0 /\ selected open_planck = open_branch).
Proof. exact (conj (conj (proj1 planck_ok) (proj1 (proj2 (proj2 (proj2 planck_ok))))) open_planck_ok). Qed.


(** C90  the tangent of the switch: right where curvature is nonzero or not varied, wrong at flatness *)
Theorem C90_curved_partial : forall c d a,
  expanding c -> a < 1 -> _Omega_k c <> 0 \/ dOmega_k d = 0 ->
  is_derive (transverse_along c d a) 0 (switch_tangent c d a).
Proof. exact curved_gradient. Qed.
Print Assumptions C90_curved_partial.
Theorem C90_flat_refuted : exists c d a, reachable c /\ expanding c /\ 0 < a < 1 /\ ~ is_derive (transverse_along c d a) 0 (switch_tangent c d a).
Proof. exact gradient_refuted. Qed.
Print Assumptions C90_flat_refuted.
Theorem C90_flat_value_partial : forall c d a,
  reachable c -> expanding c -> a < 1 -> _Omega_k c = 0 ->
  is_derive (transverse_along c d a) 0 (switch_tangent c d a + dOmega_k d * chi c a ^ 3 / (6 * 2997.92458 ^ 2)).
Proof. exact flat_gradient_value. Qed.
Print Assumptions C90_flat_value_partial.
Example C90_case : reachable open_planck /\ expanding open_planck /\ _Omega_k open_planck <> 0 /\ selected open_planck = open_branch.
Proof. exact open_planck_ok. Qed.
