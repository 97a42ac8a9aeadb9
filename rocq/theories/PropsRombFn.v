(** * C153: quadratures of python functions *)
From Coq Require Import Reals Lra Lia ZArith String List.
From Coquelicot Require Import Coquelicot.
From Verif Require Import Np Integrate IntegrateSpec SimpsProofs Nd RombFn RombFnSpec RombFnProofs.
Import ListNotations.
Local Open Scope R_scope.

(** C153  romb passes its extra arguments on and returns the Romberg diagonal of every function that acts entry by entry on vectors.
    The full statement has all functions of one variable that accept vectors: false, see C153_constant_refuted *)
Theorem C153_romb_partial : forall X (F : X -> pyfn) args f a b d, vectorised (F args) f -> (1 <= d)%nat ->
  romb_fn F args a b d = Ok (romberg f a b d d, Rabs (romberg f a b (d - 1) (d - 1) - romberg f a b d d)).
Proof. exact @vectorised_value. Qed.
Print Assumptions C153_romb_partial.
Theorem C153_simps : forall F f a b N, vectorised F f -> Nat.even N = true -> (2 <= N)%nat -> simps_fn F a b N = Ok (simpson f a b N).
Proof. exact simps_vectorised. Qed.
Print Assumptions C153_simps.
(** a python function that returns the number y whatever its argument: simps raises; romb returns less than the integral, and tends to 0 as divmax grows *)
Theorem C153_simps_constant : forall F y a b N, ignores_argument F y -> Nat.even N = true -> simps_fn F a b N = Err TypeError.
Proof. exact simps_constant. Qed.
Print Assumptions C153_simps_constant.
Theorem C153_romb_constant : forall X (F : X -> pyfn) args y a b d, ignores_argument (F args) y -> (2 <= d)%nat ->
  exists w e, romb_fn F args a b d = Ok (w * ((b - a) * y), e) /\ 0 < w <= (4 + 2 * INR d) / (3 * 2 ^ d).
Proof. exact @constant_value. Qed.
Print Assumptions C153_romb_constant.
Theorem C153_constant_refuted : exists (F : unit -> pyfn) y a b d v e, ignores_argument (F tt) y /\ (2 <= d)%nat /\ romb_fn F tt a b d = Ok (v, e) /\ v <> (b - a) * y.
Proof. exact constant_wrong. Qed.
Print Assumptions C153_constant_refuted.
Example C153_case : vectorised (square_fn 3) (fun x => 3 * x ^ 2) /\ (exists e, romb_fn square_fn 3 0 1 1 = Ok (1, e)) /\ ignores_argument (PyFn (fun _ => 1) (fun _ => num0 1)) 1.
Proof. exact square_case. Qed.
