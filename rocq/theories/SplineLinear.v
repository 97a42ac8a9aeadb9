(** * Linear algebra for the spline systems: trivial kernel, invertibility, existence of the solver oracle *)
From Verif Require Import Np NpLemmas Sparse SparseSpec Likelihood Spline SplineSpec.
From mathcomp Require Import all_ssreflect all_algebra.
From Verif Require Import Rfield DetSpec MxBridge.
Set Implicit Arguments.
Unset Strict Implicit.
Import GRing.Theory.
Local Open Scope ring_scope.

Lemma mxget_val r c (M : 'M[R]_(r, c)) (i : 'I_r) (j : 'I_c) : mxget M i j = M i j.
Proof. by rewrite /mxget !valK. Qed.
Lemma kernel_invertible n m : wf2 n n m ->
  (forall z : list R, wf1 n z -> (forall i, (i < n)%coq_nat -> Rsum n (fun j => Rmult (el2 m i j) (el z j)) = R0) -> forall i, (i < n)%coq_nat -> el z i = R0) ->
  invertible n m.
Proof.
move=> W K; apply/invertible_unit; rewrite -unitmx_tr -row_free_unit; apply/inj_row_free => v Hv.
pose z := tab n (fun i => mxget v (ord0 : 'I_1) i).
have Hz i : (i < n)%coq_nat -> el z i = mxget v (ord0 : 'I_1) i by move=> Hi; rewrite /el /z nth_tab.
have E : forall i, (i < n)%coq_nat -> el z i = R0.
  apply: K; first by rewrite /wf1 /z length_tab.
  move=> i /ltP Hi; rewrite Rsum_big.
  have := congr1 (fun M : 'M[R]_(1, n) => M ord0 (Ordinal Hi)) Hv; rewrite !mxE => H0; apply: etrans H0.
  apply: eq_bigr => l _; rewrite !mxE /= Hz; last exact: ord_lt.
  by rewrite mxget_val Rmult_comm.
apply/matrixP => a b; rewrite (ord1 a) mxE; have := E b (ord_lt b); rewrite Hz; last exact: ord_lt.
by rewrite mxget_val.
Qed.

(** a solver meeting the specification exists *)
Definition solve_mx : solve_t := fun n A s => mv (linv_mx n A) s.
