(** * Determinant of a diagonal matrix *)
From Verif Require Import Np NpLemmas Sparse SparseSpec SparseProofs.
From mathcomp Require Import all_ssreflect all_algebra.
From Verif Require Import Rfield DetSpec MxBridge DetProofs.
Set Implicit Arguments.
Unset Strict Implicit.
Lemma det_diagonal n m (d : nat -> R) :
  (forall i j, (i < n)%coq_nat -> (j < n)%coq_nat -> el2 m i j = if Nat.eqb i j then d i else R0) -> det_of n m = vprod (tab n d).
Proof.
move=> E; rewrite /det_of; apply: det_diag_fun; first by rewrite length_tab.
move=> i j; rewrite mxE' E; try exact: ord_lt.
rewrite /el nth_tab; last exact: ord_lt.
by case: (Nat.eqb_spec i j) => [->|H]; [rewrite eqxx | case: eqP].
Qed.
