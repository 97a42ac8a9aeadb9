(** * Specification: the Fisher matrix of a normal model whose mean and covariance depend on a parameter *)
From Verif Require Import Np Sparse SparseSpec FisherSpec GradSpec.
Local Open Scope R_scope.

(** mu'^T P mu' + tr(P C' P C') / 2: the information about the parameter in a normal vector of mean mu and covariance C, P = C^-1 *)
Definition normal_information (n : nat) (P : list (list R)) (dm : nat -> R) (dC : nat -> nat -> R) : R :=
  bilin n P dm dm + 1 / 2 * Rsum n (fun i => Rsum n (fun j => Rsum n (fun k => Rsum n (fun l => el2 P i j * dC j k * el2 P k l * dC l i)))).
(** the amplitude parameter alone *)
Definition sigma8_only : direction := Direction 0 0 0 0 1 0 0 0.
