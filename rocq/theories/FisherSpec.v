(** * Specification: derivatives of the likelihood along a family of models *)
From Verif Require Import Np Sparse SparseSpec.

(** the bilinear form u^T P v *)
Definition bilin (n : nat) (P : list (list R)) (u v : nat -> R) : R :=
  Rsum n (fun i => Rsum n (fun j => u i * el2 P i j * v j)).
(** the forms in which a covariance may be handed to the likelihood: dense, inverted or factored, or block-diagonal *)
Definition given_as (cov : arr) (method : string) (n : nat) (C : list (list R)) : Prop :=
  (cov = A2 n n C /\ (method = "inverse"%string \/ method = "cholesky"%string)) \/
  (exists a m s, n = (a * m)%nat /\ cov = A3 a a m s /\ wf3 a a m s /\ (0 < a)%nat /\ (0 < m)%nat /\ denotes a a m s C).
