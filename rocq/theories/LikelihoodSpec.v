(** * Specification for the likelihood *)
From Verif Require Import Np Sparse SparseSpec DetSpec Likelihood.

(** what the linear-algebra library is trusted to do *)
Definition slogdet_ok (sld : nat -> list (list R) -> R * R) : Prop :=
  forall n m, wf2 n n m -> det_of n m <> 0 ->
    (fst (sld n m) = 1 \/ fst (sld n m) = -1) /\ fst (sld n m) * exp (snd (sld n m)) = det_of n m.
(** cho_solve of cho_factor solves C y = r for symmetric positive definite C *)
Definition cho_ok (cho : nat -> list (list R) -> list R -> list R) : Prop :=
  forall n m r, wf2 n n m -> symmetric n m -> pos_def n m -> wf1 n r ->
    is_matvec n n m (cho n m r) r /\ wf1 n (cho n m r).
Definition linalg_ok (la : linalg) : Prop :=
  linv_ok (la_inv la) /\ slogdet_ok (la_slogdet la) /\ cho_ok (la_cho_solve la).

(** chi^2 = (mu - data)^T P (mu - data) for a precision matrix P *)
Definition chi2 (n : nat) (P : list (list R)) (data mu : list R) : R :=
  quad n P (fun i => el mu i - el data i).

(** log density of the multivariate normal N(mu, C) at data, up to -n/2 log(2 pi); P is the inverse of C *)
Definition log_density (n : nat) (C P : list (list R)) (data mu : list R) : R :=
  - (1/2) * (chi2 n P data mu + ln (det_of n C)).
