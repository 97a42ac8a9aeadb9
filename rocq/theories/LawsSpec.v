(** * Specification of linear changes of the data vector and of the restriction to one multipole *)
From Verif Require Import Np Sparse SparseSpec.

(** C' = A C A^T *)
Definition is_congruence (n : nat) (A C C' : list (list R)) : Prop :=
  wf2 n n C' /\ forall i j, (i < n)%nat -> (j < n)%nat ->
    el2 C' i j = Rsum n (fun k => Rsum n (fun l => el2 A i k * el2 C k l * el2 A j l)).

(** p permutes 0..n-1 *)
Definition permutes (n : nat) (p : nat -> nat) : Prop :=
  (forall i, (i < n)%nat -> (p i < n)%nat) /\ (forall i j, (i < n)%nat -> (j < n)%nat -> p i = p j -> i = j).
Definition reordered1 (n : nat) (p : nat -> nat) (v w : list R) : Prop :=
  wf1 n w /\ forall i, (i < n)%nat -> el w i = el v (p i).
Definition reordered2 (n : nat) (p : nat -> nat) (C C' : list (list R)) : Prop :=
  wf2 n n C' /\ forall i j, (i < n)%nat -> (j < n)%nat -> el2 C' i j = el2 C (p i) (p j).

(** the entries of a data vector (a spectra of n multipoles each, spectrum by spectrum) at multipole number k *)
Definition at_multipole (a n k : nat) (v w : list R) : Prop :=
  wf1 a w /\ forall i, (i < a)%nat -> el w i = el v (i * n + k).
