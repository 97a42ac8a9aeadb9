(** * Specification of broadcasting for the power spectra *)
From Verif Require Import Np Interp.

(** number of elements; element i of an array stretched along its axis *)
Definition size (x : array_like) : nat := match x with Scalar _ => 1 | Array1 l => length l end.
Definition elem (x : array_like) (i : nat) : R :=
  match x with Scalar v => v | Array1 l => el l (if Nat.eqb (length l) 1 then 0 else i) end.
(** k and a broadcast to n elements *)
Definition broadcasts (k a : array_like) (n : nat) : Prop :=
  (0 < n)%nat /\ ((size k = n /\ size a = n) \/ (size k = 1%nat /\ size a = n) \/ (size k = n /\ size a = 1%nat)).
(** n values as returned after .squeeze(): a number when there is only one *)
Definition values (n : nat) (f : nat -> R) : array_like := if Nat.eqb n 1 then Scalar (f 0%nat) else Array1 (tab n f).
(** the prescriptions of halofit *)
Definition known (p : string) : Prop := p = "smith2003"%string \/ p = "takahashi2012"%string.
