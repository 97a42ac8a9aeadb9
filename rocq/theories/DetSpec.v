(** * Determinants of nested-list matrices: the specification side

    The determinant is mathcomp's (Leibniz formula) determinant of the matrix with the same entries. *)
From Verif Require Import Np.
From mathcomp Require Import all_ssreflect all_algebra.
From Verif Require Import Rfield.

Definition mx (r c : nat) (m : list (list R)) : 'M[R]_(r, c) := (\matrix_(i < r, j < c) el2 m i j)%R.
Definition det_of (n : nat) (m : list (list R)) : R := (\det (mx n n m))%R.
