(** * C152: scale factors of rank two in the power spectra *)
From Coq Require Import Reals Lra Lia ZArith String List.
From Coquelicot Require Import Coquelicot.
From Verif Require Import Np Core Interp Background BgSpec Transfer Power PowerArrSpec ExPower BgFinal4 Nd NdSpec PowerNd PowerNdSpec PowerCol PowerColProofs ExPowerCol.
Import ListNotations.
Local Open Scope R_scope.

(** C152  the linear power spectrum broadcasts k of any shape against a vector or column of scale factors.
    The full statement has a of any shape, and halofit beside it: both false, see C152_rows and C152_halofit_refuted *)
Theorem C152_linear_partial : forall c T, fresh c -> forall k a m s, shp a = [m] \/ shp a = [m; 1%nat] -> bshape (shp (atleast1 k)) (shp a) = Some s ->
  exists r, linear_nd c k a T = Ok r /\ holds_on s r (fun i => linear_matter_power c (wave k i) (wave a i) T).
Proof. exact linear_nd_values. Qed.
Print Assumptions C152_linear_partial.
(** the table of k against a[:, None] *)
Theorem C152_table : forall c T, fresh c -> forall k v n, shp k = [n] -> (2 <= n)%nat -> (2 <= length v)%nat ->
  exists r, linear_nd c k (column_of v) T = Ok r /\ shp r = [length v; n] /\
  forall i j, (i < length v)%nat -> (j < n)%nat -> get r [i; j] = linear_matter_power c (get k [j]) (el v i) T.
Proof. exact table. Qed.
Print Assumptions C152_table.
(** a[None, :], and anything else whose last axis is not of length 1 (or by accident 128), raises *)
Theorem C152_rows : forall c T k a p t m, shp a = p :: t ++ [m] -> m <> 1%nat -> m <> 128%nat -> linear_nd c k a T = Err TypeError.
Proof. exact linear_rows. Qed.
Print Assumptions C152_rows.
(** halofit raises on every column of scale factors (of a length other than the 257 nodes of its quadrature), whatever follows *)
Theorem C152_halofit_raises : forall c T, fresh c -> forall k v s rest,
  (2 <= length v)%nat -> length v <> 257%nat -> bshape (shp (atleast1 k)) [length v; 1%nat] = Some s -> halofit_column c k v T rest = Err TypeError.
Proof. exact halofit_columns. Qed.
Print Assumptions C152_halofit_raises.
Theorem C152_halofit_refuted : exists c T k v, fresh c /\ reachable c /\ shp k = [2%nat] /\ length v = 2%nat /\
  (exists r, linear_nd c k (column_of v) T = Ok r /\ shp r = [2%nat; 2%nat] /\ get r [1%nat; 0%nat] = linear_matter_power c (get k [0%nat]) (el v 1) T) /\
  forall rest, halofit_column c k v T rest = Err TypeError.
Proof. exact columns_false. Qed.
Print Assumptions C152_halofit_refuted.
Example C152_case : fresh Planck15 /\ _gamma_growth Planck15 = false /\ reachable Planck15 /\ fresh planck_gamma /\ _gamma_growth planck_gamma = true /\ reachable planck_gamma /\
  shp (column_of acol) = [3%nat; 1%nat] /\ bshape (shp (atleast1 (vec [0.1; 1]))) [3%nat; 1%nat] = Some [3%nat; 2%nat] /\ (2 <= length acol)%nat /\ length acol <> 257%nat /\
  shp (Nd [1%nat; 3%nat] (fun i => el acol (nth 1 i 0%nat))) = 1%nat :: [] ++ [3%nat].
Proof. exact case_columns. Qed.
