(** * C147: redshift distributions on arrays; C148: tabulated background functions on arrays *)
From Coquelicot Require Import Coquelicot.
From Verif Require Import Np Core Integrate Interp Redshift Background BgSpec Nd NdSpec NzArr NzArrSpec BgArr.
From Verif Require Import BgFinal4 NdProofs NzArrProofs NdRefuted.


(** C147  a distribution without source planes acts elementwise on vectors; without catalogues, on arrays of any shape *)
Theorem C147_vectors_partial : forall J,
  forall d d' z m,
  same_nz d d' -> nz_norm d' = None -> shp (value z) = [m] -> exists y, acall J d z = Ok y /\ elementwise (pz d') (value z) y.
Proof. exact call_vectors. Qed.
Print Assumptions C147_vectors_partial.
Theorem C147_shapes_partial : forall J,
  forall d d' z,
  analytic d d' -> nz_norm d' = None -> exists y, acall J d z = Ok y /\ elementwise (pz d') (value z) y.
Proof. exact call_shapes. Qed.
Print Assumptions C147_shapes_partial.

(** a source plane acts elementwise on numpy arrays, but is zero at its own redshift when that is a python float *)
Theorem C147_planes_partial : forall J,
  forall z0 zmax g x n s,
  shp x = n :: s -> exists r, acall J (ANz (ADelta z0) zmax) (NumpyArr x) = Ok r /\ elementwise (pz (nz_new (Delta z0) g zmax)) x r.
Proof. exact delta_arrays. Qed.
Print Assumptions C147_planes_partial.
Theorem C147_plane_refuted : forall J,
  exists z0, forall zmax g, exists r, acall J (ANz (ADelta z0) zmax) (PyFloat z0) = Ok r /\ shp r = [] /\ get r [] <> pz (nz_new (Delta z0) g zmax) z0.
Proof. exact plane_refuted. Qed.
Print Assumptions C147_plane_refuted.

(** a catalogue returns a vector of length one at a number, and wrong values on a matrix *)
Theorem C147_number_partial : forall J,
  forall zcat wt bw zmax g x,
  length wt = length zcat -> zcat <> [] ->
  exists y, acall J (ANz (AKde (Array1 zcat) (Array1 wt) bw) zmax) (PyFloat x) = Ok y /\ shp y = [1%nat] /\ get y [0%nat] = pz (nz_new (Kde zcat wt bw) g zmax) x.
Proof. exact call_kde_number. Qed.
Print Assumptions C147_number_partial.
Theorem C147_number_refuted : forall J,
  exists d d' x y, same_nz d d' /\ nz_norm d' = None /\ acall J d (PyFloat x) = Ok y /\ shp y = [1%nat].
Proof. exact number_refuted. Qed.
Print Assumptions C147_number_refuted.
Theorem C147_matrix_refuted : forall J,
  exists d d' z r, same_nz d d' /\ shp z = [2%nat; 1%nat] /\ apz J d (JaxArr z) = Ok r /\ shp r = [1%nat] /\ forall i, inside (shp z) i -> pz_fn d' (get z i) < get r [0%nat].
Proof. exact kde_matrix. Qed.
Print Assumptions C147_matrix_refuted.

(** one weight for the whole catalogue is rejected *)
Theorem C147_weight : forall J,
  forall zcat w bw zmax z,
  length zcat <> 1%nat -> (shp (value z) = [] \/ exists m, shp (value z) = [m]) -> apz J (ANz (AKde (Array1 zcat) (Scalar w) bw) zmax) z = Err TypeError.
Proof. exact kde_scalar_weight. Qed.
Print Assumptions C147_weight.
Example C147_case : same_nz (ANz (AShift (ANz (AKde (Array1 [0.5; 0.7]) (Array1 [1; 2]) 0.1) 2) 0.01) 2) (nz_new (Shift (nz_new (Kde [0.5; 0.7] [1; 2] 0.1) 1 2) 0.01) 1 2) /\
  analytic (ANz (AShift (ANz (ASmail 2 1.5 0.5) 3) 0.01) 3) (nz_new (Shift (nz_new (Smail 2 1.5 0.5) 1 3) 0.01) 1 3) /\ shp (value (NumpyArr (vec [0.1; 0.2; 0.3]))) = [3%nat].
Proof. exact ex_arrays. Qed.


(** C148  distances and growth are elementwise on vectors and columns; other matrices are rejected, except those with as many columns as the table has nodes *)
Theorem C148_distances_partial : forall c a n,
  fresh c -> shp a = [n] \/ shp a = [n; 1%nat] -> exists r, distance_nd c a = Ok r /\ elementwise (chi c) a r.
Proof. exact distance_arrays. Qed.
Print Assumptions C148_distances_partial.
Theorem C148_number_partial : forall c x,
  fresh c -> exists r, distance_nd c (num0 x) = Ok r /\ shp r = [1%nat] /\ get r [0%nat] = chi c x.
Proof. exact distance_number. Qed.
Print Assumptions C148_number_partial.
Theorem C148_growth_partial : forall c a n,
  fresh c -> shp a = [n] \/ shp a = [n; 1%nat] -> exists r, growth_nd c a = Ok r /\ elementwise (D c) a r.
Proof. exact growth_arrays. Qed.
Print Assumptions C148_growth_partial.
Theorem C148_rejects_partial : forall c a p s m,
  shp a = p :: s ++ [m] -> m <> 1%nat -> (m <> 256%nat -> distance_nd c a = Err TypeError) /\ (m <> 128%nat -> growth_nd c a = Err TypeError).
Proof. exact tables_raise. Qed.
Print Assumptions C148_rejects_partial.
Theorem C148_matrix_refuted : exists c a r, fresh c /\ expanding c /\ shp a = [1%nat; 256%nat] /\ (forall i, inside (shp a) i -> 0 < get a i <= 1) /\
  distance_nd c a = Ok r /\ shp r = shp a /\ inside (shp a) [0%nat; 1%nat] /\ get r [0%nat; 1%nat] = 0 /\ 0 < chi c (get a [0%nat; 1%nat]).
Proof. exact matrix_distances. Qed.
Print Assumptions C148_matrix_refuted.
Example C148_case : fresh Planck15 /\ _gamma_growth Planck15 = false /\ fresh planck_gamma /\ _gamma_growth planck_gamma = true /\ shp (vec [0.5; 0.6; 0.7]) = [3%nat] /\ shp (Nd [2%nat; 3%nat] (fun _ => 0.5)) = 2%nat :: [] ++ [3%nat].
Proof. repeat split. Qed.
