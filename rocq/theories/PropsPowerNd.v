(** * C151: power spectra on arrays of wavenumbers of any shape *)
From Coq Require Import Reals Lra Lia ZArith String List.
From Coquelicot Require Import Coquelicot.
From Verif Require Import Np Core Interp Background BgSpec Transfer Power PowerArrSpec ExPower Nd NdSpec PowerNd PowerNdSpec PowerNdProofs ExPowerNd.
Import ListNotations.
Local Open Scope R_scope.

(** C151  the linear power spectrum broadcasts k of any shape against a number or vector a, and drops axes of length 1 *)
Theorem C151_linear : forall c T, reachable c -> forall k a s, against k a s ->
  exists r, linear_grid c k a T = Ok r /\ holds_on s r (fun i => linear_matter_power c (wave k i) (epoch a i) T).
Proof. exact linear_grid_values. Qed.
Print Assumptions C151_linear.
(** the same for halofit where axes of length 1 come before all others; without that condition it is false, see C151_column_refuted *)
Theorem C151_halofit_partial : forall c T, reachable c -> forall k a s p, against k a s -> units_first s -> known p ->
  exists v, (forall i, inside s i -> halofit c (wave k i) (epoch a i) T p = Ok (v i)) /\ exists r, halofit_grid c k a T p = Ok r /\ holds_on s r v.
Proof. exact halofit_grid_values. Qed.
Print Assumptions C151_halofit_partial.
(** the grid of k[:, None] against a *)
Theorem C151_grid : forall c T, reachable c -> forall k l n p, shp k = [n; 1%nat] -> (2 <= n)%nat -> (2 <= length l)%nat -> known p ->
  exists u v, linear_grid c k (Array1 l) T = Ok u /\ halofit_grid c k (Array1 l) T p = Ok v /\ shp u = [n; length l] /\ shp v = [n; length l] /\
    forall i j, (i < n)%nat -> (j < length l)%nat ->
      get u [i; j] = linear_matter_power c (get k [i; 0%nat]) (el l j) T /\ halofit c (get k [i; 0%nat]) (el l j) T p = Ok (get v [i; j]).
Proof. exact grid. Qed.
Print Assumptions C151_grid.
(** shapes that do not broadcast raise; so does an unknown prescription *)
Theorem C151_mismatch : forall c T k a p, reachable c -> (forall s, ~ against k a s) -> linear_grid c k a T = Err TypeError /\ halofit_grid c k a T p = Err TypeError.
Proof. exact no_shape. Qed.
Print Assumptions C151_mismatch.
Theorem C151_unknown : forall c T k a s p, reachable c -> against k a s -> p <> "smith2003"%string -> p <> "takahashi2012"%string -> halofit_grid c k a T p = Err NotImplementedError.
Proof. exact unknown_nd. Qed.
Print Assumptions C151_unknown.
(** a column k[:, None] at one scale factor: n values from the linear power spectrum, n x n from halofit, the wanted ones on its diagonal *)
Theorem C151_column : forall c T, reachable c -> forall k x n p, shp k = [n; 1%nat] -> (2 <= n)%nat -> known p ->
  exists u v, linear_grid c k (Scalar x) T = Ok u /\ halofit_grid c k (Scalar x) T p = Ok v /\ shp u = [n] /\ shp v = [n; n] /\
    forall i, (i < n)%nat -> get u [i] = linear_matter_power c (get k [i; 0%nat]) x T /\ halofit c (get k [i; 0%nat]) x T p = Ok (get v [i; i]).
Proof. exact column. Qed.
Print Assumptions C151_column.
Theorem C151_column_refuted : exists c T k a s p, reachable c /\ against k a s /\ known p /\
  (exists u f, linear_grid c k a T = Ok u /\ holds_on s u f) /\ ~ exists v f, halofit_grid c k a T p = Ok v /\ holds_on s v f.
Proof. exact column_false. Qed.
Print Assumptions C151_column_refuted.
Example C151_case : reachable Planck15 /\
  against kcol (Array1 [0.5; 0.7; 1]) [2%nat; 3%nat] /\ against kmat (Array1 [0.5; 0.7; 1]) [2%nat; 3%nat] /\ against kmat (Scalar 1) [2%nat; 3%nat] /\ units_first [2%nat; 3%nat] /\
  units_first [1%nat; 3%nat] /\ ~ units_first [2%nat; 1%nat] /\ (forall s, ~ against kmat (Array1 [0.5; 1]) s) /\
  exists v, halofit_grid Planck15 kcol (Array1 [0.5; 0.7; 1]) eisenhu "takahashi2012" = Ok v /\ shp v = [2%nat; 3%nat] /\
    get v [0%nat; 1%nat] = halofit_default Planck15 0.1 0.7 eisenhu /\ get v [1%nat; 0%nat] = halofit_default Planck15 1 0.5 eisenhu.
Proof. exact case_nd. Qed.
