(** * Property theorems C114: lensing in curved universes *)
From Coq Require Import Reals List.
From Verif Require Import Np Core Background BgSpec BgFinal4 Redshift RedshiftSpec Probes ProbesSpec CurvedSpec CurvedLensing.
Import ListNotations.
Local Open Scope R_scope.


(** C114  the kernel is the angular-distance lensing efficiency: only in flat universes *)
Theorem C114_flat_partial : forall c z z' g zm ell, reachable c -> _gamma_growth c = false -> 0 < Omega_m c -> 1 < ell -> -1 < z ->
  0 < dist c z < dist c z' -> 1 <= dist c z' ->
  exists v, weak_lensing_kernel c [nz_new (Delta z') g zm] [z] ell = Ok [[v]] /\
    (_Omega_k c = 0 -> v = plane_lensing c ell z z') /\
    (0 < _Omega_k c -> plane_lensing c ell z z' < v) /\
    (_Omega_k c < 0 -> dist c z' * sqrt (- _Omega_k c) < PI * 2997.92458 -> v < plane_lensing c ell z z').
Proof. exact curvature_ignored. Qed.
Print Assumptions C114_flat_partial.
Theorem C114_angular : forall c a,
  reachable c -> angular_distance c (chi c a) = f_k c a.
Proof. exact angular_is_transverse. Qed.
Print Assumptions C114_angular.
Theorem C114_kernel_refuted : exists c z z' g zm ell v, reachable c /\ expanding c /\ _gamma_growth c = false /\ 0 < Omega_m c /\ 1 < ell /\
  0 < dist c z < dist c z' /\ 1 <= dist c z' /\ weak_lensing_kernel c [nz_new (Delta z') g zm] [z] ell = Ok [[v]] /\ v <> plane_lensing c ell z z'.
Proof. exact curved_refuted. Qed.
Print Assumptions C114_kernel_refuted.
Example C114_case : (reachable open_lcdm /\ _gamma_growth open_lcdm = false /\ 0 < Omega_m open_lcdm /\ -1 < z_near /\
    0 < dist open_lcdm z_near < dist open_lcdm z_far /\ 1 <= dist open_lcdm z_far /\ 0 < _Omega_k open_lcdm) /\
  (reachable closed_lcdm /\ _gamma_growth closed_lcdm = false /\ 0 < Omega_m closed_lcdm /\ -1 < z_near /\
    0 < dist closed_lcdm z_near < dist closed_lcdm z_far /\ 1 <= dist closed_lcdm z_far /\ _Omega_k closed_lcdm < 0 /\
    dist closed_lcdm z_far * sqrt (- _Omega_k closed_lcdm) < PI * 2997.92458).
Proof. exact ex_curved. Qed.
