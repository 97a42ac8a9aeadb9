(** * Specification: distances and lensing in curved universes *)
From Verif Require Import Np Core Background Redshift ProbesSpec.

(** comoving angular-diameter distance subtended by the radial comoving distance x (docstring of background.py 314-327) *)
Definition angular_distance (c : cosmology) (x : R) : R :=
  let K := 2997.92458 / sqrt (Rabs (_Omega_k c)) in
  if Rlt_dec 0 (_Omega_k c) then K * sinh (x / K) else if Rlt_dec (_Omega_k c) 0 then K * sin (x / K) else x.
(** lensing by matter at z of a source plane at z': 3/2 H0^2 Omega_m/c (1+z) f(chi) f(chi' - chi)/f(chi') with f the angular
    distance, times the spin-2 factor *)
Definition plane_lensing (c : cosmology) (ell z z' : R) : R :=
  3 / 2 * 100 ^ 2 * Omega_m c / 299792.458 * spin2 ell *
  ((1 + z) * (angular_distance c (dist c z) * angular_distance c (dist c z' - dist c z) / angular_distance c (dist c z'))).
