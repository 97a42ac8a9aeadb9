(** * Specification for the non-linear scale of halofit *)
From Verif Require Import Np Core Background Transfer Power IntegrateSpec.
Local Open Scope R_scope.

(** variance of the linear density at scale factor a smoothed with a Gaussian of radius r: the Simpson sum in ln k with
    256 panels between 1e-4 and 1e4 of k^3 P(k) exp(-(k r)^2) / (2 pi^2) *)
Definition smoothed_variance (P : R -> R) (g r : R) : R :=
  simpson (fun x => P (exp x) * exp x ^ 3 * exp (- (exp x * r) ^ 2) / (2 * PI ^ 2) * g ^ 2) (ln (1 / 10000)) (ln 10000) 256.
(** the 256 search radii: equal steps in ln r from 1e-4 to 10 *)
Definition search_radius (i : nat) : R := exp (ln (1 / 10000) + INR i * (ln 100000 / 255)).
