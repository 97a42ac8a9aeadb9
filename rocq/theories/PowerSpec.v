(** * Specification for the matter power spectrum *)
From Verif Require Import Np IntegrateSpec.

(** Fourier transform of a spherical top hat *)
Definition tophat (x : R) : R := 3 * (sin x - x * cos x) / x ^ 3.
(** integrand of the variance at radius r, per unit ln k, for a spectrum P: k^3 P(k) W(kr)^2 / (2 pi^2) *)
Definition variance_density (P : R -> R) (r x : R) : R :=
  exp x ^ 3 * P (exp x) * tophat (exp x * r) ^ 2 / (2 * PI ^ 2).
(** the variance functional the code uses: Romberg with 128 panels over ln k from log10 kmin to log10 kmax *)
Definition code_variance (P : R -> R) (r kmin kmax : R) : R :=
  romberg (variance_density P r) (log10 kmin) (log10 kmax) 7 7.
