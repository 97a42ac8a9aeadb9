(** * Specification: the halofit fitting formula as published

    Smith et al. (2003), appendix C; Takahashi et al. (2012), appendix.  [d] is the dimensionless linear power, [y] = k / k_sigma,
    [n] and [C] the effective index and curvature, [Om] the matter fraction, [Ow] and [w] those of dark energy.  The coefficients are
    quoted from the papers. *)
From Verif Require Import Np NpLemmas Core Background Transfer Power IntegrateSpec.

Definition dimensionless_power (c : cosmology) (k a : R) (T : transfer) : R := k ^ 3 * linear_matter_power c k a T / (2 * PI ^ 2).
(** Gaussian-smoothed variance, by Simpson's rule on the grid the code uses *)
Definition smoothed_variance (c : cosmology) (a : R) (T : transfer) (r : R) : R :=
  simpson (fun lk => dimensionless_power c (exp lk) a T * exp (- (exp lk * r) ^ 2)) (ln 1e-4) (ln 1e4) 256.

(** quasi-linear and halo terms, Smith et al. (C2)-(C4) *)
Definition quasi_linear (d y al be : R) : R := d * Rpower (1 + d) be / (1 + al * d) * exp (- (y / 4 + y ^ 2 / 8)).
Definition one_halo (y an bn cn ga mu nu f1 f2 f3 : R) : R :=
  an * Rpower y (3 * f1) / (1 + bn * Rpower y f2 + Rpower (cn * f3 * y) (3 - ga)) / (1 + mu / y + nu / y ^ 2).
Definition ten (x : R) : R := Rpower 10 x.

(** [nu0]: the constant of log10 nu_n *)
Definition smith_fit_with (nu0 d y n C Om Ow : R) : R :=
  let an := ten (1.4861 + 1.8369 * n + 1.6762 * n ^ 2 + 0.7940 * n ^ 3 + 0.1670 * n ^ 4 - 0.6206 * C) in
  let bn := ten (0.9463 + 0.9466 * n + 0.3084 * n ^ 2 - 0.9400 * C) in
  let cn := ten (-0.2807 + 0.6669 * n + 0.3214 * n ^ 2 - 0.0793 * C) in
  let ga := 0.8649 + 0.2989 * n + 0.1631 * C in
  let al := 1.3884 + 0.3700 * n - 0.1452 * n ^ 2 in
  let be := 0.8291 + 0.9854 * n + 0.3401 * n ^ 2 in
  let mu := ten (-3.5442 + 0.1908 * n) in
  let nu := ten (nu0 + 1.2857 * n) in
  let frac := Ow / (1 - Om) in
  let mix := fun flat open => frac * Rpower Om flat + (1 - frac) * Rpower Om open in
  quasi_linear d y al be + one_halo y an bn cn ga mu nu (mix (-0.0307) (-0.0732)) (mix (-0.0585) (-0.1423)) (mix 0.0743 0.0725).
(** log10 nu_n = 0.9589 + 1.2857 n *)
Definition smith_fit : R -> R -> R -> R -> R -> R -> R := smith_fit_with 0.9589.

Definition takahashi_fit (d y n C Om Ow w : R) : R :=
  let an := ten (1.5222 + 2.8553 * n + 2.3706 * n ^ 2 + 0.9903 * n ^ 3 + 0.2250 * n ^ 4 - 0.6038 * C + 0.1749 * Ow * (1 + w)) in
  let bn := ten (-0.5642 + 0.5864 * n + 0.5716 * n ^ 2 - 1.5474 * C + 0.2279 * Ow * (1 + w)) in
  let cn := ten (0.3698 + 2.0404 * n + 0.8161 * n ^ 2 + 0.5869 * C) in
  let ga := 0.1971 - 0.0843 * n + 0.8460 * C in
  let al := Rabs (6.0835 + 1.3373 * n - 0.1959 * n ^ 2 - 5.5274 * C) in
  let be := 2.0379 - 0.7354 * n + 0.3157 * n ^ 2 + 1.2490 * n ^ 3 + 0.3980 * n ^ 4 - 0.1682 * C in
  let nu := ten (5.2105 + 3.6902 * n) in
  quasi_linear d y al be + one_halo y an bn cn ga 0 nu (Rpower Om (-0.0307)) (Rpower Om (-0.0585)) (Rpower Om 0.0743).
