(** * Model of jax_cosmo/power.py

    Pointwise in (k, a): the code evaluates arrays k and a of the same length elementwise (a length-one array or a
    scalar a broadcasts).  Caches of the cosmology object are not threaded through: by theorem C33 the values of
    growth_factor and radial_comoving_distance do not depend on what was called before.  A transfer function is a
    function of (cosmo, k); its keyword arguments are fixed. *)
From Verif Require Import Np Core Interp Integrate Background Transfer.

Definition transfer := cosmology -> R -> R.

(** power.py 15-19 *)
Definition primordial_matter_power (c : cosmology) (k : R) : R := rpow k (_n_s c).

(** power.py 71-76 (int_sigma) *)
Definition int_sigma (c : cosmology) (Rr : R) (T : transfer) (logk : R) : R :=
  let k := exp logk in
  let x := k * Rr in
  let w := 3.0 * (sin x - x * cos x) / (x * x * x) in
  let pk := T c k ^ 2 * primordial_matter_power c k in
  k * (k * w) ^ 2 * pk.

(** result of romb with a positive divmax (never an error) *)
Definition romb_value (f : R -> R) (a b : R) (divmax : nat) : R :=
  match romb f a b divmax with Ok p => fst p | Err _ => 0 end.
(** result of simps with an even N (never an error) *)
Definition simps_value (f : R -> R) (a b : R) (N : nat) : R :=
  match simps f a b N with Ok v => v | Err _ => 0 end.

(** power.py 57-79 (sigmasqr); kmin and kmax default to 0.0001 and 1000.0; ksteps is unused *)
Definition sigmasqr (c : cosmology) (Rr : R) (T : transfer) (kmin kmax : R) : R :=
  1.0 / (2.0 * PI ^ 2) * romb_value (int_sigma c Rr T) (log10 kmin) (log10 kmax) 7.
Definition sigmasqr_default (c : cosmology) (Rr : R) (T : transfer) : R := sigmasqr c Rr T 0.0001 1000.0.

(** power.py 22-54 (linear_matter_power) *)
Definition linear_matter_power (c : cosmology) (k a : R) (T : transfer) : R :=
  let g := D c a in
  let t := T c k in
  let pknorm := _sigma8 c ^ 2 / sigmasqr_default c 8.0 T in
  primordial_matter_power c k * t ^ 2 * g ^ 2 * pknorm.

(** power.py 82-84 *)
Definition linear (c : cosmology) (k a : R) (T : transfer) : R := linear_matter_power c k a T.

(** power.py 94 *)
Definition hf_logr : list R := linspace (ln 1e-4) (ln 1e1) 256.

(** power.py 99-112: sigma^2 smoothed at exp(logr), one entry per table radius *)
Definition hf_int_sigma (c : cosmology) (a : R) (T : transfer) (r logk : R) : R :=
  let k := exp logk in
  let y := k * r in
  linear_matter_power c k 1.0 T * k ^ 3 * exp (- (y ^ 2)) / (2.0 * PI ^ 2) * D c a ^ 2.
Definition hf_sigma (c : cosmology) (a : R) (T : transfer) : list R :=
  map (fun lr => simps_value (hf_int_sigma c a T (exp lr)) (ln 1e-4) (ln 1e4) 256) hf_logr.

(** power.py 97-119: the non-linear scale *)
Definition R_nl (c : cosmology) (a : R) (T : transfer) : R :=
  clip_lo (exp (interp1 1.0 (hf_sigma c a T) hf_logr)) 1e-6.
Definition k_nl (c : cosmology) (a : R) (T : transfer) : R := 1.0 / R_nl c a T.

(** power.py 122-142 *)
Definition hf_res (c : cosmology) (a : R) (T : transfer) (logk : R) : R :=
  let k := exp logk in
  let y := k * (1.0 / k_nl c a T) in
  linear_matter_power c k 1.0 T * k ^ 3 * exp (- (y ^ 2)) * D c a ^ 2 / (2.0 * PI ^ 2).
Definition hf_dneff (c : cosmology) (a : R) (T : transfer) (logk : R) : R :=
  let y := exp logk * (1.0 / k_nl c a T) in 2 * hf_res c a T logk * y ^ 2.
Definition hf_dC (c : cosmology) (a : R) (T : transfer) (logk : R) : R :=
  let y := exp logk * (1.0 / k_nl c a T) in 4 * hf_res c a T logk * (y ^ 2 - y ^ 4).
Definition halofit_parameters (c : cosmology) (a : R) (T : transfer) : R * R * R :=
  let res0 := simps_value (hf_dneff c a T) (ln 1e-4) (ln 1e4) 256 in
  let res1 := simps_value (hf_dC c a T) (ln 1e-4) (ln 1e4) 256 in
  (k_nl c a T, res0 - 3.0, res0 ^ 2 + res1).

(** power.py 183-199: coefficients of smith2003 (a_n, b_n, c_n, gamma_n, alpha_n, beta_n, mu_n, nu_n) *)
Record hf_coeffs := HfCoeffs { hf_a : R; hf_b : R; hf_c : R; hf_gamma : R; hf_alpha : R; hf_beta : R; hf_mu : R; hf_nu : R }.
Definition hf_smith (n C : R) : hf_coeffs :=
  HfCoeffs
    (pow10 (1.4861 + 1.8369 * n + 1.6762 * n ^ 2 + 0.7940 * n ^ 3 + 0.1670 * n ^ 4 - 0.6206 * C))
    (pow10 (0.9463 + 0.9466 * n + 0.3084 * n ^ 2 - 0.9400 * C))
    (pow10 (-0.2807 + 0.6669 * n + 0.3214 * n ^ 2 - 0.0793 * C))
    (0.8649 + 0.2989 * n + 0.1631 * C)
    (1.3884 + 0.3700 * n - 0.1452 * n ^ 2)
    (0.8291 + 0.9854 * n + 0.3401 * n ^ 2)
    (pow10 (-3.5442 + 0.1908 * n))
    (pow10 (0.9585 + 1.2857 * n)).
(** power.py 200-229: coefficients of takahashi2012 *)
Definition hf_takahashi (n C om_de w : R) : hf_coeffs :=
  HfCoeffs
    (pow10 (1.5222 + 2.8553 * n + 2.3706 * n ^ 2 + 0.9903 * n ^ 3 + 0.2250 * n ^ 4 - 0.6038 * C
            + 0.1749 * om_de * (1 + w)))
    (pow10 (-0.5642 + 0.5864 * n + 0.5716 * n ^ 2 - 1.5474 * C + 0.2279 * om_de * (1 + w)))
    (pow10 (0.3698 + 2.0404 * n + 0.8161 * n ^ 2 + 0.5869 * C))
    (0.1971 - 0.0843 * n + 0.8460 * C)
    (Rabs (6.0835 + 1.3373 * n - 0.1959 * n ^ 2 - 5.5274 * C))
    (2.0379 - 0.7354 * n + 0.3157 * n ^ 2 + 1.2490 * n ^ 3 + 0.3980 * n ^ 4 - 0.1682 * C)
    0.0
    (pow10 (5.2105 + 3.6902 * n)).

(** power.py 233-249: (f1, f2, f3) *)
Definition hf_f_takahashi (om_m : R) : R * R * R :=
  (rpow om_m (-0.0307), rpow om_m (-0.0585), rpow om_m 0.0743).
Definition hf_f_smith (om_m frac : R) : R * R * R :=
  (frac * rpow om_m (-0.0307) + (1 - frac) * rpow om_m (-0.0732),
   frac * rpow om_m (-0.0585) + (1 - frac) * rpow om_m (-0.1423),
   frac * rpow om_m 0.0743 + (1 - frac) * rpow om_m 0.0725).

(** power.py 251-265: from the linear power, the scale and the coefficients to the non-linear power *)
Definition hf_assemble (k pklin knl : R) (co : hf_coeffs) (f : R * R * R) : R :=
  let '(f1, f2, f3) := f in
  let ff := fun x => x / 4.0 + x ^ 2 / 8.0 in
  let d2l := k ^ 3 * pklin / (2.0 * PI ^ 2) in
  let y := k / knl in
  let d2q := d2l * (rpow (1.0 + d2l) (hf_beta co) / (1 + hf_alpha co * d2l)) * exp (- ff y) in
  let d2hprime := hf_a co * rpow y (3 * f1)
                  / (1.0 + hf_b co * rpow y f2 + rpow (hf_c co * f3 * y) (3.0 - hf_gamma co)) in
  let d2h := d2hprime / (1.0 + hf_mu co / y + hf_nu co / y ^ 2) in
  2.0 * PI ^ 2 / k ^ 3 * (d2q + d2h).

(** power.py 145-267 (halofit) *)
Definition halofit (c : cosmology) (k a : R) (T : transfer) (prescription : string) : res R :=
  let pklin := linear_matter_power c k a T in
  let '(knl, n, C) := halofit_parameters c a T in
  let om_m := Omega_m_a c a in
  let om_de := Omega_de_a c a in
  let frac := om_de / (1.0 - om_m) in
  if String.eqb prescription "smith2003"
  then Ok (hf_assemble k pklin knl (hf_smith n C) (hf_f_smith om_m frac))
  else if String.eqb prescription "takahashi2012"
  then Ok (hf_assemble k pklin knl (hf_takahashi n C om_de (w c a)) (hf_f_takahashi om_m))
  else Err NotImplementedError.

(** a non-linear model called as nonlinear_fn(cosmo, k, a, transfer_fn=...): halofit with its default prescription,
    or [linear] (power.py 82-84) *)
Definition nonlinear := cosmology -> R -> R -> transfer -> R.
Definition halofit_default : nonlinear := fun c k a T =>
  match halofit c k a T "takahashi2012" with Ok v => v | Err _ => 0 end.

(** power.py 270-277 *)
Definition nonlinear_matter_power (c : cosmology) (k a : R) (T : transfer) (nl : nonlinear) : R := nl c k a T.
