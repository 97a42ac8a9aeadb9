(** * Specification for bias.py and probes.py *)
From Verif Require Import Np Core Background IntegrateSpec Redshift RedshiftSpec Bias Probes.

(** largest element of a non-empty list *)
Definition list_max (l : list R) : R := match l with [] => 0 | x :: t => fold_right Rmax x t end.
Definition zmax_of (bins : list nz) : R := list_max (map nz_zmax bins).

(** comoving distance to redshift z *)
Definition dist (c : cosmology) (z : R) : R := chi c (1 / (1 + z)).

(** sqrt((l+2)!/(l-2)!)/(l+1/2)^2 *)
Definition spin2 (ell : R) : R := sqrt ((ell + 2) * (ell + 1) * ell * (ell - 1)) / (ell + 1 / 2) ^ 2.

(** lens at z, source plane at z': (chi' - chi)/chi', zero for sources in front of the lens; the denominator is kept
    above 1 Mpc/h *)
Definition distance_ratio (c : cosmology) (z z' : R) : R := Rmax (dist c z' - dist c z) 0 / Rmax (dist c z') 1.
(** averaged over the source distribution behind z *)
Definition efficiency (c : cosmology) (zmax : R) (d : nz) (z : R) : R :=
  match nz_fam d with
  | Delta z0 => distance_ratio c z z0
  | _ => simpson (fun z' => nz_density d z' * distance_ratio c z z') z zmax 256
  end.
(** 3 H0^2 Omega_m / (2c) (1+z) chi, with H0 = 100 and c in km/s *)
Definition lensing (c : cosmology) (zmax : R) (d : nz) (ell z : R) : R :=
  3 / 2 * 100 ^ 2 * Omega_m c / 299792.458 * spin2 ell * ((1 + z) * dist c z * efficiency c zmax d z).

(** n(z) b(z) H(z) *)
Definition clustering (c : cosmology) (d : nz) (b : bias) (z : R) : R :=
  nz_density d z * bias_at b c z * H c (1 / (1 + z)).
(** the nonlinear-alignment kernel: -C1 rho_crit Omega_m / D *)
Definition alignment (c : cosmology) (d : nz) (b : bias) (ell z : R) : R :=
  - (5e-14 * 277500000000) * Omega_m c / D c (1 / (1 + z)) * spin2 ell * clustering c d b z.

(** bin k's element of an argument that is one value or one per bin *)
Definition bias_for (ba : bias_arg) (k : nat) : bias :=
  match ba with OneBias b => b | BiasList bs => nth k bs (constant_linear_bias 0) end.
Definition m_for (m : m_arg) (k : nat) : R := match m with MScalar x => x | MList ms => el ms k end.
Definition sigma_for (s : sigma_arg) (k : nat) : R := match s with SScalar x => x | SList ss => el ss k end.

(** kernel of bin k of a probe *)
Definition tracer_kernel (p : probe) (k : nat) (c : cosmology) (ell z : R) : R :=
  match p with
  | PWL q => (1 + m_for (wl_m q) k) *
      (lensing c (zmax_of (wl_bins q)) (nth_nz (wl_bins q) k) ell z +
       match wl_ia q with None => 0 | Some b => alignment c (nth_nz (wl_bins q) k) (bias_for b k) ell z end)
  | PNC q => clustering c (nth_nz (nc_bins q) k) (bias_for (nc_bias q) k) z
  end.

(** arguments that are lists have one element per bin *)
Definition bias_fits (n : nat) (ba : bias_arg) : Prop := match ba with OneBias _ => True | BiasList bs => length bs = n end.
Definition m_fits (n : nat) (m : m_arg) : Prop := match m with MScalar _ => True | MList ms => length ms = n end.
Definition sigma_fits (n : nat) (s : sigma_arg) : Prop := match s with SScalar _ => True | SList ss => length ss = n end.
Definition no_delta (bins : list nz) : Prop := forall d, In d bins -> is_delta d = false.
(** a usable probe: at least one bin, lists of the right length, no delta bins where they are not supported *)
Definition probe_ok (p : probe) : Prop :=
  bins_of p <> [] /\
  match p with
  | PWL q => m_fits (length (wl_bins q)) (wl_m q) /\
             match wl_ia q with None => True | Some b => bias_fits (length (wl_bins q)) b /\ no_delta (wl_bins q) end
  | PNC q => bias_fits (length (nc_bins q)) (nc_bias q) /\ no_delta (nc_bins q)
  end.
