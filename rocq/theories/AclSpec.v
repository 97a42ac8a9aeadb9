(** * Specification for angular_cl *)
From Verif Require Import Np Core Background IntegrateSpec Power Redshift Bias Probes ProbesSpec CovSpec.

(** largest redshift of all bins of all probes *)
Definition survey_zmax (probes : list probe) : R := list_max (map (fun p => zmax_of (bins_of p)) probes).

(** P((l+1/2)/chi, a) dchi/da / chi^2, with chi kept above 1 Mpc/h where it divides *)
Definition limber_weight (c : cosmology) (T : transfer) (nl : nonlinear) (ell a : R) : R :=
  nl c ((ell + 1 / 2) / Rmax (chi c a) 1) a T * (2997.92458 / (a ^ 2 * sqrt (Esqr c a))) / Rmax (chi c a ^ 2) 1.

(** Limber integral of two kernels over the scale factor, Simpson with 512 panels *)
Definition limber (c : cosmology) (T : transfer) (nl : nonlinear) (zmax ell : R) (K1 K2 : R -> R) : R :=
  simpson (fun a => limber_weight c T nl ell a * K1 (1 / a - 1) * K2 (1 / a - 1)) (1 / (1 + zmax)) 1 512 / 299792.458 ^ 2.

(** kernel of the i-th tracer of all probes together *)
Definition survey_kernel (probes : list probe) (i : nat) (c : cosmology) (ell z : R) : R :=
  match tracer probes i with Some (p, k) => tracer_kernel p k c ell z | None => 0 end.

(** spectrum of the tracers i and j at multipole ell *)
Definition spectrum (c : cosmology) (T : transfer) (nl : nonlinear) (probes : list probe) (i j : nat) (ell : R) : R :=
  limber c T nl (survey_zmax probes) ell (survey_kernel probes i c ell) (survey_kernel probes j c ell).

Definition probes_ok (probes : list probe) : Prop := probes <> [] /\ forall p, In p probes -> probe_ok p.

(** every tracer has positive noise *)
Definition noise_positive (probes : list probe) : Prop :=
  forall p, In p probes -> exists v, noise p = Ok v /\ length v = length (bins_of p) /\ forall k, (k < length v)%nat -> 0 < el v k.
