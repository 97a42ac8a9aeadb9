(** * Property theorems C24-C26 and C83 (angular_cl.py) *)
From Coq Require Import Permutation.
From Coquelicot Require Import Coquelicot.
From Verif Require Import Np NpLemmas Core Interp Background BgSpec BgFinal4 Transfer Power PowerFinal Redshift Bias Probes ProbesSpec Sparse SparseSpec AngularCl CovSpec CovProofs CovFinal AclSpec AclProofs AclFinal ExCov ExProbes.

(** C24 *)
Theorem C24_pairs : forall c ells probes T nl,
  reachable c -> _gamma_growth c = false -> probes_ok probes ->
  exists rows, angular_cl c (Array1 ells) probes T nl = Ok rows /\ wf2 (length (get_cl_ordering probes)) (length ells) rows /\
  forall s i j l, nth_error (get_cl_ordering probes) s = Some (i, j) -> (l < length ells)%nat ->
  exists p k q m, tracer probes i = Some (p, k) /\ tracer probes j = Some (q, m) /\
    el2 rows s l = limber c T nl (survey_zmax probes) (el ells l) (tracer_kernel p k c (el ells l)) (tracer_kernel q m c (el ells l)).
Proof. exact angular_pairs. Qed.
Print Assumptions C24_pairs.
Theorem C24_reorder : forall c ells ps qs T nl rs rs',
  reachable c -> _gamma_growth c = false -> probes_ok ps -> Permutation ps qs ->
  angular_cl c (Array1 ells) ps T nl = Ok rs -> angular_cl c (Array1 ells) qs T nl = Ok rs' ->
  forall s i j s' i' j' l, nth_error (get_cl_ordering ps) s = Some (i, j) -> nth_error (get_cl_ordering qs) s' = Some (i', j') ->
  (l < length ells)%nat ->
  (tracer ps i = tracer qs i' /\ tracer ps j = tracer qs j') \/ (tracer ps i = tracer qs j' /\ tracer ps j = tracer qs i') ->
  el2 rs s l = el2 rs' s' l.
Proof. exact angular_reorder. Qed.
Print Assumptions C24_reorder.
Example C24_case : reachable Planck15 /\ _gamma_growth Planck15 = false /\ probes_ok probes3 /\ Permutation probes3 [nc_ex; wl_ex] /\
  tracer probes3 2 = tracer [nc_ex; wl_ex] 0.
Proof. exact ex_C24. Qed.

(** C25 *)
Theorem C25_psd : forall c ells probes T nl rows S,
  reachable c -> _gamma_growth c = false -> probes_ok probes ->
  (forall p d, In p probes -> In d (bins_of p) -> 0 <= nz_zmax d) ->
  (forall l a, (l < length ells)%nat -> 1 / (1 + survey_zmax probes) <= a <= 1 -> 0 <= nl c ((el ells l + 1 / 2) / Rmax (chi c a) 1) a T) ->
  angular_cl c (Array1 ells) probes T nl = Ok rows -> spectra_of (get_cl_ordering probes) rows S ->
  forall l, (l < length ells)%nat ->
  psdf (n_bins probes) (fun i j => S i j l) /\
  forall i j, (i < n_bins probes)%nat -> (j < n_bins probes)%nat -> 0 <= S i i l /\ S i j l ^ 2 <= S i i l * S j j l.
Proof. exact angular_psd. Qed.
Print Assumptions C25_psd.
Theorem C25_default_power : forall c ells probes T rows S,
  reachable c -> _gamma_growth c = false -> probes_ok probes ->
  (forall p d, In p probes -> In d (bins_of p) -> 0 <= nz_zmax d) -> sigmasqr_default c 8.0 T <> 0 -> (forall l, (l < length ells)%nat -> 0 <= el ells l) ->
  angular_cl c (Array1 ells) probes T halofit_default = Ok rows -> spectra_of (get_cl_ordering probes) rows S ->
  forall l, (l < length ells)%nat ->
  psdf (n_bins probes) (fun i j => S i j l) /\
  forall i j, (i < n_bins probes)%nat -> (j < n_bins probes)%nat -> 0 <= S i i l /\ S i j l ^ 2 <= S i i l * S j j l.
Proof. exact angular_psd_default. Qed.
Print Assumptions C25_default_power.
Example C25_case : reachable Planck15 /\ _gamma_growth Planck15 = false /\ probes_ok probes3 /\
  (forall p d, In p probes3 -> In d (bins_of p) -> 0 <= nz_zmax d) /\ sigmasqr_default Planck15 8.0 eisenhu <> 0.
Proof. exact ex_C25. Qed.

(** C26 *)
Theorem C26_layout : forall c ells probes T nl f_sky,
  reachable c -> _gamma_growth c = false -> probes_ok probes -> noise_total probes ->
  (2 <= length ells)%nat -> (forall l, (l < length ells)%nat -> knox_norm ells f_sky l <> 0) ->
  let ord := get_cl_ordering probes in let N := length ord in let n := length ells in
  exists sig noi mean s3 m2,
    angular_cl c (Array1 ells) probes T nl = Ok sig /\ noise_cl n probes = Ok noi /\
    gaussian_cl_covariance_and_mean c (Array1 ells) probes T nl f_sky true = Ok (mean, A3 N N n s3) /\
    gaussian_cl_covariance_and_mean c (Array1 ells) probes T nl f_sky false = Ok (mean, A2 (n * N) (n * N) m2) /\
    to_dense (A3 N N n s3) = Ok (A2 (n * N) (n * N) m2) /\
    length mean = (n * N)%nat /\
    (forall s l, (s < N)%nat -> (l < n)%nat -> el mean (s * n + l) = el2 sig s l) /\
    forall S, spectra_of ord (madd sig noi) S ->
    forall s t i j m k l l', nth_error ord s = Some (i, j) -> nth_error ord t = Some (m, k) -> (l < n)%nat -> (l' < n)%nat ->
      el2 m2 (s * n + l) (t * n + l') = if Nat.eqb l l' then knox S ells f_sky i j m k l else 0.
Proof. exact mean_and_covariance. Qed.
Print Assumptions C26_layout.
Theorem C26_mean_lacks_noise : forall c ells probes T nl f_sky sparse mean cov,
  reachable c -> _gamma_growth c = false -> probes_ok probes -> noise_positive probes ->
  (2 <= length ells)%nat -> gaussian_cl_covariance_and_mean c (Array1 ells) probes T nl f_sky sparse = Ok (mean, cov) ->
  exists sig noi, angular_cl c (Array1 ells) probes T nl = Ok sig /\ noise_cl (length ells) probes = Ok noi /\
  forall s i l, nth_error (get_cl_ordering probes) s = Some (i, i) -> (l < length ells)%nat ->
    el mean (s * length ells + l) < el2 sig s l + el2 noi s l.
Proof. exact mean_lacks_noise. Qed.
Print Assumptions C26_mean_lacks_noise.
Example C26_case : probes_ok probes3 /\ noise_total probes3 /\ noise_positive probes3 /\ forall l, (l < length ell3)%nat -> knox_norm ell3 0.25 l <> 0.
Proof. exact ex_C26. Qed.

(** C83 *)
Theorem C83_positive_definite : forall c ells probes T nl f_sky,
  reachable c -> _gamma_growth c = false -> probes_ok probes -> noise_positive probes ->
  (forall p d, In p probes -> In d (bins_of p) -> 0 <= nz_zmax d) ->
  (forall l a, (l < length ells)%nat -> 1 / (1 + survey_zmax probes) <= a <= 1 -> 0 <= nl c ((el ells l + 1 / 2) / Rmax (chi c a) 1) a T) ->
  (2 <= length ells)%nat -> (forall l, (l < length ells)%nat -> 0 < knox_norm ells f_sky l) ->
  exists mean d m, gaussian_cl_covariance_and_mean c (Array1 ells) probes T nl f_sky false = Ok (mean, A2 d d m) /\
    length mean = d /\ symmetric d m /\ pos_def d m.
Proof. exact covariance_end_to_end. Qed.
Print Assumptions C83_positive_definite.
Theorem C83_noise : forall probes,
  (forall p, In p probes -> (forall d, In d (bins_of p) -> 0 < nz_gals d) /\
    match p with PWL q => sigma_fits (length (wl_bins q)) (wl_sigma_e q) /\ forall k, (k < length (wl_bins q))%nat -> sigma_for (wl_sigma_e q) k <> 0 | PNC _ => True end) ->
  noise_positive probes.
Proof. exact noise_positive_suff. Qed.
Print Assumptions C83_noise.
Example C83_case : exists mean d m, gaussian_cl_covariance_and_mean Planck15 (Array1 ell3) probes3 eisenhu halofit_default 0.25 false = Ok (mean, A2 d d m) /\
  length mean = d /\ symmetric d m /\ pos_def d m.
Proof. exact ex_C83. Qed.
