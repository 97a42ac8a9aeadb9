(** * Forward-mode differentiation of the likelihood with respect to nuisance parameters

    probes.py (noise) and angular_cl.py (noise, covariance) over the numbers of AdNuis.v: gals_per_arcmin2 is a number as well,
    so the noise moves.  sigma_e is configuration. *)
From Verif Require Import Np Core Sparse Interp Integrate Background Redshift Probes AngularCl Likelihood Ad AdPower AdProbes AdLike AdNuis.

Section Programs.
Context {A : Type} (N : num A) (ga : glinalg A).
Local Infix "*" := (nmul N) : ad_scope.
Local Infix "/" := (ndiv N) : ad_scope.
Local Notation "' x" := (cst N x%R) (at level 1, format "' x") : ad_scope.
Local Open Scope ad_scope.

(** redshift.py 46-49 *)
Definition hgals (d : gnz A) : A := gnz_gals d * 'steradian_to_arcmin2.
(** probes.py 212-225, 276-283 *)
Definition hnoise (p : gprobe A) : res (list A) :=
  match p with
  | GPWL q =>
      let ngals := map hgals (gwl_bins q) in
      match gwl_sigma_e q with
      | SScalar s => Ok (map (fun g => '(s ^ 2) / g) ngals)
      | SList ss => bcast (fun s g => '(s ^ 2) / g) ss ngals
      end
  | GPNC q => Ok (map (fun d => '1.0 / hgals d) (gnc_bins q))
  end.
(** angular_cl.py 104-120 *)
Definition hnoise_cl (n_ell : nat) (probes : list (gprobe A)) : res (list (list A)) :=
  bind (mapM hnoise probes) (fun ns =>
  let nv := concat ns in
  Ok (map (fun ij => let delta := (1.0 - clip (absdiff (fst ij) (snd ij)) 0.0 1.0)%R in
                     repeat (nth (fst ij) nv '0 * 'delta * '1) n_ell) (hcl_ordering probes))).
(** angular_cl.py 123-166 *)
Definition hgaussian_cl_covariance (ell : list R) (probes : list (gprobe A)) (cl_signal cl_noise : list (list A)) (f_sky : R) (sparse : bool) : res (garr A) :=
  let n_ell := length ell in
  let cl_obs := map2 (gvadd N) cl_signal cl_noise in
  let n_cls := length cl_obs in
  bind (cov_norm ell f_sky) (fun norm =>
  bind (cov_blocks_ordering (hcl_ordering probes)) (fun blocks =>
  let rows := map (gcov_row N cl_obs norm) blocks in
  if negb (Nat.eqb (length rows) (n_cls * n_cls)) then Err TypeError
  else if sparse then Ok (G3 n_cls n_cls n_ell (chunk n_cls n_cls rows))
  else
    let blocks4 := map (fun cov => map (fun row => gvmul N cov (map (cst N) row)) (eye n_ell)) rows in
    Ok (G2 (n_ell * n_cls) (n_ell * n_cls) (concat (map (ghstack n_ell) (chunk n_cls n_cls blocks4)))))).
(** angular_cl.py 169-199 *)
Definition hgaussian_cl_covariance_and_mean (c : gcosmo A) (ell : list R) (probes : list (gprobe A)) (P : gspectrum A) (f_sky : R) (sparse : bool) : res (list A * garr A) :=
  bind (hangular_cl N c (Array1 ell) probes P) (fun cl_signal =>
  bind (hnoise_cl (length ell) probes) (fun cl_noise =>
  bind (hgaussian_cl_covariance ell probes cl_signal cl_noise f_sky sparse) (fun cov =>
  Ok (concat cl_signal, cov)))).
(** likelihood.py 9-61 of mean and covariance at the parameters of the cosmology and of the probes, design.md 90-97 *)
Definition hsurvey_likelihood (c : gcosmo A) (ell : list R) (probes : list (gprobe A)) (P : gspectrum A) (f_sky : R) (sparse : bool)
    (data : list R) (include_logdet : bool) (inverse_method : string) : res A :=
  bind (hgaussian_cl_covariance_and_mean c ell probes P f_sky sparse) (fun mc =>
  ggaussian_log_likelihood N ga data (fst mc) (snd mc) include_logdet inverse_method).
End Programs.
