(** * C124 and C125: differentiating the likelihood *)
From Coq Require Import Reals List String.
From Coquelicot Require Import Coquelicot.
From Verif Require Import Np Core Sparse SparseSpec Likelihood LikelihoodSpec Integrate IntegrateSpec Interp AdRel Background BgSpec BgPositive BgFinal4 BgGrad Transfer Power Redshift Probes ProbesSpec AngularCl CovSpec ExCov AclSpec GradSpec FisherSpec ContFinal
  Ad AdSpec AdPower AdProbes AdArrSpec AdHalofit AdHalofitSpec ExAdProbes ExAdHalofit AdLike AdLikeSpec AdScore AdSurvey ExAdLike.
Local Open Scope R_scope.


(** C124  dual-number runs of the covariance and of the log-likelihood return the value and its derivative, from the parameters to the number *)
Theorem C124_programs : forall la c probes ells T nl P f_sky sparse data il method,
  built c -> _gamma c = None ->
  (forall mu C, ggaussian_log_likelihood num_R (linalg_R la) data mu C il method = gaussian_log_likelihood la data mu (arr_of C) il method) /\
  ((forall b, limber_epoch probes b -> 0 < b /\ D c b <> 0) -> (forall k a, P (lift_cosmo c) k a = nonlinear_matter_power c k a T nl) ->
   bind (ggaussian_cl_covariance_and_mean num_R (lift_cosmo c) ells probes P f_sky sparse) (fun mc => Ok (fst mc, arr_of (snd mc))) = gaussian_cl_covariance_and_mean c (Array1 ells) probes T nl f_sky sparse /\
   gsurvey_likelihood num_R (linalg_R la) (lift_cosmo c) ells probes P f_sky sparse data il method = survey_likelihood la c ells probes T nl f_sky sparse data il method).
Proof. exact like_programs. Qed.
Print Assumptions C124_programs.
Theorem C124_dense : forall la n C Cd data mu mud il method P,
  linalg_ok la -> linalg_shaped la -> curve2 n n C Cd -> curve1 n mu mud -> wf1 n data ->
  (forall s, symmetric n (C s)) -> pos_def n (C 0) -> method = "inverse"%string \/ method = "cholesky"%string -> is_inverse n (C 0) P ->
  exists v, gaussian_log_likelihood la data (mu 0) (A2 n n (C 0)) il method = Ok v /\
    ggaussian_log_likelihood num_dual (linalg_dual la) data mud (G2 n n Cd) il method =
      Ok (v, score n P (map (map snd) Cd) data (mu 0) (fun i => snd (nth i mud (0, 0))) il).
Proof. exact dense_score. Qed.
Print Assumptions C124_dense.
Theorem C124_sparse : forall la a n C Cd D Dd data mu mud il method P,
  linalg_ok la -> linalg_shaped la -> (0 < a)%nat -> (0 < n)%nat -> curve3 a a n C Cd -> curve2 (a * n) (a * n) D Dd ->
  (forall s, denotes a a n (C s) (D s)) -> curve1 (a * n) mu mud -> wf1 (a * n) data ->
  (forall s, symmetric (a * n) (D s)) -> pos_def (a * n) (D 0) -> is_inverse (a * n) (D 0) P ->
  exists v, gaussian_log_likelihood la data (mu 0) (A3 a a n (C 0)) il method = Ok v /\
    ggaussian_log_likelihood num_dual (linalg_dual la) data mud (G3 a a n Cd) il method =
      Ok (v, score (a * n) P (map (map snd) Dd) data (mu 0) (fun i => snd (nth i mud (0, 0))) il).
Proof. exact sparse_score. Qed.
Print Assumptions C124_sparse.
Theorem C124_survey : forall la c d probes ells T nl P f_sky sparse data il method,
  linalg_ok la -> linalg_shaped la ->
  built c -> expanding c -> _gamma c = None -> physical c -> moderate c ->
  shallow (concat (map bins_of probes)) -> off_clip chi c probes -> (forall l, In l ells -> - 0.5 < l) ->
  (forall b, limber_epoch probes b -> spectrum_moves (fun c k a => nonlinear_matter_power c k a T nl) P c d b) ->
  probes_ok probes -> noise_positive probes ->
  (forall l a, (l < length ells)%nat -> 1 / (1 + survey_zmax probes) <= a <= 1 -> 0 <= nl c ((el ells l + 1 / 2) / Rmax (chi c a) 1) a T) ->
  (2 <= length ells)%nat -> (forall l, (l < length ells)%nat -> 0 < knox_norm ells f_sky l) ->
  length data = (length ells * length (get_cl_ordering probes))%nat -> sparse = true \/ method = "inverse"%string \/ method = "cholesky"%string ->
  jvp_number (fun t => survey_likelihood la (displaced c d t) ells probes T nl f_sky sparse data il method)
    (gsurvey_likelihood num_dual (linalg_dual la) (dual_cosmo c d) ells probes P f_sky sparse data il method).
Proof. exact survey_jvp. Qed.
Print Assumptions C124_survey.
Theorem C124_default_survey : forall la c d probes ells T GT f_sky sparse data il method,
  linalg_ok la -> linalg_shaped la ->
  built c -> expanding c -> _gamma c = None -> physical c -> moderate c ->
  (forall d, transfer_moves T GT c d) -> sigmasqr_default c 8.0 T <> 0 -> T c (1 / 10000) <> 0 -> _sigma8 c <> 0 ->
  shallow (concat (map bins_of probes)) -> off_clip chi c probes ->
  (forall b, limber_epoch probes b -> scale_found c b T /\ forall k, formula_smooth c k b T "takahashi2012") ->
  probes_ok probes -> noise_positive probes -> (2 <= length ells)%nat -> (forall l, In l ells -> 0 <= l) -> (forall l, (l < length ells)%nat -> 0 < knox_norm ells f_sky l) ->
  length data = (length ells * length (get_cl_ordering probes))%nat -> sparse = true \/ method = "inverse"%string \/ method = "cholesky"%string ->
  jvp_number (fun t => survey_likelihood la (displaced c d t) ells probes T halofit_default f_sky sparse data il method)
    (gsurvey_likelihood num_dual (linalg_dual la) (dual_cosmo c d) ells probes (ghalofit_default num_dual GT) f_sky sparse data il method).
Proof. exact default_survey_jvp. Qed.
Print Assumptions C124_default_survey.
Example C124_case_oracles : exists la, linalg_ok la /\ linalg_shaped la.
Proof. exact oracles. Qed.
Example C124_case_dense : curve2 2 2 C_ex Cd_ex /\ curve1 2 mu_ex mud_ex /\ (forall s, symmetric 2 (C_ex s)) /\ pos_def 2 (C_ex 0) /\ is_inverse 2 (C_ex 0) P_ex.
Proof. exact ex_C124_dense. Qed.
Example C124_case_sparse : curve3 2 2 1 B_ex Bd_ex /\ curve2 (2 * 1) (2 * 1) C_ex Cd_ex /\ (forall s, denotes 2 2 1 (B_ex s) (C_ex s)) /\ curve1 (2 * 1) mu_ex mud_ex /\ (forall s, symmetric (2 * 1) (C_ex s)) /\ pos_def (2 * 1) (C_ex 0) /\ is_inverse (2 * 1) (C_ex 0) P_ex.
Proof. exact ex_C124_sparse. Qed.
Example C124_case_survey : let c := planck_s faint in built c /\ expanding c /\ _gamma c = None /\ physical c /\ moderate c /\ (forall d, transfer_moves eisenhu (geisenhu num_dual) c d) /\ sigmasqr_default c 8.0 eisenhu <> 0 /\ eisenhu c (1 / 10000) <> 0 /\ _sigma8 c <> 0 /\ shallow (concat (map bins_of ex_survey)) /\ off_clip chi c ex_survey /\ (forall b, limber_epoch ex_survey b -> scale_found c b eisenhu /\ forall k, formula_smooth c k b eisenhu "takahashi2012") /\ probes_ok ex_survey /\ noise_positive ex_survey /\ (2 <= length ell3)%nat /\ (forall l, In l ell3 -> 0 <= l) /\ (forall l, (l < length ell3)%nat -> 0 < knox_norm ell3 0.25 l) /\ (length ell3 * length (get_cl_ordering ex_survey))%nat = 18%nat.
Proof. exact ex_C124. Qed.


(** C125  the gradient of the likelihood with its log-determinant is not the score of the normal density: the trace term has the wrong sign *)
Theorem C125_gap_partial : forall la n C Cd data mu mud method P,
  linalg_ok la -> linalg_shaped la -> curve2 n n C Cd -> curve1 n mu mud -> wf1 n data ->
  (forall s, symmetric n (C s)) -> pos_def n (C 0) -> method = "inverse"%string \/ method = "cholesky"%string -> is_inverse n (C 0) P ->
  exists v g, ggaussian_log_likelihood num_dual (linalg_dual la) data mud (G2 n n Cd) true method = Ok (v, g) /\
    forall Q, (forall s, pos_def n (C s) -> is_inverse n (C s) (Q s)) ->
    is_derive (fun s => log_density n (C s) (Q s) data (mu s)) 0 (g - trace_prod n P (map (map snd) Cd)).
Proof. exact density_gap. Qed.
Print Assumptions C125_gap_partial.
Theorem C125_density_refuted : exists n C C' data mu v w,
  (forall s, wf2 n n (C s)) /\ (forall s, symmetric n (C s)) /\ pos_def n (C 0) /\ curve2 n n C C' /\ wf1 n data /\ wf1 n mu /\
  (forall la, linalg_ok la -> linalg_shaped la -> forall method, method = "inverse"%string \/ method = "cholesky"%string ->
     ggaussian_log_likelihood num_dual (linalg_dual la) data (map (fun x => (x, 0)) mu) (G2 n n C') true method = Ok v) /\
  (forall Q, (forall s, pos_def n (C s) -> is_inverse n (C s) (Q s)) -> is_derive (fun s => log_density n (C s) (Q s) data mu) 0 w) /\
  w < 0 < snd v.
Proof. exact density_refuted. Qed.
Print Assumptions C125_density_refuted.
Example C125_case : (exists la, linalg_ok la /\ linalg_shaped la) /\ curve2 2 2 C_ex Cd_ex /\ curve1 2 mu_ex mud_ex /\ (forall s, symmetric 2 (C_ex s)) /\ pos_def 2 (C_ex 0) /\ is_inverse 2 (C_ex 0) P_ex.
Proof. exact (conj oracles ex_C124_dense). Qed.
