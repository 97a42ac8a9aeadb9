(** * C129: three ways to a Fisher matrix *)
From Coq Require Import Reals List String.
From Coquelicot Require Import Coquelicot.
From Verif Require Import Np Core Sparse SparseSpec Likelihood LikelihoodSpec ExLikelihood Integrate IntegrateSpec Interp AdRel Background BgSpec BgPositive BgFinal4 BgGrad Transfer Power Redshift Probes ProbesSpec AngularCl CovSpec ExCov AclSpec GradSpec FisherSpec ContFinal
  Ad AdSpec AdPower AdProbes AdArrSpec AdHalofit AdHalofitSpec ExAdProbes ExAdHalofit AdLike AdLikeSpec AdScore AdSurvey ExAdLike AdJacSpec AdJac AdJacFinal ExJac AdBack AdBackSpec AdBackFinal AdOver AdOverSpec AdOverFinal AdFisher AdCurve ExOver.
Local Open Scope R_scope.
(** forward over reverse mode, and forward over forward mode *)
Local Notation NB := (num_back_over num_dual).
Local Notation NO := (num_over num_dual).


(** C129  minus the Hessian of the notebook's likelihood, dmu.T C^-1 dmu with jc.sparse, and the curvature of the likelihood are one matrix *)
Theorem C129_program : forall la c ells probes T nl P f_sky data,
  built c -> _gamma c = None ->
  (forall b, limber_epoch probes b -> 0 < b /\ D c b <> 0) -> (forall k a, P (lift_cosmo c) k a = nonlinear_matter_power c k a T nl) ->
  gnotebook_likelihood num_R la (lift_cosmo c) ells probes P f_sky data = notebook_likelihood la c ells probes T nl f_sky data.
Proof. exact notebook_program. Qed.
Print Assumptions C129_program.
Theorem C129_modes : forall la c e ells probes nl osc f_sky data,
  match gnotebook_likelihood NB la (hessian_cosmo c e) ells probes (gmodel NB nl osc) f_sky data with
  | Err x => forall d, gnotebook_likelihood NO la (twice_cosmo c e d) ells probes (gmodel NO nl osc) f_sky data = Err x
  | Ok y => forall d, exists z1 z2, gnotebook_likelihood NO la (twice_cosmo c e d) ells probes (gmodel NO nl osc) f_sky data = Ok (fst y, (z1, z2)) /\ gradient_along y d = z1 /\ hessian_along y d = z2
  end.
Proof. exact notebook_modes. Qed.
Print Assumptions C129_modes.
Theorem C129_routes : forall la c nl osc ells probes f_sky mu a n s ds J,
  built c -> _gamma c = None -> (forall x, limber_epoch probes x -> 0 < x /\ D c x <> 0) ->
  gaussian_cl_covariance_and_mean c (Array1 ells) probes (eh osc) (model_nl nl) f_sky true = Ok (mu, A3 a a n s) ->
  jacobian c ells probes nl osc (a * n) ds J -> let p := length ds in
  exists t F, inv (la_inv la) (A3 a a n s) = Ok t /\ Sparse.dot [A2 p (a * n) (transposed p J); t; A2 (a * n) p J] = Ok (A2 p p F) /\
    forall j, (j < p)%nat -> exists y, gnotebook_likelihood NB la (hessian_cosmo c (nth j ds nowhere)) ells probes (gmodel NB nl osc) f_sky mu = Ok y /\ fst (fst y) = 0 /\ (forall d, gradient_along y d = 0) /\
      forall i, (i < p)%nat -> - hessian_along y (nth i ds nowhere) = (el2 F i j + el2 F j i) / 2.
Proof. exact c_routes. Qed.
Print Assumptions C129_routes.
Theorem C129_survey : forall la c nl osc ells probes f_sky,
  linalg_ok la -> built c -> _gamma c = None -> (forall x, limber_epoch probes x -> 0 < x /\ D c x <> 0) ->
  probes_ok probes -> noise_positive probes -> (forall p d, In p probes -> In d (bins_of p) -> 0 <= nz_zmax d) ->
  (forall l a, (l < length ells)%nat -> 1 / (1 + survey_zmax probes) <= a <= 1 -> 0 <= model_nl nl c ((el ells l + 1 / 2) / Rmax (chi c a) 1) a (eh osc)) ->
  (2 <= length ells)%nat -> (forall l, (l < length ells)%nat -> 0 < knox_norm ells f_sky l) ->
  let N := length (get_cl_ordering probes) in let n := length ells in
  exists mu s m P, gaussian_cl_covariance_and_mean c (Array1 ells) probes (eh osc) (model_nl nl) f_sky true = Ok (mu, A3 N N n s) /\
    gaussian_cl_covariance_and_mean c (Array1 ells) probes (eh osc) (model_nl nl) f_sky false = Ok (mu, A2 (n * N) (n * N) m) /\ is_inverse (n * N) m P /\
    forall ds, let p := length ds in (exists J, jacobian c ells probes nl osc (n * N) ds J) /\ forall J, jacobian c ells probes nl osc (n * N) ds J ->
      exists t F, inv (la_inv la) (A3 N N n s) = Ok t /\ Sparse.dot [A2 p (n * N) (transposed p J); t; A2 (n * N) p J] = Ok (A2 p p F) /\
        (forall i j, (i < p)%nat -> (j < p)%nat -> el2 F i j = bilin (n * N) P (fun k => el2 J k i) (fun k => el2 J k j)) /\ symmetric p F /\ psd p F /\
        forall j, (j < p)%nat -> exists y, gnotebook_likelihood NB la (hessian_cosmo c (nth j ds nowhere)) ells probes (gmodel NB nl osc) f_sky mu = Ok y /\
          forall i, (i < p)%nat -> - hessian_along y (nth i ds nowhere) = el2 F i j.
Proof. exact survey_fisher. Qed.
Print Assumptions C129_survey.
Theorem C129_curvature : forall la c d probes ells osc f_sky,
  linalg_ok la -> linalg_shaped la ->
  built c -> expanding c -> _gamma c = None -> physical c -> moderate c ->
  (forall d, transfer_moves (eh osc) (geh num_dual osc) c d) -> sigmasqr_default c 8.0 (eh osc) <> 0 -> eh osc c (1 / 10000) <> 0 -> _sigma8 c <> 0 ->
  shallow (concat (map bins_of probes)) -> off_clip chi c probes ->
  (forall b, limber_epoch probes b -> D c b <> 0 /\ scale_found c b (eh osc) /\ forall k, formula_smooth c k b (eh osc) "takahashi2012") ->
  probes_ok probes -> noise_positive probes -> (2 <= length ells)%nat -> (forall l, In l ells -> 0 <= l) -> (forall l, (l < length ells)%nat -> 0 < knox_norm ells f_sky l) ->
  exists mu y, angular_cl c (Array1 ells) probes (eh osc) halofit_default = Ok mu /\
    gnotebook_likelihood (num_back_over num_dual) la (hessian_cosmo c d) ells probes (gmodel (num_back_over num_dual) true osc) f_sky (concat mu) = Ok y /\
    hessian_along y d <= 0 /\
    forall sparse method, sparse = true \/ method = "inverse"%string \/ method = "cholesky"%string -> exists f,
      (forall t, survey_likelihood la (displaced c d t) ells probes (eh osc) halofit_default f_sky sparse (concat mu) false method = Ok (f t)) /\
      is_lim (fun t => f t / t ^ 2) 0 (hessian_along y d / 2).
Proof. exact hessian_curvature. Qed.
Print Assumptions C129_curvature.
Example C129_case : let c := planck_s faint in built c /\ _gamma c = None /\ (forall x, limber_epoch ex_survey x -> 0 < x /\ D c x <> 0) /\ probes_ok ex_survey /\ noise_positive ex_survey /\ (forall p d, In p ex_survey -> In d (bins_of p) -> 0 <= nz_zmax d) /\ (forall l a, (l < length ell3)%nat -> 1 / (1 + survey_zmax ex_survey) <= a <= 1 -> 0 <= model_nl true c ((el ell3 l + 1 / 2) / Rmax (chi c a) 1) a (eh false)) /\ (2 <= length ell3)%nat /\ (forall l, (l < length ell3)%nat -> 0 < knox_norm ell3 0.25 l) /\ (exists la, linalg_ok la /\ linalg_shaped la).
Proof. exact ex_C129. Qed.
Example C129_case_jacobian : let n := (length ell3 * length (get_cl_ordering ex_survey))%nat in exists mu s J, n = 18%nat /\ gaussian_cl_covariance_and_mean (planck_s faint) (Array1 ell3) ex_survey (eh false) (model_nl true) 0.25 true = Ok (mu, A3 6 6 3 s) /\ jacobian (planck_s faint) ell3 ex_survey true false (6 * 3) [Direction 1 0 0 0 0 0 0 0; Direction 0 0 0 0 0 1 0 0] J.
Proof. exact ex_jacobian. Qed.
Example C129_case_curvature : let c := planck_s faint in built c /\ expanding c /\ _gamma c = None /\ physical c /\ moderate c /\ (forall d, transfer_moves (eh false) (geh num_dual false) c d) /\ sigmasqr_default c 8.0 (eh false) <> 0 /\ eh false c (1 / 10000) <> 0 /\ _sigma8 c <> 0 /\ shallow (concat (map bins_of ex_survey)) /\ off_clip chi c ex_survey /\ (forall b, limber_epoch ex_survey b -> D c b <> 0 /\ scale_found c b (eh false) /\ forall k, formula_smooth c k b (eh false) "takahashi2012") /\ probes_ok ex_survey /\ noise_positive ex_survey /\ (2 <= length ell3)%nat /\ (forall l, In l ell3 -> 0 <= l) /\ (forall l, (l < length ell3)%nat -> 0 < knox_norm ell3 0.25 l).
Proof. exact ex_C129_curvature. Qed.
