(** * C133: derivatives of the likelihood with respect to redshift distributions, biases and calibrations *)
From Coq Require Import Reals Lra Lia ZArith String List.
From Coquelicot Require Import Coquelicot.
From Verif Require Import Np Core Interp Integrate IntegrateSpec Background BgSpec BgPositive BgGrad Transfer Power ExPower SparseX Redshift Bias Probes AngularCl GradSpec Ad AdSpec AdPower AdProbes AdProbesFinal AdArrSpec AdHalofit AdHalofitSpec AdNan AdNanSpec AdNanFinal ExAdHalofit ExNuis ExNuisHalo ContFinal Likelihood LikelihoodSpec ProbesSpec CovSpec ExCov AclSpec FisherSpec AdLike AdLikeSpec AdSurvey AdJacSpec AdBack AdBackSpec ExAdLike ExJac AdNuis AdNuisSpec AdNuisFinal AdNuisHalo AdNuisLike AdNuisLikeProofs AdNuisBack AdNuisBackSpec AdNuisBackFinal ExNuisLike.
Import ListNotations.
Local Open Scope R_scope.
Opaque chi_table growth_table_ODE growth_table_gamma logspace.


(** C133  the likelihood with respect to nuisance parameters: moving noise, forward mode, reverse mode and jax.grad *)
Theorem C133_noise : forall (p : gprobe dual),
  (forall b, In b (gbins_of p) -> fst (gnz_gals b) <> 0) ->
  match hnoise num_dual p with
  | Ok l => exists v, (forall t, noise (read_probe (at_time t) p) = Ok (v t)) /\ (forall t, length (v t) = length l) /\ forall i, (i < length l)%nat -> tangent_of (fun t => el (v t) i) 0 (nth i l (0, 0))
  | Err e => forall t, noise (read_probe (at_time t) p) = Err e
  end.
Proof. exact nuisance_noise. Qed.
Print Assumptions C133_noise.
Theorem C133_survey : forall la c d (S : list (gprobe dual)) ells T nl P f_sky sparse data il method,
  linalg_ok la -> linalg_shaped la ->
  built c -> expanding c -> _gamma c = None -> physical c -> moderate c ->
  shallow (concat (map bins_of (values S))) -> off_clip chi c (values S) -> survey_smooth S -> (forall l, In l ells -> - 0.5 < l) ->
  (forall b, limber_epoch (values S) b -> spectrum_moves (fun c k a => nonlinear_matter_power c k a T nl) P c d b) ->
  probes_ok (values S) -> noise_positive (values S) -> (forall p b, In p S -> In b (gbins_of p) -> fst (gnz_gals b) <> 0) ->
  (forall l a, (l < length ells)%nat -> 1 / (1 + survey_zmax (values S)) <= a <= 1 -> 0 <= nl c ((el ells l + 1 / 2) / Rmax (chi c a) 1) a T) ->
  (2 <= length ells)%nat -> (forall l, (l < length ells)%nat -> 0 < knox_norm ells f_sky l) ->
  length data = (length ells * length (get_cl_ordering (values S)))%nat -> sparse = true \/ method = "inverse"%string \/ method = "cholesky"%string ->
  jvp_number (fun t => survey_likelihood la (displaced c d t) ells (moved S t) T nl f_sky sparse data il method)
    (hsurvey_likelihood num_dual (linalg_dual la) (dual_cosmo c d) ells S P f_sky sparse data il method).
Proof. exact nuisance_survey. Qed.
Print Assumptions C133_survey.
Theorem C133_default_survey : forall la c d (S : list (gprobe dual)) ells T GT f_sky sparse data il method,
  linalg_ok la -> linalg_shaped la ->
  built c -> expanding c -> _gamma c = None -> physical c -> moderate c ->
  (forall d, transfer_moves T GT c d) -> sigmasqr_default c 8.0 T <> 0 -> T c (1 / 10000) <> 0 -> _sigma8 c <> 0 ->
  shallow (concat (map bins_of (values S))) -> off_clip chi c (values S) -> survey_smooth S ->
  (forall b, limber_epoch (values S) b -> scale_found c b T /\ forall k, formula_smooth c k b T "takahashi2012") ->
  probes_ok (values S) -> noise_positive (values S) -> (forall p b, In p S -> In b (gbins_of p) -> fst (gnz_gals b) <> 0) ->
  (2 <= length ells)%nat -> (forall l, In l ells -> 0 <= l) -> (forall l, (l < length ells)%nat -> 0 < knox_norm ells f_sky l) ->
  length data = (length ells * length (get_cl_ordering (values S)))%nat -> sparse = true \/ method = "inverse"%string \/ method = "cholesky"%string ->
  jvp_number (fun t => survey_likelihood la (displaced c d t) ells (moved S t) T halofit_default f_sky sparse data il method)
    (hsurvey_likelihood num_dual (linalg_dual la) (dual_cosmo c d) ells S (ghalofit_default num_dual GT) f_sky sparse data il method).
Proof. exact nuisance_default_survey. Qed.
Print Assumptions C133_default_survey.
Theorem C133_programs : forall la c (S : list (gprobe R)) ells T nl P f_sky sparse data il method,
  built c -> _gamma c = None ->
  (forall p, hnoise num_R p = noise (read_probe as_is p)) /\
  ((forall b, limber_epoch (map (read_probe as_is) S) b -> 0 < b /\ D c b <> 0) -> (forall k a, P (lift_cosmo c) k a = nonlinear_matter_power c k a T nl) ->
   bind (hgaussian_cl_covariance_and_mean num_R (lift_cosmo c) ells S P f_sky sparse) (fun mc => Ok (fst mc, arr_of (snd mc))) =
     gaussian_cl_covariance_and_mean c (Array1 ells) (map (read_probe as_is) S) T nl f_sky sparse /\
   hsurvey_likelihood num_R (linalg_R la) (lift_cosmo c) ells S P f_sky sparse data il method = survey_likelihood la c ells (map (read_probe as_is) S) T nl f_sky sparse data il method).
Proof. exact nuisance_like_programs. Qed.
Print Assumptions C133_programs.
Theorem C133_transpose : forall c (S : list (gprobe param)) nl osc,
  (forall ells, survey_vjp_rows (hangular_cl num_back (back_cosmo c) ells (tracked S) (gmodel num_back nl osc))
    (fun d w => hangular_cl num_dual (dual_cosmo c d) ells (pushed w S) (gmodel num_dual nl osc))) /\
  (forall la ells f_sky sparse data il method, solve_linear la ->
   survey_vjp (hsurvey_likelihood num_back (linalg_back la) (back_cosmo c) ells (tracked S) (gmodel num_back nl osc) f_sky sparse data il method)
     (fun d w => hsurvey_likelihood num_dual (linalg_dual la) (dual_cosmo c d) ells (pushed w S) (gmodel num_dual nl osc) f_sky sparse data il method)).
Proof. exact nuisance_vjp. Qed.
Print Assumptions C133_transpose.
Theorem C133_grad : forall la c osc (S : list (gprobe param)) ells f_sky sparse data il method,
  linalg_ok la -> linalg_shaped la -> solve_linear la ->
  built c -> expanding c -> _gamma c = None -> physical c -> moderate c ->
  (forall d, transfer_moves (eh osc) (geh num_dual osc) c d) -> sigmasqr_default c 8.0 (eh osc) <> 0 -> eh osc c (1 / 10000) <> 0 -> _sigma8 c <> 0 ->
  shallow (concat (map bins_of (map (read_probe fst) S))) -> off_clip chi c (map (read_probe fst) S) -> survey_smooth (pushed (fun _ => 0) S) ->
  (forall b, limber_epoch (map (read_probe fst) S) b -> scale_found c b (eh osc) /\ forall k, formula_smooth c k b (eh osc) "takahashi2012") ->
  probes_ok (map (read_probe fst) S) -> noise_positive (map (read_probe fst) S) -> (forall p b, In p S -> In b (gbins_of p) -> fst (gnz_gals b) <> 0) ->
  (2 <= length ells)%nat -> (forall l, In l ells -> 0 <= l) -> (forall l, (l < length ells)%nat -> 0 < knox_norm ells f_sky l) ->
  length data = (length ells * length (get_cl_ordering (map (read_probe fst) S)))%nat -> sparse = true \/ method = "inverse"%string \/ method = "cholesky"%string ->
  exists b, hsurvey_likelihood num_back (linalg_back la) (back_cosmo c) ells (tracked S) (gmodel num_back true osc) f_sky sparse data il method = Ok b /\
    survey_likelihood la c ells (map (read_probe fst) S) (eh osc) halofit_default f_sky sparse data il method = Ok (fst b) /\
    forall d K w, below K w -> survey_smooth (pushed w S) ->
      exists f, (forall t, survey_likelihood la (displaced c d t) ells (moved (pushed w S) t) (eh osc) halofit_default f_sky sparse data il method = Ok (f t)) /\
        is_derive f 0 (paired (snd b 1) d K w).
Proof. exact nuisance_grad. Qed.
Print Assumptions C133_grad.
Example C133_case : let c := planck_s faint in built c /\ expanding c /\ _gamma c = None /\ physical c /\ moderate c /\ (forall d, transfer_moves eisenhu (geisenhu num_dual) c d) /\ sigmasqr_default c 8.0 eisenhu <> 0 /\ eisenhu c (1 / 10000) <> 0 /\ _sigma8 c <> 0 /\ shallow (concat (map bins_of (values mv_survey))) /\ off_clip chi c (values mv_survey) /\ survey_smooth mv_survey /\ (forall b, limber_epoch (values mv_survey) b -> scale_found c b eisenhu /\ forall k, formula_smooth c k b eisenhu "takahashi2012") /\ probes_ok (values mv_survey) /\ noise_positive (values mv_survey) /\ (forall p b, In p mv_survey -> In b (gbins_of p) -> fst (gnz_gals b) <> 0) /\ (2 <= length ell3)%nat /\ (forall l, In l ell3 -> 0 <= l) /\ (forall l, (l < length ell3)%nat -> 0 < knox_norm ell3 0.25 l) /\ (length ell3 * length (get_cl_ordering (values mv_survey)))%nat = 30%nat.
Proof. exact ex_nuisance_survey. Qed.
Example C133_case_oracles : exists la, linalg_ok la /\ linalg_shaped la /\ solve_linear la.
Proof. exact ex_oracles. Qed.
Example C133_case_grad : map (read_probe fst) mv_labelled = values mv_survey /\ (forall w, survey_smooth (pushed w mv_labelled)) /\ (forall p b, In p mv_labelled -> In b (gbins_of p) -> fst (gnz_gals b) <> 0).
Proof. exact ex_nuisance_grad. Qed.
