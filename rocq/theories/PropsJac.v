(** * C126 to C128: what forward mode returns is a value and a gradient, and reverse mode is its transpose *)
From Coq Require Import Reals List String.
From Coquelicot Require Import Coquelicot.
From Verif Require Import Np Core Sparse SparseSpec Likelihood LikelihoodSpec ExLikelihood Integrate IntegrateSpec Interp AdRel Background BgSpec BgPositive BgFinal4 BgGrad Transfer Power Redshift Probes ProbesSpec AngularCl CovSpec ExCov AclSpec GradSpec FisherSpec ContFinal
  Ad AdSpec AdPower AdProbes AdArrSpec AdHalofit AdHalofitSpec ExAdProbes ExAdHalofit AdLike AdLikeSpec AdScore AdSurvey ExAdLike AdJacSpec AdJac AdJacFinal ExJac AdBack AdBackSpec AdBackFinal.
Local Open Scope R_scope.


(** C126  asking for a derivative does not change the value, also where there is no derivative *)
Theorem C126_background : forall c d a da,
  built c -> let g := dual_cosmo c d in
  fst (gH num_dual g (a, da)) = H c a /\ fst (gOmega_m_a num_dual g (a, da)) = Omega_m_a c a /\ fst (gOmega_de_a num_dual g (a, da)) = Omega_de_a c a /\
  fst (gchi num_dual g (a, da)) = chi c a /\ fst (gf_k num_dual g (a, da)) = f_k c a /\ fst (gD num_dual g (a, da)) = D c a /\ fst (gf num_dual g (a, da)) = f_growth c a.
Proof. exact c_value_background. Qed.
Print Assumptions C126_background.
Theorem C126_power : forall c d k dk a da osc,
  built c -> let g := dual_cosmo c d in
  fst (geh num_dual osc g (k, dk)) = eh osc c k /\
  fst (glinear_matter_power num_dual g (k, dk) (a, da) (geh num_dual osc)) = linear_matter_power c k a (eh osc) /\
  forall p, value (ghalofit num_dual g (k, dk) (a, da) (geh num_dual osc) p) = halofit c k a (eh osc) p.
Proof. exact c_value_power. Qed.
Print Assumptions C126_power.
Theorem C126_spectra : forall c d T nl P ells probes,
  built c -> _gamma c = None -> (forall b, limber_epoch probes b -> 0 < b /\ D c b <> 0) -> AdJacSpec.rv_spectrum c d T nl P ->
  values (gangular_cl num_dual (dual_cosmo c d) ells probes P) = angular_cl c ells probes T nl.
Proof. exact c_value_spectra. Qed.
Print Assumptions C126_spectra.
Theorem C126_survey : forall c d la T nl P ells probes f_sky sparse data il method,
  built c -> linalg_sized la -> _gamma c = None -> (forall b, limber_epoch probes b -> 0 < b /\ D c b <> 0) -> AdJacSpec.rv_spectrum c d T nl P ->
  value (gsurvey_likelihood num_dual (linalg_dual la) (dual_cosmo c d) ells probes P f_sky sparse data il method) = survey_likelihood la c ells probes T nl f_sky sparse data il method.
Proof. exact c_value_survey. Qed.
Print Assumptions C126_survey.
Theorem C126_default : forall c d nl osc ells probes,
  built c -> _gamma c = None -> (forall b, limber_epoch probes b -> 0 < b /\ D c b <> 0) ->
  values (gangular_cl num_dual (dual_cosmo c d) ells probes (gmodel num_dual nl osc)) = angular_cl c ells probes (eh osc) (model_nl nl) /\
  forall la l f_sky sparse data il method, linalg_sized la ->
    value (gsurvey_likelihood num_dual (linalg_dual la) (dual_cosmo c d) l probes (gmodel num_dual nl osc) f_sky sparse data il method)
    = survey_likelihood la c l probes (eh osc) (model_nl nl) f_sky sparse data il method.
Proof. exact c_value_default. Qed.
Print Assumptions C126_default.
Example C126_case : let c := planck_s 0.8159 in built c /\ _gamma c = None /\ (forall b, limber_epoch ex_survey b -> 0 < b /\ D c b <> 0) /\ exists la, linalg_ok la /\ linalg_sized la.
Proof. exact ex_C126. Qed.
Example C126_case_spectrum : forall d nl osc, rv_spectrum (planck_s 0.8159) d (eh osc) (model_nl nl) (gmodel num_dual nl osc).
Proof. exact (fun d nl osc => rv_model (planck_s 0.8159) d (proj1 ex_C126) nl osc). Qed.


(** C127  the derivatives along all directions assemble into one gradient, also at kinks, clips and ties *)
Theorem C127_background : forall c a,
  let along G := has_gradient1 (fun d x => snd (G (dual_cosmo c d) (a, x))) in
  along (gH num_dual) /\ along (gOmega_m_a num_dual) /\ along (gOmega_de_a num_dual) /\ along (gdchioverda num_dual) /\ along (gchi num_dual) /\ along (ga_of_chi num_dual) /\
  along (gf_k num_dual) /\ along (gd_A num_dual) /\ along (gD num_dual) /\ along (gf num_dual).
Proof. exact c_gradient_background. Qed.
Print Assumptions C127_background.
Theorem C127_power : forall c k a osc,
  has_gradient1 (fun d x => snd (geh num_dual osc (dual_cosmo c d) (k, x))) /\
  has_gradient2 (fun d x y => snd (glinear_matter_power num_dual (dual_cosmo c d) (k, x) (a, y) (geh num_dual osc))) /\
  forall p, p = "smith2003"%string \/ p = "takahashi2012"%string ->
    exists v F, (forall d x y, ghalofit num_dual (dual_cosmo c d) (k, x) (a, y) (geh num_dual osc) p = Ok (v, F d x y)) /\ has_gradient2 F.
Proof. exact c_gradient_power. Qed.
Print Assumptions C127_power.
Theorem C127_spectra : forall c nl osc ells probes,
  rows_gradient (fun d => gangular_cl num_dual (dual_cosmo c d) ells probes (gmodel num_dual nl osc)).
Proof. exact c_gradient_spectra. Qed.
Print Assumptions C127_spectra.
Theorem C127_survey : forall c la nl osc ells probes f_sky sparse data il method,
  solve_linear la ->
  result_gradient (fun d => gsurvey_likelihood num_dual (linalg_dual la) (dual_cosmo c d) ells probes (gmodel num_dual nl osc) f_sky sparse data il method).
Proof. exact c_gradient_survey. Qed.
Print Assumptions C127_survey.
Example C127_case : solve_linear la_mx /\ linalg_ok la_mx.
Proof. exact (conj (proj1 la_mx_linear) la_mx_ok). Qed.


(** C128  reverse mode (jax.vjp, jax.grad) is the transpose of forward mode; jax.grad of the likelihood of a survey is its gradient *)
Theorem C128_background : forall c a,
  let transposed (G : forall A, num A -> gcosmo A -> A -> A) := vjp1 (G back num_back (back_cosmo c) (input a 8)) (fun d x => G dual num_dual (dual_cosmo c d) (a, x)) in
  transposed (@gH) /\ transposed (@gOmega_m_a) /\ transposed (@gOmega_de_a) /\ transposed (@gdchioverda) /\ transposed (@gchi) /\ transposed (@ga_of_chi) /\
  transposed (@gf_k) /\ transposed (@gd_A) /\ transposed (@gD) /\ transposed (@gf).
Proof. exact c_vjp_background. Qed.
Print Assumptions C128_background.
Theorem C128_power : forall c k a osc,
  vjp1 (geh num_back osc (back_cosmo c) (input k 8)) (fun d x => geh num_dual osc (dual_cosmo c d) (k, x)) /\
  vjp2 (glinear_matter_power num_back (back_cosmo c) (input k 8) (input a 9) (geh num_back osc)) (fun d x y => glinear_matter_power num_dual (dual_cosmo c d) (k, x) (a, y) (geh num_dual osc)) /\
  forall p, vjp_result2 (ghalofit num_back (back_cosmo c) (input k 8) (input a 9) (geh num_back osc) p) (fun d x y => ghalofit num_dual (dual_cosmo c d) (k, x) (a, y) (geh num_dual osc) p).
Proof. exact c_vjp_power. Qed.
Print Assumptions C128_power.
Theorem C128_spectra : forall c nl osc ells probes,
  vjp_rows (gangular_cl num_back (back_cosmo c) ells probes (gmodel num_back nl osc)) (fun d => gangular_cl num_dual (dual_cosmo c d) ells probes (gmodel num_dual nl osc)).
Proof. exact c_vjp_spectra. Qed.
Print Assumptions C128_spectra.
Theorem C128_survey : forall c la nl osc ells probes f_sky sparse data il method,
  solve_linear la ->
  vjp_result (gsurvey_likelihood num_back (linalg_back la) (back_cosmo c) ells probes (gmodel num_back nl osc) f_sky sparse data il method)
    (fun d => gsurvey_likelihood num_dual (linalg_dual la) (dual_cosmo c d) ells probes (gmodel num_dual nl osc) f_sky sparse data il method).
Proof. exact c_vjp_survey. Qed.
Print Assumptions C128_survey.
Theorem C128_grad : forall la c osc probes ells f_sky sparse data il method,
  linalg_ok la -> linalg_shaped la -> solve_linear la ->
  built c -> expanding c -> _gamma c = None -> physical c -> moderate c ->
  (forall d, transfer_moves (eh osc) (geh num_dual osc) c d) -> sigmasqr_default c 8.0 (eh osc) <> 0 -> eh osc c (1 / 10000) <> 0 -> _sigma8 c <> 0 ->
  shallow (concat (map bins_of probes)) -> off_clip chi c probes ->
  (forall b, limber_epoch probes b -> scale_found c b (eh osc) /\ forall k, formula_smooth c k b (eh osc) "takahashi2012") ->
  probes_ok probes -> noise_positive probes -> (2 <= length ells)%nat -> (forall l, In l ells -> 0 <= l) -> (forall l, (l < length ells)%nat -> 0 < knox_norm ells f_sky l) ->
  length data = (length ells * length (get_cl_ordering probes))%nat -> sparse = true \/ method = "inverse"%string \/ method = "cholesky"%string ->
  exists b, gsurvey_likelihood num_back (linalg_back la) (back_cosmo c) ells probes (gmodel num_back true osc) f_sky sparse data il method = Ok b /\
    survey_likelihood la c ells probes (eh osc) halofit_default f_sky sparse data il method = Ok (fst b) /\
    forall d, exists f, (forall t, survey_likelihood la (displaced c d t) ells probes (eh osc) halofit_default f_sky sparse data il method = Ok (f t)) /\
      is_derive f 0 (dot (slots (snd b 1)) d).
Proof. exact grad_survey. Qed.
Print Assumptions C128_grad.
Example C128_case_oracles : exists la, linalg_ok la /\ linalg_shaped la /\ solve_linear la.
Proof. exact ex_oracles. Qed.
Example C128_case : let c := planck_s faint in built c /\ expanding c /\ _gamma c = None /\ physical c /\ moderate c /\ (forall d, transfer_moves (eh false) (geh num_dual false) c d) /\ sigmasqr_default c 8.0 (eh false) <> 0 /\ eh false c (1 / 10000) <> 0 /\ _sigma8 c <> 0 /\ shallow (concat (map bins_of ex_survey)) /\ off_clip chi c ex_survey /\ (forall b, limber_epoch ex_survey b -> scale_found c b (eh false) /\ forall k, formula_smooth c k b (eh false) "takahashi2012") /\ probes_ok ex_survey /\ noise_positive ex_survey /\ (2 <= length ell3)%nat /\ (forall l, In l ell3 -> 0 <= l) /\ (forall l, (l < length ell3)%nat -> 0 < knox_norm ell3 0.25 l) /\ (length ell3 * length (get_cl_ordering ex_survey))%nat = 18%nat.
Proof. exact ex_C124. Qed.
