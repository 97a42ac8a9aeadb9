(** * C150: the Hessian of the survey likelihood with respect to cosmology and nuisance parameters together *)
From Coq Require Import Reals Lra Lia ZArith String List.
From Coquelicot Require Import Coquelicot.
From Verif Require Import Np NpLemmas Core Ode OdeSpec OdeProofs Interp InterpProofs Integrate IntegrateSpec Background BgSpec BgAlgebra BgTables
  BgGrowth BgPositive BgProofs BgFinal BgFinal4 BgGrad Transfer TransferProofs Power ExPower ExCov Sparse SparseSpec Likelihood LikelihoodSpec Redshift RedshiftProofs Bias Probes ProbesSpec AngularCl GradSpec
  CovSpec AclSpec AclFinal Ad AdSpec AdFinal AdPower AdPowerFinal AdProbesFinal AdArrSpec AdHalofit AdHalofitSpec AdLikeSpec AdJacSpec ExAdProbes ExAdHalofit AdNuis AdNuisSpec AdNuisNz AdNuisBack AdNuisBackSpec AdNuisFinal AdFisher ExAdLike ExOver ExNuis ContFinal AdNan AdNanTwice
  JetSpec ExJet JetNuisSpec JetNuisFinal ExJetNuis AdNuisOver JetLikeSpec JetLine FinHalofit AdOver AdLike AdNuisLike JetFinal JetLike ExJetLike.
Import ListNotations.
Local Open Scope R_scope.
Opaque chi_table growth_table_ODE growth_table_gamma logspace.
(** jax.hessian: reverse mode run on dual numbers; forward over forward mode, exactly and on floating point numbers up to rounding *)
Local Notation NB := (num_back_over num_dual).
Local Notation NO := (num_over num_dual).
Local Notation NX := num_x2.

(** C150  along every line through the parameters of the cosmology and the slots of the survey, jax.hessian returns value, first and second derivative of the notebook's likelihood with its covariance held fixed.
    The full statement has twice differentiable redshift distributions for survey_bends: false, see C150_cutoff_refuted *)
Theorem C150_hessian_partial : forall la c nl osc (S : list (gprobe param)) ells f_sky mu a n s data d K w,
  let V := map (read_probe fst) S in
  built c -> expanding c -> _gamma c = None -> physical c -> moderate c -> transfer_smooth osc c -> sigmasqr_default c 8.0 (eh osc) <> 0 ->
  (nl = true -> eh osc c (1 / 10000) <> 0 /\ _sigma8 c <> 0 /\ forall b, limber_epoch V b -> scale_found c b (eh osc) /\ forall k, formula_smooth c k b (eh osc) "takahashi2012") ->
  shallow (concat (map bins_of V)) -> off_clip chi c V -> survey_bends (pushed w S) -> (forall l, In l ells -> - 0.5 < l) -> below K w ->
  gaussian_cl_covariance_and_mean c (Array1 ells) V (eh osc) (model_nl nl) f_sky true = Ok (mu, A3 a a n s) -> length data = length mu ->
  exists y f, hnotebook_likelihood NB la (hessian_cosmo c d) ells (tracked_over w S) (gmodel NB nl osc) f_sky data = Ok y /\
    (forall t, frozen_survey la c V (displaced c d t) (moved (pushed w S) t) ells (eh osc) (model_nl nl) f_sky data = Ok (f t)) /\
    fst (fst y) = f 0 /\ locally 0 (fun t => ex_derive f t) /\ is_derive f 0 (gradient_paired y d K w) /\ is_derive (Derive f) 0 (hessian_paired y d K w).
Proof. exact main_survey_hessian. Qed.
Print Assumptions C150_hessian_partial.
(** on data equal to the mean: the Fisher matrix of cosmology and nuisance parameters, mixed entries included *)
Theorem C150_fisher : forall la c nl osc (S : list (gprobe param)) ells f_sky mu a n s e v,
  let V := map (read_probe fst) S in
  built c -> _gamma c = None -> (forall b, limber_epoch V b -> 0 < b /\ D c b <> 0) ->
  gaussian_cl_covariance_and_mean c (Array1 ells) V (eh osc) (model_nl nl) f_sky true = Ok (mu, A3 a a n s) ->
  exists y, hnotebook_likelihood NB la (hessian_cosmo c e) ells (tracked_over v S) (gmodel NB nl osc) f_sky mu = Ok y /\
    fst (fst y) = 0 /\ forall d K w, below K w -> gradient_paired y d K w = 0 /\ exists me md,
    hangular_cl num_dual (dual_cosmo c e) (Array1 ells) (pushed v S) (gmodel num_dual nl osc) = Ok me /\
    hangular_cl num_dual (dual_cosmo c d) (Array1 ells) (pushed w S) (gmodel num_dual nl osc) = Ok md /\
    let F f g := vdot (map snd (concat f)) (sparse_dot_vec a n (inv_data (la_inv la) a n s) (map snd (concat g))) in
    - hessian_paired y d K w = (F md me + F me md) / 2.
Proof. exact main_survey_fisher. Qed.
Print Assumptions C150_fisher.
(** jax.jacfwd(jax.jacrev(f)) and jax.jacfwd(jax.jacfwd(f)) agree *)
Theorem C150_modes : forall la c e (S : list (gprobe param)) v ells nl osc f_sky data,
  match hnotebook_likelihood NB la (hessian_cosmo c e) ells (tracked_over v S) (gmodel NB nl osc) f_sky data with
  | Err x => forall d K w, below K w -> hnotebook_likelihood NO la (twice_cosmo c e d) ells (pushed_twice v w S) (gmodel NO nl osc) f_sky data = Err x
  | Ok y => forall d K w, below K w -> exists z1 z2, hnotebook_likelihood NO la (twice_cosmo c e d) ells (pushed_twice v w S) (gmodel NO nl osc) f_sky data = Ok (fst y, (z1, z2)) /\ gradient_paired y d K w = z1 /\ hessian_paired y d K w = z2
  end.
Proof. exact survey_modes. Qed.
Print Assumptions C150_modes.
(** the program on real numbers is the notebook's likelihood, and so is the function differentiated above, at rest *)
Theorem C150_program : forall la c (S : list (gprobe R)) ells T nl P f_sky data,
  built c -> _gamma c = None -> (forall b, limber_epoch (map (read_probe as_is) S) b -> 0 < b /\ D c b <> 0) ->
  (forall k a, P (lift_cosmo c) k a = nonlinear_matter_power c k a T nl) ->
  hnotebook_likelihood num_R la (lift_cosmo c) ells S P f_sky data = notebook_likelihood la c ells (map (read_probe as_is) S) T nl f_sky data.
Proof. exact survey_program. Qed.
Print Assumptions C150_program.
Theorem C150_program_here : forall la c probes ells T nl f_sky data,
  frozen_survey la c probes c probes ells T nl f_sky data = notebook_likelihood la c ells probes T nl f_sky data.
Proof. exact frozen_survey_here. Qed.
Print Assumptions C150_program_here.
Example C150_case : let c := planck_s faint in let V := map (read_probe fst) bd_slots in
  built c /\ expanding c /\ _gamma c = None /\ physical c /\ moderate c /\ transfer_smooth false c /\ sigmasqr_default c 8.0 (eh false) <> 0 /\
  (eh false c (1 / 10000) <> 0 /\ _sigma8 c <> 0 /\ forall b, limber_epoch V b -> scale_found c b (eh false) /\ forall k, formula_smooth c k b (eh false) "takahashi2012") /\
  shallow (concat (map bins_of V)) /\ off_clip chi c V /\ survey_bends (pushed bd_rates bd_slots) /\ (forall l, In l ell3 -> - 0.5 < l) /\ below 20 bd_rates /\
  (forall b, limber_epoch V b -> 0 < b /\ D c b <> 0) /\
  exists mu s, gaussian_cl_covariance_and_mean c (Array1 ell3) V (eh false) (model_nl true) 0.25 true = Ok (mu, A3 10 10 3 s).
Proof. exact ex_C150. Qed.

(** one bin z**a exp(-(z / z0)**b), 1 < b < 2, whose z0 is differentiated, anywhere in the survey: the second derivative of the likelihood is NaN *)
Theorem C150_cutoff : forall la c g (S : list (gprobe xdual2)) ells P f_sky data,
  let V := map (read_probe x2_value) S in
  built c -> expanding c -> _gamma c = None -> physical c -> moderate c -> ggamma g = None -> shallow (concat (map bins_of V)) -> probes_ok V -> noise_positive V ->
  (forall p b, In p S -> In b (gbins_of p) -> x2_value (gnz_gals b) <> 0) -> (2 <= length ells)%nat -> (forall l, (l < length ells)%nat -> 0 < knox_norm ells f_sky l) ->
  length data = (length ells * length (get_cl_ordering V))%nat -> (exists p d, In p S /\ In d (gbins_of p) /\ cutoff_moves d) ->
  exists y, hnotebook_likelihood NX la g ells S P f_sky data = Ok y /\ curvature y = Some SparseX.NaN.
Proof. exact notebook_cutoff. Qed.
Print Assumptions C150_cutoff.
Example C150_case_cutoff : let c := Planck15 in let V := map (read_probe x2_value) cut_survey in
  built c /\ expanding c /\ _gamma c = None /\ physical c /\ moderate c /\ shallow (concat (map bins_of V)) /\ probes_ok V /\ noise_positive V /\
  (forall p b, In p cut_survey -> In b (gbins_of p) -> x2_value (gnz_gals b) <> 0) /\ (2 <= length ell3)%nat /\ (forall l, (l < length ell3)%nat -> 0 < knox_norm ell3 0.25 l) /\
  length (repeat 0 9) = (length ell3 * length (get_cl_ordering V))%nat /\ exists p d, In p cut_survey /\ In d (gbins_of p) /\ cutoff_moves d.
Proof. exact ex_cut. Qed.
Theorem C150_cutoff_refuted : exists c (S : list (gprobe xdual2)) ells f_sky data, built c /\ expanding c /\ _gamma c = None /\ physical c /\ moderate c /\ shallow (concat (map bins_of (map (read_probe x2_value) S))) /\
  (forall p d q, In p S -> In d (gbins_of p) -> 0 <= q -> exists z, bends (fun t => pz (read_nz (x2_moving t) d) q) z) /\
  forall la g P, ggamma g = None -> exists y, hnotebook_likelihood NX la g ells S P f_sky data = Ok y /\ curvature y = Some SparseX.NaN.
Proof. exact cut_refuted. Qed.
Print Assumptions C150_cutoff_refuted.
