(** * C139: gradients of the survey likelihood in floating point *)
From Coq Require Import Reals Lra Lia ZArith String List.
From Coquelicot Require Import Coquelicot.
From Verif Require Import SparseX AdNan AdNanSpec AdNanFinal.
From Verif Require Import Np Core Sparse SparseSpec Likelihood LikelihoodSpec Interp Integrate IntegrateSpec Background BgSpec BgPositive Transfer TransferProofs Power ExPower Redshift Bias Probes ProbesSpec AngularCl AclSpec CovSpec CovPsd GradSpec ExCov Ad AdSpec AdPower AdProbes AdProbesFinal AdArrSpec AdHalofit AdHalofitSpec AdLike AdLikeSpec AdNuis AdNuisSpec AdNuisFinal AdNuisLike ExAdHalofit FinSpec ExFin AdNuisBack AdNuisBackSpec XBack XBackSpec XBackFinal ExXBack XLike XLikeFinal ExXLike.
Import ListNotations.
Local Open Scope R_scope.
Opaque chi_table growth_table_ODE growth_table_gamma logspace.
(** the cosmology whose parameters move with the tangents of their slots, and the one at rest *)
Local Notation C g := (fun w t => read_cosmo (leaf_at w t) g).
Local Notation c0 g := (read_cosmo fst g).


(** C139  jax.jvp and jax.grad of the log-likelihood of a survey over numbers with infinities and NaN return its value and its derivatives *)
Theorem C139_jvp : forall la xl (nl : bool) g (S : list (gprobe xdual)) ells T GT f_sky sparse data il method,
  let V := values (map plain_probe S) in
  linalg_ok la -> linalg_shaped la -> exact_on_finite la xl ->
  finite_cosmo g -> (forall p, In p S -> finite_probe p) -> expanding (cosmo_at 0 g) -> _gamma (cosmo_at 0 g) = None -> physical (cosmo_at 0 g) -> moderate (cosmo_at 0 g) ->
  transfer_carried T GT g -> sigmasqr_default (cosmo_at 0 g) 8.0 T <> 0 ->
  shallow (concat (map bins_of V)) -> off_clip chi (cosmo_at 0 g) V -> survey_smooth (map plain_probe S) ->
  (if nl then T (cosmo_at 0 g) (1 / 10000) <> 0 /\ _sigma8 (cosmo_at 0 g) <> 0 /\
     forall b, limber_epoch V b -> scale_found (cosmo_at 0 g) b T /\ forall k, formula_smooth (cosmo_at 0 g) k b T "takahashi2012" else True) ->
  probes_ok V -> noise_positive V -> (forall p b, In p S -> In b (gbins_of p) -> x_val (gnz_gals b) <> 0) ->
  (2 <= length ells)%nat -> (forall l, In l ells -> 0 <= l) -> (forall l, (l < length ells)%nat -> 0 < knox_norm ells f_sky l) ->
  length data = (length ells * length (get_cl_ordering V))%nat -> sparse = true \/ method = "inverse"%string \/ method = "cholesky"%string ->
  exists f x, (forall t, survey_likelihood la (cosmo_at t g) ells (probes_at t S) T (if nl then halofit_default else linear) f_sky sparse data il method = Ok (f t)) /\
    hsurvey_likelihood num_x (linalg_x xl) g ells S (if nl then ghalofit_default num_x GT else fun g k a => glinear_matter_power num_x g k a GT) f_sky sparse data il method = Ok x /\ carries f x.
Proof. exact finite_survey. Qed.
Print Assumptions C139_jvp.
Theorem C139_grad : forall la xl (nl osc : bool) g (S : list (gprobe leaf)) ells f_sky sparse data il method,
  let V := map (read_probe fst) S in
  linalg_ok la -> linalg_shaped la -> exact_on_finite la xl ->
  expanding (c0 g) -> _gamma (c0 g) = None -> physical (c0 g) -> moderate (c0 g) -> eh_regular osc (c0 g) -> sigmasqr_default (c0 g) 8.0 (eh osc) <> 0 ->
  shallow (concat (map bins_of V)) -> off_clip chi (c0 g) V -> survey_smooth (map (probe_map all_move) S) ->
  (if nl then eh osc (c0 g) (1 / 10000) <> 0 /\ _sigma8 (c0 g) <> 0 /\
     forall b, limber_epoch V b -> scale_found (c0 g) b (eh osc) /\ forall k, formula_smooth (c0 g) k b (eh osc) "takahashi2012" else True) ->
  probes_ok V -> noise_positive V -> (forall p b, In p S -> In b (gbins_of p) -> fst (gnz_gals b) <> 0) ->
  (2 <= length ells)%nat -> (forall l, In l ells -> 0 <= l) -> (forall l, (l < length ells)%nat -> 0 < knox_norm ells f_sky l) ->
  length data = (length ells * length (get_cl_ordering V))%nat -> sparse = true \/ method = "inverse"%string \/ method = "cholesky"%string ->
  exists f x, (forall K w t, below K w -> survey_likelihood la (C g w t) ells (survey_at w t S) (eh osc) (if nl then halofit_default else linear) f_sky sparse data il method = Ok (f w t)) /\
    hsurvey_likelihood num_xb (linalg_xb xl) (xcosmo g) ells (xprobes S) (gmodel num_xb nl osc) f_sky sparse data il method = Ok x /\ graded f x.
Proof. exact grad_survey. Qed.
Print Assumptions C139_grad.
Example C139_case_oracles : exists la xl, linalg_ok la /\ linalg_shaped la /\ exact_on_finite la xl.
Proof. exact ex_exact. Qed.
Example C139_case_jvp : let g := planck_x faint in let S := mvx_survey in let V := values (map plain_probe S) in finite_cosmo g /\ (forall p, In p S -> finite_probe p) /\ expanding (cosmo_at 0 g) /\ _gamma (cosmo_at 0 g) = None /\ physical (cosmo_at 0 g) /\ moderate (cosmo_at 0 g) /\ transfer_carried eisenhu (geisenhu num_x) g /\ sigmasqr_default (cosmo_at 0 g) 8.0 eisenhu <> 0 /\ shallow (concat (map bins_of V)) /\ off_clip chi (cosmo_at 0 g) V /\ survey_smooth (map plain_probe S) /\ (eisenhu (cosmo_at 0 g) (1 / 10000) <> 0 /\ _sigma8 (cosmo_at 0 g) <> 0 /\ forall b, limber_epoch V b -> scale_found (cosmo_at 0 g) b eisenhu /\ forall k, formula_smooth (cosmo_at 0 g) k b eisenhu "takahashi2012") /\ probes_ok V /\ noise_positive V /\ (forall p b, In p S -> In b (gbins_of p) -> x_val (gnz_gals b) <> 0) /\ (2 <= length ell3)%nat /\ (forall l, In l ell3 -> 0 <= l) /\ (forall l, (l < length ell3)%nat -> 0 < knox_norm ell3 0.25 l) /\ (length ell3 * length (get_cl_ordering V))%nat = 30%nat.
Proof. exact ex_x_survey. Qed.
Example C139_case_grad : let g := planck_leaf faint in let S := leaf_survey in let V := map (read_probe fst) S in expanding (c0 g) /\ _gamma (c0 g) = None /\ physical (c0 g) /\ moderate (c0 g) /\ eh_regular false (c0 g) /\ sigmasqr_default (c0 g) 8.0 (eh false) <> 0 /\ shallow (concat (map bins_of V)) /\ off_clip chi (c0 g) V /\ survey_smooth (map (probe_map all_move) S) /\ (eh false (c0 g) (1 / 10000) <> 0 /\ _sigma8 (c0 g) <> 0 /\ forall b, limber_epoch V b -> scale_found (c0 g) b (eh false) /\ forall k, formula_smooth (c0 g) k b (eh false) "takahashi2012") /\ probes_ok V /\ noise_positive V /\ (forall p b, In p S -> In b (gbins_of p) -> fst (gnz_gals b) <> 0) /\ (2 <= length ell3)%nat /\ (forall l, In l ell3 -> 0 <= l) /\ (forall l, (l < length ell3)%nat -> 0 < knox_norm ell3 0.25 l) /\ (length ell3 * length (get_cl_ordering V))%nat = 30%nat.
Proof. exact ex_leaf_survey. Qed.
