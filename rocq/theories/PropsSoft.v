(** * C140: gradient of the survey likelihood where the likelihood is differentiable *)
From Coq Require Import Reals Lra Lia ZArith String List.
From Coquelicot Require Import Coquelicot.
From Verif Require Import SparseX AdNan AdNanSpec.
From Verif Require Import Np Core Sparse SparseSpec Likelihood LikelihoodSpec Interp Integrate IntegrateSpec Background BgSpec BgPositive Transfer TransferProofs Power ExPower Redshift Bias Probes ProbesSpec
  AngularCl AclSpec CovSpec CovPsd GradSpec Ad AdSpec AdFinal AdPower AdProbes AdProbesFinal AdArrSpec AdHalofit AdHalofitSpec AdLike AdLikeSpec AdNuis AdNuisSpec AdNuisLike ExCov
  AdNuisBack AdNuisBackSpec XBack XBackSpec XLike SoftSpec.
From Verif Require Import XBackFinal XLikeProofs XLikeFinal SoftFinal ExSoft.
Import ListNotations.
Local Open Scope R_scope.
Opaque chi_table growth_table_ODE growth_table_gamma logspace.
Local Notation C g := (fun w t => read_cosmo (leaf_at w t) g).
Local Notation c0 g := (read_cosmo fst g).


(** C140  the log-likelihood of a survey is differentiable as soon as its redshift densities are *)
Theorem C140_differentiable : forall la c (S : list (gprobe dual)) ells T nl f_sky sparse data il method,
  let V := values S in
  linalg_ok la -> linalg_shaped la -> built c -> expanding c -> _gamma c = None -> physical c -> moderate c ->
  shallow (concat (map bins_of V)) -> soft_survey S -> probes_ok V -> noise_positive V -> (forall p b, In p S -> In b (gbins_of p) -> fst (gnz_gals b) <> 0) ->
  (forall p d, In p V -> In d (bins_of p) -> 0 <= nz_zmax d) ->
  (forall l a, (l < length ells)%nat -> 1 / (1 + survey_zmax V) <= a <= 1 -> 0 <= nl c ((el ells l + 1 / 2) / Rmax (chi c a) 1) a T) ->
  (2 <= length ells)%nat -> (forall l, (l < length ells)%nat -> 0 < knox_norm ells f_sky l) ->
  length data = (length ells * length (get_cl_ordering V))%nat -> sparse = true \/ method = "inverse"%string \/ method = "cholesky"%string ->
  exists f, (forall t, survey_likelihood la c ells (moved S t) T nl f_sky sparse data il method = Ok (f t)) /\ ex_derive f 0.
Proof. exact soft_likelihood. Qed.
Print Assumptions C140_differentiable.

(** its gradient is then finite and right if the exponents of all Smail distributions are at least 1 (in survey_smooth); without this hypothesis the statement is false *)
Theorem C140_finite_partial : forall la xl (nl osc : bool) g (S : list (gprobe leaf)) ells f_sky sparse data il method,
  let V := map (read_probe fst) S in
  linalg_ok la -> linalg_shaped la -> exact_on_finite la xl ->
  expanding (c0 g) -> _gamma (c0 g) = None -> physical (c0 g) -> moderate (c0 g) -> eh_regular osc (c0 g) -> sigmasqr_default (c0 g) 8.0 (eh osc) <> 0 ->
  shallow (concat (map bins_of V)) -> off_clip chi (c0 g) V -> survey_smooth (map (probe_map all_move) S) ->
  (if nl then eh osc (c0 g) (1 / 10000) <> 0 /\ _sigma8 (c0 g) <> 0 /\
     forall b, limber_epoch V b -> scale_found (c0 g) b (eh osc) /\ forall k, formula_smooth (c0 g) k b (eh osc) "takahashi2012" else True) ->
  probes_ok V -> noise_positive V -> (forall p b, In p S -> In b (gbins_of p) -> fst (gnz_gals b) <> 0) ->
  (2 <= length ells)%nat -> (forall l, In l ells -> 0 <= l) -> (forall l, (l < length ells)%nat -> 0 < knox_norm ells f_sky l) ->
  length data = (length ells * length (get_cl_ordering V))%nat -> sparse = true \/ method = "inverse"%string \/ method = "cholesky"%string ->
  exists f x, (forall K w t, below K w -> survey_likelihood la (C g w t) ells (survey_at w t S) (eh osc) (if nl then halofit_default else linear) f_sky sparse data il method = Ok (f w t)) /\
    hsurvey_likelihood num_xb (linalg_xb xl) (xcosmo g) ells (xprobes S) (gmodel num_xb nl osc) f_sky sparse data il method = Ok x /\ graded f x.
Proof. exact grad_survey. Qed.
Print Assumptions C140_finite_partial.
Theorem C140_jvp_nan : forall la xl c (S : list (gprobe xdual)) ells T nl P f_sky sparse data il method,
  let V := map (read_probe x_val) S in
  linalg_ok la -> linalg_shaped la -> built c -> expanding c -> _gamma c = None -> physical c -> moderate c ->
  shallow (concat (map bins_of V)) -> soft_survey (map (probe_map (fun x => (x_val x, x_tan x))) S) -> probes_ok V -> noise_positive V ->
  (forall p b, In p S -> In b (gbins_of p) -> x_val (gnz_gals b) <> 0) -> (forall p d, In p V -> In d (bins_of p) -> 0 <= nz_zmax d) ->
  (forall l a, (l < length ells)%nat -> 1 / (1 + survey_zmax V) <= a <= 1 -> 0 <= nl c ((el ells l + 1 / 2) / Rmax (chi c a) 1) a T) ->
  (2 <= length ells)%nat -> (forall l, (l < length ells)%nat -> 0 < knox_norm ells f_sky l) ->
  length data = (length ells * length (get_cl_ordering V))%nat -> sparse = true \/ method = "inverse"%string \/ method = "cholesky"%string ->
  (exists p d, In p S /\ In d (gbins_of p) /\ (root_smail d \/ root_shift d)) ->
  (exists f, (forall t, survey_likelihood la c ells (map (read_probe (AdNanSpec.moving t)) S) T nl f_sky sparse data il method = Ok (f t)) /\ ex_derive f 0) /\
  exists x, hsurvey_likelihood num_x (linalg_x xl) (cosmo_map AdNanSpec.still (lift_cosmo c)) ells S P f_sky sparse data il method = Ok x /\ snd x = Some NaN.
Proof. exact jvp_survey_nan. Qed.
Print Assumptions C140_jvp_nan.
Theorem C140_grad_nan : forall la xl c (S : list (gprobe leaf)) ells T nl P f_sky sparse data il method i,
  let V := map (read_probe fst) S in
  linalg_ok la -> linalg_shaped la -> built c -> expanding c -> _gamma c = None -> physical c -> moderate c ->
  shallow (concat (map bins_of V)) -> soft_leaves S -> probes_ok V -> noise_positive V ->
  (forall p b, In p S -> In b (gbins_of p) -> fst (gnz_gals b) <> 0) -> (forall p d, In p V -> In d (bins_of p) -> 0 <= nz_zmax d) ->
  (forall l a, (l < length ells)%nat -> 1 / (1 + survey_zmax V) <= a <= 1 -> 0 <= nl c ((el ells l + 1 / 2) / Rmax (chi c a) 1) a T) ->
  (2 <= length ells)%nat -> (forall l, (l < length ells)%nat -> 0 < knox_norm ells f_sky l) ->
  length data = (length ells * length (get_cl_ordering V))%nat -> sparse = true \/ method = "inverse"%string \/ method = "cholesky"%string ->
  (exists p d, In p S /\ In d (gbins_of p) /\ root_leaf i d) ->
  (forall w, exists f, (forall t, survey_likelihood la c ells (survey_at w t S) T nl f_sky sparse data il method = Ok (f t)) /\ ex_derive f 0) /\
  exists x, hsurvey_likelihood num_xb (linalg_xb xl) (xcosmo (fixed_cosmo c)) ells (xprobes S) P f_sky sparse data il method = Ok x /\ partial x i = NaN.
Proof. exact grad_survey_nan. Qed.
Print Assumptions C140_grad_nan.
Theorem C140_jvp_refuted : exists la xl c (S : list (gprobe xdual)) ells data f_sky, linalg_ok la /\ linalg_shaped la /\ exact_on_finite la xl /\
  forall P sparse il method, sparse = true \/ method = "inverse"%string \/ method = "cholesky"%string ->
  (exists f, (forall t, survey_likelihood la c ells (map (read_probe (AdNanSpec.moving t)) S) eisenhu linear f_sky sparse data il method = Ok (f t)) /\ ex_derive f 0) /\
  exists x, hsurvey_likelihood num_x (linalg_x xl) (cosmo_map AdNanSpec.still (lift_cosmo c)) ells S P f_sky sparse data il method = Ok x /\ snd x = Some NaN.
Proof. exact jvp_survey_refuted. Qed.
Print Assumptions C140_jvp_refuted.
Theorem C140_grad_refuted : exists la xl c (S : list (gprobe leaf)) ells data f_sky, linalg_ok la /\ linalg_shaped la /\ exact_on_finite la xl /\
  forall P sparse il method, sparse = true \/ method = "inverse"%string \/ method = "cholesky"%string ->
  (forall w, exists f, (forall t, survey_likelihood la c ells (survey_at w t S) eisenhu linear f_sky sparse data il method = Ok (f t)) /\ ex_derive f 0) /\
  exists x, hsurvey_likelihood num_xb (linalg_xb xl) (xcosmo (fixed_cosmo c)) ells (xprobes S) P f_sky sparse data il method = Ok x /\ partial x 0 = NaN /\ partial x 1 = NaN.
Proof. exact grad_survey_refuted. Qed.
Print Assumptions C140_grad_refuted.
Example C140_case : let c := Planck15 in let V := soft_values in
  built c /\ expanding c /\ _gamma c = None /\ physical c /\ moderate c /\ shallow (concat (map bins_of V)) /\ probes_ok V /\ noise_positive V /\ (forall p d, In p V -> In d (bins_of p) -> 0 <= nz_zmax d) /\
  (forall l a, (l < length ell3)%nat -> 1 / (1 + survey_zmax V) <= a <= 1 -> 0 <= linear c ((el ell3 l + 1 / 2) / Rmax (chi c a) 1) a eisenhu) /\
  (2 <= length ell3)%nat /\ (forall l, (l < length ell3)%nat -> 0 < knox_norm ell3 0.25 l) /\ length (repeat 0 9) = (length ell3 * length (get_cl_ordering V))%nat.
Proof. exact soft_values_ok. Qed.
Example C140_case_grad : let S := soft_leaf_survey in map (read_probe fst) S = soft_values /\ soft_leaves S /\ (forall p b, In p S -> In b (gbins_of p) -> fst (gnz_gals b) <> 0) /\
  (exists p d, In p S /\ In d (gbins_of p) /\ root_leaf 0 d) /\ (exists p d, In p S /\ In d (gbins_of p) /\ root_leaf 1 d).
Proof. exact ex_soft_leaf. Qed.
Example C140_case_jvp : let S := soft_x_survey in map (read_probe x_val) S = soft_values /\ soft_survey (map (probe_map (fun x => (x_val x, x_tan x))) S) /\ (forall p b, In p S -> In b (gbins_of p) -> x_val (gnz_gals b) <> 0) /\
  (exists p d, In p S /\ In d (gbins_of p) /\ (root_smail d \/ root_shift d)).
Proof. exact ex_soft_x. Qed.
