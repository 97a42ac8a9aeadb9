(** * The log-likelihood of a survey has finite derivatives in floating point: public statements *)
From Coq Require Import Reals Lra Lia ZArith String List.
From Coquelicot Require Import Coquelicot.
From Verif Require Import FinRules FinBg FinGrowth FinTransfer FinPower FinHalofit.
From Verif Require Import SparseX AdNan AdNanSpec AdNanFinal.
From Verif Require Import Np NpLemmas Core Sparse SparseSpec Likelihood LikelihoodSpec Interp Integrate IntegrateSpec Background BgSpec BgPositive Transfer TransferProofs Power ExPower Redshift Bias Probes ProbesSpec
  AngularCl AclSpec CovSpec CovPsd GradSpec MxBridge DetProofs
  Ad AdSpec AdFinal AdPower AdPowerFinal AdProbes AdRel AdProbesFinal AdArrSpec AdHalofit AdHalofitSpec AdLike AdLikeSpec AdNuis AdNuisSpec AdNuisNz AdNuisFinal AdNuisLike ExAdHalofit ExNuis ExNuisHalo ExNuisLike ExJac ExCov
  FinOps FinNz FinSurvey FinSpec FinProbes FinFinal FinLike ExFin AdNuisBack AdNuisBackSpec XBack XBackSpec XBackProofs XBackFinal ExXBack XLike XLikeProofs.
Import ListNotations.
Local Open Scope R_scope.
Opaque chi_table growth_table_ODE growth_table_gamma logspace.
Local Notation C g := (fun w t => read_cosmo (leaf_at w t) g).
Local Notation c0 g := (read_cosmo fst g).

Lemma finite_survey la xl (nl : bool) g (S : list (gprobe xdual)) ells T GT f_sky sparse data il method : let V := values (map plain_probe S) in
  linalg_ok la -> linalg_shaped la -> exact_on_finite la xl ->
  finite_cosmo g -> (forall p, In p S -> finite_probe p) -> expanding (cosmo_at 0 g) -> _gamma (cosmo_at 0 g) = None -> physical (cosmo_at 0 g) -> moderate (cosmo_at 0 g) ->
  transfer_carried T GT g -> sigmasqr_default (cosmo_at 0 g) 8.0 T <> 0 ->
  shallow (concat (map bins_of V)) -> off_clip chi (cosmo_at 0 g) V -> survey_smooth (map plain_probe S) ->
  (if nl then T (cosmo_at 0 g) (1 / 10000) <> 0 /\ _sigma8 (cosmo_at 0 g) <> 0 /\
     forall b, limber_epoch V b -> scale_found (cosmo_at 0 g) b T /\ forall k, formula_smooth (cosmo_at 0 g) k b T "takahashi2012" else True) ->
  probes_ok V -> noise_positive V -> (forall p b, In p S -> In b (gbins_of p) -> x_val (gnz_gals b) <> 0) ->
  (2 <= length ells)%nat -> (forall l, In l ells -> 0 <= l) -> (forall l, (l < length ells)%nat -> 0 < knox_norm ells f_sky l) ->
  length data = (length ells * length (get_cl_ordering V))%nat -> sparse = true \/ method = "inverse"%string \/ method = "cholesky"%string ->
  exists f x, (forall t, survey_likelihood la (cosmo_at t g) ells (probes_at t S) T (if nl then halofit_default else linear) f_sky sparse data il method = Ok (f t)) /\
    hsurvey_likelihood num_x (linalg_x xl) g ells S (if nl then ghalofit_default num_x GT else fun g k a => glinear_matter_power num_x g k a GT) f_sky sparse data il method = Ok x /\ carries f x.
Proof.
  intros V HO HS HX HF FP HE NG HP HMo HT HN8 HSh HC HM Hnl Hok HN HG HL HE0 HK HD Hm.
  destruct (fl_all_survey (FLN := floats_x) la (linalg_x xl) (FA := linalg_x_exact la xl HO HX) HO HS nl g S ells T GT f_sky sparse data il method
    HF FP HE NG HP HMo (carried_transfer _ _ _ HT) HN8 HSh HC HM Hnl Hok HN HG HL HE0 HK HD Hm) as (f & x & H1 & H2 & H3).
  exists f, x. split; [ exact H1 | split; [ exact H2 | now apply carries_fin ]].
Qed.
Lemma grad_survey la xl (nl osc : bool) g (S : list (gprobe leaf)) ells f_sky sparse data il method : let V := map (read_probe fst) S in
  linalg_ok la -> linalg_shaped la -> exact_on_finite la xl ->
  expanding (c0 g) -> _gamma (c0 g) = None -> physical (c0 g) -> moderate (c0 g) -> eh_regular osc (c0 g) -> sigmasqr_default (c0 g) 8.0 (eh osc) <> 0 ->
  shallow (concat (map bins_of V)) -> off_clip chi (c0 g) V -> survey_smooth (map (probe_map all_move) S) ->
  (if nl then eh osc (c0 g) (1 / 10000) <> 0 /\ _sigma8 (c0 g) <> 0 /\
     forall b, limber_epoch V b -> scale_found (c0 g) b (eh osc) /\ forall k, formula_smooth (c0 g) k b (eh osc) "takahashi2012" else True) ->
  probes_ok V -> noise_positive V -> (forall p b, In p S -> In b (gbins_of p) -> fst (gnz_gals b) <> 0) ->
  (2 <= length ells)%nat -> (forall l, In l ells -> 0 <= l) -> (forall l, (l < length ells)%nat -> 0 < knox_norm ells f_sky l) ->
  length data = (length ells * length (get_cl_ordering V))%nat -> sparse = true \/ method = "inverse"%string \/ method = "cholesky"%string ->
  exists f x, (forall K w t, below K w -> survey_likelihood la (C g w t) ells (survey_at w t S) (eh osc) (if nl then halofit_default else linear) f_sky sparse data il method = Ok (f w t)) /\
    hsurvey_likelihood num_xb (linalg_xb xl) (xcosmo g) ells (xprobes S) (gmodel num_xb nl osc) f_sky sparse data il method = Ok x /\ graded f x.
Proof.
  intros V HO HS HX HE NG HP HMo HR HN8 HSh HC HM Hnl Hok HN HG HL HE0 HK HD Hm.
  assert (Q : forall K w, below K w -> exists f x, (forall t, survey_likelihood la (C g w t) ells (survey_at w t S) (eh osc) (if nl then halofit_default else linear) f_sky sparse data il method = Ok (f t)) /\
    hsurvey_likelihood num_xb (linalg_xb xl) (xcosmo g) ells (xprobes S) (gmodel num_xb nl osc) f_sky sparse data il method = Ok x /\ fin_of (FL := floats_xb K w) f 0 x).
  { intros K w HB. assert (HT := x_transfer osc g K w HR HB). assert (HG' : forall p b, In p (xprobes S) -> In b (gbins_of p) -> fl_v (FLN := floats_xb K w) (gnz_gals b) <> 0).
    { intros p b Hp Hb. apply in_map_iff in Hp. destruct Hp as (q & <- & Hq). destruct q as [q | q]; cbn in Hb; apply in_map_iff in Hb; destruct Hb as (d & <- & Hd); destruct d as [fa ga zm]; exact (HG _ _ Hq Hd). }
    assert (R0 := fl_all_survey (FLN := floats_xb K w) la (linalg_xb xl) (FA := linalg_xb_exact K w la xl HO HX) HO HS nl (xcosmo g) (xprobes S) ells (eh osc) (geh num_xb osc) f_sky sparse data il method).
    cbv zeta in R0. cbn [fl_rd floats_xb] in R0. rewrite (x_survey K w S HB), survey_values, (x_cosmo_0 K w HB) in R0.
    destruct (R0 (x_params K w g) (x_probes_fin K w S) HE NG HP HMo HT HN8 HSh HC (survey_leaf w S HM) Hnl Hok HN HG' HL HE0 HK HD Hm) as (f & x & H1 & H2 & H3).
    exists f, x. split; [ intros t; specialize (H1 t); rewrite (x_cosmo K w HB), (x_probes K w HB) in H1; exact H1 | split; [ | exact H3 ]]. destruct nl; exact H2. }
  assert (Q0 := Q 0%nat (fun _ => 0) (fun q _ => eq_refl)). destruct Q0 as (f0 & x & _ & EX & _).
  assert (NGr : number_graded (fun w t => survey_likelihood la (C g w t) ells (survey_at w t S) (eh osc) (if nl then halofit_default else linear) f_sky sparse data il method) (Ok x)).
  { apply number_graded_of. intros K w HB. destruct (Q K w HB) as (f & y & H1 & H2 & H3). rewrite EX in H2. injection H2 as <-. apply (rr_respects _ (fun t => Ok (f t))); [ intros t; symmetry; apply H1 | now apply rr_ok' ]. }
  destruct NGr as (f & H1 & H2). now exists f, x.
Qed.

