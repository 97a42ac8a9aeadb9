(** * Concrete cases for Hessians and Fisher matrices *)
From Coq Require Import String.
From Coquelicot Require Import Coquelicot.
From Verif Require Import Np NpLemmas Core Sparse SparseSpec Likelihood LikelihoodSpec ExLikelihood Integrate Interp Background BgSpec BgPositive BgCompare BgFinal4 BgGrad Transfer Power Redshift Probes ProbesSpec AngularCl CovSpec AclSpec AclFinal GradSpec
  ContFinal ExAdProbes ExAdHalofit ExAdLike ExCov Ad AdSpec AdPower AdProbes AdHalofit AdHalofitSpec AdLike AdLikeSpec AdArrSpec AdProbesFinal AdJacSpec AdJac AdJacFinal ExJac AdOver AdOverSpec AdOverFinal AdFisher AdCurve Forecast.
Opaque chi_table growth_table_ODE growth_table_gamma logspace.
Local Open Scope R_scope.

Lemma ex_growth : forall x, limber_epoch ex_survey x -> 0 < x /\ D (planck_s faint) x <> 0.
Proof.
  destruct ex_C124 as (_ & _ & _ & _ & _ & _ & _ & _ & _ & HSh & _). intros x Hx. pose proof (limber_range _ _ HSh Hx) as R1.
  split; [ | apply Rgt_not_eq, planck_s_growth, R1 ]. apply Rlt_le_trans with (2 := proj1 R1). pose proof (table_node_range 128 1 ltac:(lia) ltac:(lia)); lra.
Qed.
Lemma ex_C129 : let c := planck_s faint in built c /\ _gamma c = None /\ (forall x, limber_epoch ex_survey x -> 0 < x /\ D c x <> 0) /\ probes_ok ex_survey /\ noise_positive ex_survey /\
  (forall p d, In p ex_survey -> In d (bins_of p) -> 0 <= nz_zmax d) /\
  (forall l a, (l < length ell3)%nat -> 1 / (1 + survey_zmax ex_survey) <= a <= 1 -> 0 <= model_nl true c ((el ell3 l + 1 / 2) / Rmax (chi c a) 1) a (eh false)) /\
  (2 <= length ell3)%nat /\ (forall l, (l < length ell3)%nat -> 0 < knox_norm ell3 0.25 l) /\ (exists la, linalg_ok la /\ linalg_shaped la).
Proof.
  cbv zeta. destruct ex_C124 as (B & HE & NG & HPh & HMo & HT & HN8 & HT0 & H8 & HSh & HC & HB & Hok & HN & HL & HE0 & HKn & _).
  do 2 (split; [ assumption | ]). split; [ exact ex_growth | ]. do 2 (split; [ assumption | ]). split; [ | split; [ | split; [ assumption | split; [ assumption | exact oracles ]]]].
  - intros p b Hp Hb. assert (IN : In b (concat (map bins_of ex_survey))) by (apply in_concat; exists (bins_of p); split; [ now apply in_map | exact Hb ]). now destruct (HSh b IN) as [[Q _] _].
  - intros l a Hl _. apply halofit_default_nonneg; [ exact HN8 | ]. apply HE0, nth_In, Hl.
Qed.
Lemma ex_jacobian : let n := (length ell3 * length (get_cl_ordering ex_survey))%nat in
  exists mu s J, n = 18%nat /\ gaussian_cl_covariance_and_mean (planck_s faint) (Array1 ell3) ex_survey (eh false) (model_nl true) 0.25 true = Ok (mu, A3 6 6 3 s) /\
    jacobian (planck_s faint) ell3 ex_survey true false (6 * 3) [Direction 1 0 0 0 0 0 0 0; Direction 0 0 0 0 0 1 0 0] J.
Proof.
  cbv zeta. destruct ex_C129 as (H1 & H2 & H3 & H4 & H5 & H6 & H7 & H8 & H9 & la & HO & _). destruct ex_C124 as (_ & _ & _ & _ & _ & _ & _ & _ & _ & _ & _ & _ & _ & _ & _ & _ & _ & EN).
  destruct (survey_fisher la (planck_s faint) true false ell3 ex_survey 0.25 HO H1 H2 H3 H4 H5 H6 H7 H8 H9) as (mu & s & m & P & E1 & _ & _ & HJ).
  assert (E6 : length (get_cl_ordering ex_survey) = 6%nat) by (change (length ell3) with 3%nat in EN; lia). rewrite E6 in E1, HJ. destruct (HJ [Direction 1 0 0 0 0 0 0 0; Direction 0 0 0 0 0 1 0 0]) as [[J HJ'] _].
  exists mu, s, J. split; [ exact EN | split; [ exact E1 | exact HJ' ]].
Qed.
Lemma ex_C129_curvature : let c := planck_s faint in built c /\ expanding c /\ _gamma c = None /\ physical c /\ moderate c /\
  (forall d, transfer_moves (eh false) (geh num_dual false) c d) /\ sigmasqr_default c 8.0 (eh false) <> 0 /\ eh false c (1 / 10000) <> 0 /\ _sigma8 c <> 0 /\
  shallow (concat (map bins_of ex_survey)) /\ off_clip chi c ex_survey /\
  (forall b, limber_epoch ex_survey b -> D c b <> 0 /\ scale_found c b (eh false) /\ forall k, formula_smooth c k b (eh false) "takahashi2012") /\
  probes_ok ex_survey /\ noise_positive ex_survey /\ (2 <= length ell3)%nat /\ (forall l, In l ell3 -> 0 <= l) /\ (forall l, (l < length ell3)%nat -> 0 < knox_norm ell3 0.25 l).
Proof.
  cbv zeta. destruct ex_C124 as (B & HE & NG & HPh & HMo & HT & HN8 & HT0 & H8 & HSh & HC & HB & Hok & HN & HL & HE0 & HKn & _).
  do 11 (split; [ assumption | ]). split; [ | do 4 (split; [ assumption | ]); assumption ].
  intros b Hb. split; [ now apply ex_growth | now apply HB ].
Qed.
