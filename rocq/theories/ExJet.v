(** * Concrete cases for second derivatives *)
From Coq Require Import String.
From Coquelicot Require Import Coquelicot.
From Verif Require Import Np NpLemmas Core Sparse SparseSpec Likelihood LikelihoodSpec ExLikelihood Integrate Interp Background BgSpec BgTables BgPositive BgCompare BgFinal4 BgGrad Transfer TransferProofs Power ExPower Redshift Probes ProbesSpec AngularCl CovSpec AclSpec AclFinal GradSpec
  ContFinal ExAdProbes ExAdHalofit ExAdLike ExCov Ad AdSpec AdPower AdProbes AdHalofit AdHalofitSpec AdLike AdLikeSpec AdArrSpec AdProbesFinal AdJacSpec AdJac AdJacFinal ExJac AdOver AdOverSpec AdOverFinal FinRules FinSpec ExFin BgFinal AdFinal JetSpec JetFinal ExOver.
Import ListNotations.
Opaque chi_table growth_table_ODE growth_table_gamma logspace.
Local Open Scope R_scope.

(** a scale factor that moves: a(t) = 1/2 + t *)
Lemma ex_bends : bends (fun t => 1 / 2 + t * 1) ((1 / 2, 1), (1, 0)) /\ bends (fun _ => 1 / 2) ((1 / 2, 0), (0, 0)) /\ bends (fun t => 2 + t * 3) ((2, 3), (3, 0)).
Proof.
  refine (conj _ (conj _ _)); apply jet_bends; [ apply line_jet | | apply line_jet ]. apply (JetRules.j_cst 0 (1 / 2)).
Qed.
Lemma ex_smooth : transfer_smooth false (planck_s faint).
Proof. destruct (planck_s_dense faint) as [(H1 & H2 & H3) H4]. exact (conj H1 (conj H3 (conj H2 H4))). Qed.
Lemma ex_C146 : let c := planck_s faint in built c /\ expanding c /\ _gamma c = None /\ physical c /\ moderate c /\ transfer_smooth false c /\ sigmasqr_default c 8.0 (eh false) <> 0 /\
  (eh false c (1 / 10000) <> 0 /\ _sigma8 c <> 0 /\ forall b, limber_epoch ex_survey b -> scale_found c b (eh false) /\ forall k, formula_smooth c k b (eh false) "takahashi2012") /\
  shallow (concat (map bins_of ex_survey)) /\ off_clip chi c ex_survey /\ (forall l, In l ell3 -> - 0.5 < l) /\
  exists mu s, gaussian_cl_covariance_and_mean c (Array1 ell3) ex_survey (eh false) (model_nl true) 0.25 true = Ok (mu, A3 6 6 3 s).
Proof.
  cbv zeta. destruct ex_C129_curvature as (B & HE & NG & HPh & HMo & HT & HN8 & HT0 & H8 & HSh & HC & HB & _ & _ & _ & HL & _).
  do 5 (split; [ assumption | ]). split; [ exact ex_smooth | ]. split; [ assumption | ]. split; [ split; [ assumption | split; [ assumption | intros b Hb; apply (HB b Hb) ]] | ].
  do 2 (split; [ assumption | ]). split; [ intros l Hl; specialize (HL l Hl); lra | ]. destruct ex_jacobian as (mu & s & _ & _ & E & _). now exists mu, s.
Qed.
(** epochs that move: between the last nodes of the tables of distances and of growth *)
Lemma ex_epochs : let a := (table_node 256 254 + 1) / 2 in let b := (table_node 128 126 + 1) / 2 in
  built Planck15 /\ expanding Planck15 /\ growing Planck15 /\
  bends (fun t => a + t * 1) ((a, 1), (1, 0)) /\ 0 < a + 0 * 1 < 1 /\ (forall i, (2 <= i <= 256 - 2)%nat -> a + 0 * 1 <> table_node 256 i) /\
  bends (fun t => b + t * 1) ((b, 1), (1, 0)) /\ 0 < b + 0 * 1 /\ (forall i, (2 <= i <= 128 - 2)%nat -> b + 0 * 1 <> table_node 128 i) /\ 0 < D Planck15 (b + 0 * 1) < 1.
Proof.
  cbv zeta. destruct ex_finite_epoch as (_ & H1 & H2 & H3 & _ & H4 & H5 & H6). rewrite planck_x_15 in H3, H6. destruct planck_ok as (_ & _ & _ & HE & _).
  set (a := (table_node 256 254 + 1) / 2) in *. set (b := (table_node 128 126 + 1) / 2) in *.
  replace (a + 0 * 1) with a by ring. replace (b + 0 * 1) with b by ring. replace (b + 0) with b in H6 by ring.
  refine (conj planck_built (conj HE (conj H3 (conj _ (conj H1 (conj _ (conj _ (conj H4 (conj _ H6))))))))); try (apply jet_bends, line_jet).
  - destruct H2 as [H2 | H2]; [ specialize (H2 1); lra | ]. intros i Hi E. apply (H2 i Hi). rewrite <- E. ring.
  - destruct H5 as [H5 | H5]; [ specialize (H5 1); lra | ]. intros i Hi E. apply (H5 i Hi). rewrite <- E. ring.
Qed.
