(** * Cosmologies and surveys whose parameters are differentiated in reverse mode *)
From Coq Require Import Reals Lra Lia ZArith String List.
From Coquelicot Require Import Coquelicot.
From Verif Require Import SparseX AdNan AdNanSpec AdNanFinal.
From Verif Require Import Np NpLemmas Core Ode OdeSpec OdeProofs Interp InterpProofs Integrate IntegrateSpec Background BgSpec BgAlgebra BgTables
  BgGrowth BgPositive BgProofs BgFinal BgFinal4 BgGrad Transfer TransferProofs Power ExPower Redshift Bias Probes AngularCl GradSpec
  Ad AdSpec AdFinal AdPower AdPowerFinal AdProbes AdProbesFinal AdArrSpec AdHalofit AdHalofitSpec ExAdProbes ExAdHalofit AdNuis AdNuisSpec AdNuisNz AdNuisFinal ExNuis ExNuisHalo ContFinal
  FinSpec FinProbes FinFinal AdNuisBack AdNuisBackSpec ExFin XBack XBackSpec XBackProofs XBackFinal XBackNan.
Import ListNotations.
Local Open Scope R_scope.
Opaque chi_table growth_table_ODE growth_table_gamma logspace.
Local Notation "x @ i" := ((x, Some i%nat) : leaf) (at level 35).
Local Notation fixed x := ((x, None) : leaf).

(** Planck15 with another amplitude: all parameters but the curvature are differentiated *)
Definition planck_leaf (s : R) : gcosmo leaf := GCosmo (0.2589 @ 0) (0.04860 @ 1) (0.6774 @ 2) (0.9667 @ 3) (s @ 4) (fixed 0.0) ((-1.0) @ 5) (0.0 @ 6) None.
Lemma planck_leaf_0 s : read_cosmo fst (planck_leaf s) = planck_s s. Proof. reflexivity. Qed.
Lemma planck_leaf_15 : read_cosmo fst (planck_leaf 0.8159) = Planck15. Proof. reflexivity. Qed.
(** the survey of ExNuis.v *)
Definition leaf_survey : list (gprobe leaf) :=
  [GPWL (GWL [GNz (GShift (GNz (GSmail (2 @ 7) (1.5 @ 8) (0.5 @ 9)) (fixed 1) 2) (0 @ 10)) (1 @ 11) 2; GNz (GDelta ((2 / 3) @ 12)) (1 @ 13) 2] (GMList [0.01 @ 14; 0 @ 15]) None (SScalar 0.26));
   GPWL (GWL [GNz (GSmail (1 @ 16) (1 @ 17) (1 @ 18)) (fixed 1) 2] (GMScalar (0 @ 19)) (Some (GOneBias (gdes_y1_ia_bias (1 @ 20) (0.5 @ 21) (0.62 @ 22)))) (SScalar 0.26));
   GPNC (GNC [GNz (GKde [0.5 @ 23; fixed 1] [1 @ 24; fixed 2] 0.1) (fixed 1) 2] (GOneBias (ginverse_growth_linear_bias (1 @ 25))))].
Lemma leaf_plain : map (probe_map all_move) leaf_survey = mv_survey. Proof. reflexivity. Qed.
Lemma leaf_values : map (read_probe fst) leaf_survey = values mv_survey. Proof. reflexivity. Qed.
Lemma planck_regular s : eh_regular false (planck_s s) /\ eh_regular true (planck_s s).
Proof. destruct (planck_s_dense s) as [PD PA]. split; split; try exact PD; [ exact PA | cbn; lra ]. Qed.
Lemma ex_grad_survey : let c := read_cosmo fst (planck_leaf 0.8159) in let V := map (read_probe fst) leaf_survey in
  expanding c /\ _gamma c = None /\ physical c /\ moderate c /\ eh_regular false c /\ eh_regular true c /\ sigmasqr_default c 8.0 (eh false) <> 0 /\
  shallow (concat (map bins_of V)) /\ off_clip chi c V /\ survey_smooth (map (probe_map all_move) leaf_survey).
Proof.
  cbv zeta. destruct ex_nuisance as (_ & H1 & H2 & H3 & H4 & _ & H5 & H6 & H7 & H8). rewrite leaf_plain, leaf_values. destruct (planck_regular 0.8159).
  repeat (split; [ assumption | ]). assumption.
Qed.
Lemma ex_grad_default : let c := read_cosmo fst (planck_leaf faint) in let V := map (read_probe fst) leaf_survey in
  expanding c /\ _gamma c = None /\ physical c /\ moderate c /\ eh_regular false c /\ sigmasqr_default c 8.0 (eh false) <> 0 /\ eh false c (1 / 10000) <> 0 /\ _sigma8 c <> 0 /\
  shallow (concat (map bins_of V)) /\ off_clip chi c V /\ survey_smooth (map (probe_map all_move) leaf_survey) /\
  forall b, limber_epoch V b -> scale_found c b (eh false) /\ forall k, formula_smooth c k b (eh false) "takahashi2012".
Proof.
  cbv zeta. destruct ex_nuisance_default as (_ & H1 & H2 & H3 & H4 & _ & H5 & H6 & H7 & H8 & H9 & H10 & H11). rewrite leaf_plain, leaf_values. destruct (planck_regular faint).
  repeat (split; [ assumption | ]). assumption.
Qed.
(** epochs that are differentiated *)
Lemma ex_grad_epoch : let c := read_cosmo fst (planck_leaf 0.8159) in let a := (table_node 256 254 + 1) / 2 in let b := (table_node 128 126 + 1) / 2 in
  0 < a < 1 /\ between 256 (a @ 26) /\ growing c /\ 0 < b /\ between 128 (b @ 27) /\ 0 < D c b < 1.
Proof.
  cbv zeta. destruct ex_finite_epoch as (_ & H1 & H2 & H3 & _ & H4 & H5 & H6). rewrite planck_x_15 in *. rewrite Rplus_0_r in H6.
  split; [ exact H1 | ]. split; [ right; intros i Hi; cbn [fst] | split; [ exact H3 | split; [ exact H4 | split; [ right; intros i Hi; cbn [fst] | exact H6 ]]]].
  - destruct H2 as [H2 | H2]; [ specialize (H2 1); lra | ]. specialize (H2 i Hi). rewrite Rplus_0_r in H2. exact H2.
  - destruct H5 as [H5 | H5]; [ specialize (H5 1); lra | ]. specialize (H5 i Hi). rewrite Rplus_0_r in H5. exact H5.
Qed.
Lemma ex_leaf_finite : let d : gnz leaf := GNz (GSmail (2, Some 0%nat) (3, None) (1, Some 1%nat)) (1, None) 5 in
  0 <= gnz_zmax d /\ smooth_norm (read_nz fst d) /\ smooth_nz (read_nz fst d) 1.
Proof. cbv zeta. destruct ex_finite as (H1 & _ & H2 & H3). split; [ exact H1 | split; [ exact H2 | exact H3 ]]. Qed.
