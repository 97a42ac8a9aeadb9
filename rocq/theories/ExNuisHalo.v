(** * The moving survey of ExNuis.v with the default non-linear model *)
From Coq Require Import Reals Lra Lia ZArith String List.
From Coquelicot Require Import Coquelicot.
From Verif Require Import Np NpLemmas Core Ode OdeSpec OdeProofs Interp InterpProofs Integrate IntegrateSpec Background BgSpec BgAlgebra BgTables
  BgGrowth BgPositive BgProofs BgFinal BgFinal4 BgGrad Transfer TransferProofs Power ExPower Redshift Bias Probes AngularCl GradSpec
  Ad AdSpec AdFinal AdPower AdPowerFinal AdProbesFinal AdArrSpec AdHalofit AdHalofitSpec ExAdProbes ExAdHalofit AdNuis AdNuisSpec AdNuisNz AdNuisFinal ExNuis ContFinal.
Import ListNotations.
Local Open Scope R_scope.
Opaque chi_table growth_table_ODE growth_table_gamma logspace.
Lemma ex_nuisance_default : let c := planck_s faint in built c /\ expanding c /\ _gamma c = None /\ physical c /\ moderate c /\
  (forall d, transfer_moves eisenhu (geisenhu num_dual) c d) /\ sigmasqr_default c 8.0 eisenhu <> 0 /\ eisenhu c (1 / 10000) <> 0 /\ _sigma8 c <> 0 /\
  shallow (concat (map bins_of (values mv_survey))) /\ off_clip chi c (values mv_survey) /\ survey_smooth mv_survey /\
  forall b, limber_epoch (values mv_survey) b -> scale_found c b eisenhu /\ forall k, formula_smooth c k b eisenhu "takahashi2012".
Proof.
  cbv zeta. destruct ex_C123 as (_ & H1 & H2 & H3 & H4 & H5 & H6 & H7 & H8 & H9 & _). destruct (survey_ok (values mv_survey) mv_bins) as [S1 S2]. do 9 (split; [ assumption | ]). split; [ exact S1 | split; [ | split; [ exact mv_smooth | ]]].
  - intros b Hb. destruct (S2 b Hb) as [Q1 Q2]. split; [ rewrite faint_chi; exact Q1 | ]. intros p q Hp Hq. rewrite faint_chi. now apply (Q2 p).
  - intros b Hb. assert (HB := limber_range (values mv_survey) b S1 Hb). split; [ apply faint_found; exact HB | intros k; apply faint_smooth; exact HB ].
Qed.
