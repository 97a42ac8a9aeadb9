(** * The default non-linear model with moving nuisance parameters *)
From Coq Require Import Reals Lra Lia ZArith String List.
From Coquelicot Require Import Coquelicot.
From Verif Require Import Np NpLemmas Core Ode OdeSpec OdeProofs Interp InterpProofs Integrate IntegrateSpec Background BgSpec BgAlgebra BgTables
  BgGrowth BgPositive BgProofs BgFinal BgFinal2 BgFinal4 BgGrad Transfer Power Redshift Probes AngularCl GradSpec
  Ad AdSpec AdFinal AdPower AdProbesFinal AdArrSpec AdHalofit AdHalofitSpec AdHalofitFinal AdNuis AdNuisSpec AdNuisFinal.
Import ListNotations.
Local Open Scope R_scope.
Lemma nuisance_default c d (S : list (gprobe dual)) ells T GT : built c -> expanding c -> _gamma c = None -> physical c -> moderate c ->
  (forall d, transfer_moves T GT c d) -> sigmasqr_default c 8.0 T <> 0 -> T c (1 / 10000) <> 0 -> _sigma8 c <> 0 ->
  shallow (concat (map bins_of (values S))) -> off_clip chi c (values S) -> survey_smooth S -> (forall l, In l ells -> - 0.5 < l) ->
  (forall b, limber_epoch (values S) b -> scale_found c b T /\ forall k, formula_smooth c k b T "takahashi2012") ->
  jvp_rows (fun t => angular_cl (displaced c d t) (Array1 ells) (moved S t) T halofit_default)
    (hangular_cl num_dual (dual_cosmo c d) (Array1 ells) S (ghalofit_default num_dual GT)).
Proof.
  intros B HE NG HP HMo HT NS H0 S8 HS HC HN HL HB. apply nuisance_spectra; try assumption.
  intros b Hb. destruct (HB b Hb) as [Q1 Q2]. apply halofit_default_moves; try assumption. now apply (limber_range (values S)).
Qed.
