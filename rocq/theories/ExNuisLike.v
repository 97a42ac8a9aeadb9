(** * The likelihood of the moving survey of ExNuis.v *)
From Coq Require Import Reals Lra Lia ZArith String List.
From Coquelicot Require Import Coquelicot.
From Verif Require Import Np NpLemmas Core Ode OdeSpec OdeProofs Interp InterpProofs Integrate IntegrateSpec Background BgSpec BgAlgebra BgTables
  BgGrowth BgPositive BgProofs BgFinal BgFinal4 BgGrad Transfer TransferProofs Power ExPower Redshift Bias Probes ProbesSpec ProbesProofs AngularCl CovSpec ExCov AclSpec AclProofs AclFinal GradSpec
  Ad AdSpec AdFinal AdPower AdPowerFinal AdProbesFinal AdArrSpec AdHalofit AdHalofitSpec ExAdProbes ExAdHalofit AdNuis AdNuisSpec AdNuisNz AdNuisFinal ExNuis ExNuisHalo ContFinal ExAdLike AdNuisBack AdNuisBackSpec AdNuisBackFinal.
Import ListNotations.
Local Open Scope R_scope.
Opaque chi_table growth_table_ODE growth_table_gamma logspace.
Lemma ex_nuisance_survey : let c := planck_s faint in built c /\ expanding c /\ _gamma c = None /\ physical c /\ moderate c /\
  (forall d, transfer_moves eisenhu (geisenhu num_dual) c d) /\ sigmasqr_default c 8.0 eisenhu <> 0 /\ eisenhu c (1 / 10000) <> 0 /\ _sigma8 c <> 0 /\
  shallow (concat (map bins_of (values mv_survey))) /\ off_clip chi c (values mv_survey) /\ survey_smooth mv_survey /\
  (forall b, limber_epoch (values mv_survey) b -> scale_found c b eisenhu /\ forall k, formula_smooth c k b eisenhu "takahashi2012") /\
  probes_ok (values mv_survey) /\ noise_positive (values mv_survey) /\ (forall p b, In p mv_survey -> In b (gbins_of p) -> fst (gnz_gals b) <> 0) /\
  (2 <= length ell3)%nat /\ (forall l, In l ell3 -> 0 <= l) /\ (forall l, (l < length ell3)%nat -> 0 < knox_norm ell3 0.25 l) /\
  (length ell3 * length (get_cl_ordering (values mv_survey)))%nat = 30%nat.
Proof.
  cbv zeta. destruct ex_nuisance_default as (H1 & H2 & H3 & H4 & H5 & H6 & H7 & H8 & H9 & H10 & H11 & H12 & H13). destruct ex_C124 as (_ & _ & _ & _ & _ & _ & _ & _ & _ & _ & _ & _ & _ & _ & P1 & P2 & P3 & _).
  do 13 (split; [ assumption | ]). split; [ | split; [ | split; [ | split; [ exact P1 | split; [ exact P2 | split; [ exact P3 | reflexivity ]]]]]].
  - split; [ discriminate | ]. intros p Hp. cbn [values mv_survey map In] in Hp. destruct Hp as [<- | [<- | [<- | []]]]; unfold probe_ok; cbn; repeat split; try discriminate; intros d [<- | []]; reflexivity.
  - apply noise_positive_suff. intros p Hp. cbn [values mv_survey map In] in Hp. destruct Hp as [<- | [<- | [<- | []]]]; (split; [ | try exact I ]); cbn [read_probe bins_of wl_bins nc_bins gwl_bins gnc_bins map wl_sigma_e gwl_sigma_e sigma_fits sigma_for].
    + intros d [<- | [<- | []]]; cbn; lra.
    + split; [ exact I | intros; lra ].
    + intros d [<- | []]; cbn; lra.
    + split; [ exact I | intros; lra ].
    + intros d [<- | []]; cbn; lra.
  - intros p b Hp. cbn [mv_survey In] in Hp. destruct Hp as [<- | [<- | [<- | []]]]; cbn [gbins_of gwl_bins gnc_bins In]; intros Hb; decompose [or] Hb; subst; cbn; lra || contradiction.
Qed.

(** the same survey with a cotangent slot for every parameter; the slots below 20 move *)
Definition mv_labelled : list (gprobe param) :=
  [GPWL (GWL [GNz (GShift (GNz (GSmail (2, 0%nat) (1.5, 1%nat) (0.5, 2%nat)) (1, 20%nat) 2) (0, 3%nat)) (1, 4%nat) 2; GNz (GDelta (2 / 3, 5%nat)) (1, 4%nat) 2] (GMList [(0.01, 6%nat); (0, 7%nat)]) None (SScalar 0.26));
   GPWL (GWL [GNz (GSmail (1, 8%nat) (1, 8%nat) (1, 9%nat)) (1, 21%nat) 2] (GMScalar (0, 10%nat)) (Some (GOneBias (gdes_y1_ia_bias (1, 11%nat) (0.5, 12%nat) (0.62, 13%nat)))) (SScalar 0.26));
   GPNC (GNC [GNz (GKde [(0.5, 14%nat); (1, 22%nat)] [(1, 15%nat); (2, 23%nat)] 0.1) (1, 24%nat) 2] (GOneBias (ginverse_growth_linear_bias (1, 16%nat))))].
Lemma mv_pushed : pushed (fun q => if Nat.ltb q 20 then 1 else 0) mv_labelled = mv_survey. Proof. reflexivity. Qed.
Lemma mv_labelled_smooth w : survey_smooth (pushed w mv_labelled).
Proof.
  apply (smooth_any_tangent (fun q => if Nat.ltb q 20 then 1 else 0)); [ | rewrite mv_pushed; exact mv_smooth ].
  intros p b g zm z0 Hp Hb ->. cbn [mv_labelled In] in Hp. destruct Hp as [<- | [<- | [<- | []]]]; cbn [gbins_of gwl_bins gnc_bins In] in Hb; decompose [or] Hb; try discriminate; try contradiction.
  match goal with H : _ = GNz (GDelta z0) _ _ |- _ => injection H as <- <- <- end. cbn. lra.
Qed.
Lemma ex_nuisance_grad : map (read_probe fst) mv_labelled = values mv_survey /\ (forall w, survey_smooth (pushed w mv_labelled)) /\
  (forall p b, In p mv_labelled -> In b (gbins_of p) -> fst (gnz_gals b) <> 0).
Proof.
  split; [ reflexivity | split; [ exact mv_labelled_smooth | ]].
  intros p b Hp. cbn [mv_labelled In] in Hp. destruct Hp as [<- | [<- | [<- | []]]]; cbn [gbins_of gwl_bins gnc_bins In]; intros Hb; decompose [or] Hb; subst; cbn; lra || contradiction.
Qed.
