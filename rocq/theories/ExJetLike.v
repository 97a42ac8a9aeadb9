(** * Surveys whose likelihood can be differentiated twice, and one whose Hessian is NaN *)
From Coq Require Import Reals Lra Lia ZArith String List FunctionalExtensionality.
From Coquelicot Require Import Coquelicot.
From Verif Require Import Np NpLemmas Core Ode OdeSpec OdeProofs Interp InterpProofs Integrate IntegrateSpec Background BgSpec BgAlgebra BgTables
  BgGrowth BgPositive BgProofs BgFinal BgFinal4 BgGrad Transfer TransferProofs Power ExPower ExCov Sparse SparseSpec Likelihood LikelihoodSpec Redshift RedshiftProofs Bias Probes ProbesSpec AngularCl GradSpec
  CovSpec AclSpec AclFinal Ad AdSpec AdFinal AdPower AdPowerFinal AdProbesFinal AdArrSpec AdHalofit AdHalofitSpec AdLikeSpec AdJacSpec ExAdProbes ExAdHalofit AdNuis AdNuisSpec AdNuisNz AdNuisBack AdNuisBackSpec AdNuisFinal AdFisher ExAdLike ExOver ExNuis ContFinal AdNan AdNanTwice
  JetSpec ExJet JetNuisSpec JetNuisFinal ExJetNuis AdNuisOver JetLikeSpec JetLine FinHalofit JetRules LineSurvey JetFinal.
Import ListNotations.
Local Open Scope R_scope.
Opaque chi_table growth_table_ODE growth_table_gamma logspace.

(** the survey [bd_survey], each parameter with a slot of its own; slot 0 collects what does not move *)
Definition bd_slots : list (gprobe param) :=
  [GPWL (GWL [GNz (GShift (GNz (GSmail (2, 1%nat) (1.5, 2%nat) (0.5, 3%nat)) (1, 0%nat) 2) ((- 0.01), 4%nat)) (1, 5%nat) 2; GNz (GDelta ((2 / 3), 6%nat)) (1, 7%nat) 2] (GMList [(0.01, 8%nat); (0, 9%nat)]) None (SScalar 0.26));
   GPWL (GWL [GNz (GSmail (1, 10%nat) (1, 11%nat) (1, 12%nat)) (1, 0%nat) 2] (GMScalar (0, 13%nat)) (Some (GOneBias (gdes_y1_ia_bias (1, 14%nat) (0.5, 15%nat) (0.62, 16%nat)))) (SScalar 0.26));
   GPNC (GNC [GNz (GKde [(0.5, 17%nat); (1, 0%nat)] [(1, 18%nat); (2, 0%nat)] 0.1) (1, 0%nat) 2] (GOneBias (ginverse_growth_linear_bias (1, 19%nat))))].
Definition bd_rates (q : nat) : R := match q with O => 0 | _ => if Nat.ltb q 20 then 1 else 0 end.
Lemma bd_pushed : pushed bd_rates bd_slots = bd_survey. Proof. reflexivity. Qed.
Lemma bd_below : below 20 bd_rates.
Proof. intros q Hq. unfold bd_rates. destruct q; [ lia | ]. now rewrite (proj2 (Nat.ltb_ge _ _) Hq). Qed.
Lemma bd_values : map (read_probe fst) bd_slots = values bd_survey. Proof. reflexivity. Qed.
Lemma bd_survey_ok : probes_ok (values bd_survey) /\ noise_positive (values bd_survey) /\ length (get_cl_ordering (values bd_survey)) = 10%nat.
Proof.
  split; [ | split; [ | reflexivity ]].
  - split; [ discriminate | ]. intros p [<- | [<- | [<- | []]]]; unfold ProbesSpec.probe_ok; cbn; repeat split; try discriminate; intros d [<- | []]; reflexivity.
  - apply noise_positive_suff. intros p [<- | [<- | [<- | []]]]; (split; [ | try exact I ]); cbn; try (intros d Hd; decompose [or] Hd; subst; cbn; lra || contradiction); (split; [ exact I | intros; lra ]).
Qed.
Lemma ex_C150 : let c := planck_s faint in let V := map (read_probe fst) bd_slots in
  built c /\ expanding c /\ _gamma c = None /\ physical c /\ moderate c /\ transfer_smooth false c /\ sigmasqr_default c 8.0 (eh false) <> 0 /\
  (eh false c (1 / 10000) <> 0 /\ _sigma8 c <> 0 /\ forall b, limber_epoch V b -> scale_found c b (eh false) /\ forall k, formula_smooth c k b (eh false) "takahashi2012") /\
  shallow (concat (map bins_of V)) /\ off_clip chi c V /\ survey_bends (pushed bd_rates bd_slots) /\ (forall l, In l ell3 -> - 0.5 < l) /\ below 20 bd_rates /\
  (forall b, limber_epoch V b -> 0 < b /\ D c b <> 0) /\
  exists mu s, gaussian_cl_covariance_and_mean c (Array1 ell3) V (eh false) (model_nl true) 0.25 true = Ok (mu, A3 10 10 3 s).
Proof.
  cbv zeta. rewrite bd_values, bd_pushed. destruct ex_C149 as (B & HE & NG & HP & HMo & HT & HN & HNL & HS & HC & HB).
  destruct ex_C124 as (_ & _ & _ & _ & _ & _ & _ & _ & _ & _ & _ & _ & _ & _ & HL & HE0 & HK & _). destruct bd_survey_ok as (O1 & O2 & O3). destruct oracles as (la & HO & _).
  assert (HD : forall b, limber_epoch (values bd_survey) b -> 0 < b /\ D (planck_s faint) b <> 0).
  { intros x Hx. assert (RX := limber_range _ _ HS Hx). assert (P1 := node1_pos). split; [ lra | ]. exact (FinHalofit.fleaf_D0 (fun _ => planck_s faint) (fun _ => B) NG HP HMo x RX). }
  do 11 (split; [ assumption | ]). split; [ intros l Hl; specialize (HE0 l Hl); lra | ]. split; [ exact bd_below | split; [ exact HD | ]].
  destruct (AdFisher.survey_fisher la (planck_s faint) true false ell3 (values bd_survey) 0.25 HO B NG HD O1 O2) as (mu & s & m & P & E1 & _); try assumption.
  - intros p b Hp Hb. assert (IN : In b (concat (map bins_of (values bd_survey)))) by (apply in_concat; exists (bins_of p); split; [ now apply in_map | exact Hb ]). now destruct (HS b IN) as [[Q _] _].
  - intros l a Hl _. apply halofit_default_nonneg; [ exact HN | ]. apply HE0, nth_In, Hl.
  - rewrite O3 in E1. exists mu, s. exact E1.
Qed.
(** z**2 exp(-(z / 0.7)**1.5), 27 galaxies: lensing and clustering *)
Definition cut_survey : list (gprobe xdual2) :=
  [GPWL (GWL [GNz (GSmail (still2 2) (still2 1.5) (still2 0.7)) (still2 27) 2] (GMScalar (still2 0)) None (SScalar 0.26));
   GPNC (GNC [GNz (GSmail (still2 2) (still2 1.5) (moves2 1 0.7)) (still2 27) 2] (GOneBias (gconstant_linear_bias (still2 1))))].
Lemma ex_cut : let c := Planck15 in let V := map (read_probe x2_value) cut_survey in
  built c /\ expanding c /\ _gamma c = None /\ physical c /\ moderate c /\ shallow (concat (map bins_of V)) /\ probes_ok V /\ noise_positive V /\
  (forall p b, In p cut_survey -> In b (gbins_of p) -> x2_value (gnz_gals b) <> 0) /\ (2 <= length ell3)%nat /\ (forall l, (l < length ell3)%nat -> 0 < knox_norm ell3 0.25 l) /\
  length (repeat 0 9) = (length ell3 * length (get_cl_ordering V))%nat /\ exists p d, In p cut_survey /\ In d (gbins_of p) /\ cutoff_moves d.
Proof.
  cbv zeta. destruct ex_nuisance as (H1 & H2 & H3 & H4 & H5 & _ & H7 & _). destruct ex_C124 as (_ & _ & _ & _ & _ & _ & _ & _ & _ & _ & _ & _ & _ & _ & HL & _ & HK & _).
  set (V := map (read_probe x2_value) cut_survey).
  assert (HB : forall d, In d (concat (map bins_of V)) -> nz_zmax d = 2 /\ forall z0, nz_fam d = Delta z0 -> 1 / 4 <= z0 <= 2).
  { intros d Hd. unfold V, cut_survey in Hd. cbn [map read_probe bins_of wl_bins nc_bins gwl_bins gnc_bins concat app In] in Hd. decompose [or] Hd; subst; try contradiction; (split; [ reflexivity | ]); intros z0 E; inversion E. }
  destruct (survey_ok V HB) as [HS _]. do 5 (split; [ assumption | ]). split; [ exact HS | ].
  split; [ split; [ discriminate | ]; intros p [<- | [<- | []]]; unfold ProbesSpec.probe_ok; cbn; repeat split; try discriminate; intros d [<- | []]; reflexivity | ].
  split; [ apply noise_positive_suff; intros p [<- | [<- | []]]; (split; [ | try exact I ]); cbn; try (intros d [<- | []]; cbn; unfold x2_value, AdNanSpec.x_val; cbn; lra); (split; [ exact I | intros; lra ]) | ].
  split; [ intros p b [<- | [<- | []]] [<- | []]; unfold x2_value, AdNanSpec.x_val; cbn; lra | ].
  split; [ exact HL | split; [ exact HK | split; [ reflexivity | ]]].
  eexists. eexists. split; [ right; now left | split; [ now left | ]]. exists 2, 1.5, 0.7, 27, 2. repeat split; lra.
Qed.
Lemma cut_curved p d q : In p cut_survey -> In d (gbins_of p) -> 0 <= q -> exists z, bends (fun t => pz (read_nz (x2_moving t) d) q) z.
Proof.
  intros Hp Hd Hq. destruct Hp as [<- | [<- | []]]; destruct Hd as [<- | []].
  - set (d := GNz (GSmail (still2 2) (still2 1.5) (still2 0.7)) (still2 27) 2). exists ((pz (read_nz x2_value d) q, 0), (0, 0)).
    assert (E : forall t, pz (read_nz x2_value d) q = pz (read_nz (x2_moving t) d) q).
    { intros t. cbn [d read_nz read_fam]. unfold x2_moving. cbn [snd still2]. now rewrite !Rmult_0_r, !Rplus_0_r. }
    rewrite <- (functional_extensionality _ _ E). apply JetFinal.jet_bends. exact (j_cst 0 _).
  - destruct (cutoff_curved 2 1.5 0.7 27 2 q) as (z & Z); try lra. exists z.
    assert (E : forall t, pz (nz_new (Smail 2 1.5 (0.7 + t)) 27 2) q = pz (read_nz (x2_moving t) (GNz (GSmail (still2 2) (still2 1.5) (moves2 1 0.7)) (still2 27) 2)) q).
    { intros t. cbn [read_nz read_fam]. unfold x2_moving, x2_value, AdNanSpec.x_val. cbn [fst snd still2 moves2]. now rewrite !Rmult_0_r, !Rplus_0_r, Rmult_1_r. }
    rewrite (functional_extensionality _ _ E) in Z. exact Z.
Qed.
Lemma cut_refuted : exists c (S : list (gprobe xdual2)) ells f_sky data, built c /\ expanding c /\ _gamma c = None /\ physical c /\ moderate c /\ shallow (concat (map bins_of (map (read_probe x2_value) S))) /\
  (forall p d q, In p S -> In d (gbins_of p) -> 0 <= q -> exists z, bends (fun t => pz (read_nz (x2_moving t) d) q) z) /\
  forall la g P, ggamma g = None -> exists y, hnotebook_likelihood num_x2 la g ells S P f_sky data = Ok y /\ curvature y = Some SparseX.NaN.
Proof.
  destruct ex_cut as (H1 & H2 & H3 & H4 & H5 & H6 & H7 & H8 & H9 & H10 & H11 & H12 & H13). exists Planck15, cut_survey, ell3, 0.25, (repeat 0 9).
  do 6 (split; [ assumption | ]). split; [ exact cut_curved | ]. intros la g P HG. exact (notebook_cutoff la Planck15 g cut_survey ell3 P 0.25 (repeat 0 9) H1 H2 H3 H4 H5 HG H6 H7 H8 H9 H10 H11 H12 H13).
Qed.
