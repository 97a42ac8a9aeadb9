(** * A survey whose spectra can be differentiated twice *)
From Coq Require Import Reals Lra Lia ZArith String List.
From Coquelicot Require Import Coquelicot.
From Verif Require Import Np NpLemmas Core Ode OdeSpec OdeProofs Interp InterpProofs Integrate IntegrateSpec Background BgSpec BgAlgebra BgTables
  BgGrowth BgPositive BgProofs BgFinal BgFinal4 BgGrad Transfer TransferProofs Power ExPower Redshift RedshiftProofs Bias Probes AngularCl GradSpec
  Ad AdSpec AdFinal AdPower AdPowerFinal AdProbesFinal AdArrSpec AdHalofit AdHalofitSpec ExAdProbes ExAdHalofit AdNuis AdNuisSpec AdNuisNz AdNuisBack AdNuisFinal ExNuis ContFinal AdNan AdNanTwice JetSpec ExJet JetNuisSpec JetNuisFinal.
Import ListNotations.
Local Open Scope R_scope.
Opaque chi_table growth_table_ODE growth_table_gamma logspace.

(** as [mv_survey], but the shift is -1/100 *)
Definition bd_shift : gnz dual := GNz (GShift (GNz (GSmail (2, 1) (1.5, 1) (0.5, 1)) (1, 0) 2) (- 0.01, 1)) (1, 1) 2.
Definition bd_survey : list (gprobe dual) :=
  [GPWL (GWL [bd_shift; mv_plane] (GMList [(0.01, 1); (0, 1)]) None (SScalar 0.26));
   GPWL (GWL [mv_smail] (GMScalar (0, 1)) (Some (GOneBias (gdes_y1_ia_bias (1, 1) (0.5, 1) (0.62, 1)))) (SScalar 0.26));
   GPNC (GNC [mv_kde] (GOneBias (ginverse_growth_linear_bias (1, 1))))].
Lemma bd_bins d : In d (concat (map bins_of (values bd_survey))) -> nz_zmax d = 2 /\ forall z0, nz_fam d = Delta z0 -> 1 / 4 <= z0 <= 2.
Proof.
  unfold values, bd_survey. cbn [map read_probe bins_of wl_bins nc_bins gwl_bins gnc_bins concat app In]. intros Hd.
  repeat (destruct Hd as [<- | Hd]; [ split; [ reflexivity | ] | ]); try contradiction; intros z0 E; inversion E; cbn [fst]; lra.
Qed.
Lemma bd_off b : limber_epoch (values bd_survey) b -> 3 / 5 <> b.
Proof.
  intros (zm & i & Hm & Hi & ->). apply deepest2 in Hm; [ | intros d Hd; now apply bd_bins ]. subst zm. intros E. assert (X : INR (5 * i) = INR 1024).
  { rewrite mult_INR. replace (INR 5) with 5 by (rewrite INR_IZR_INZ; reflexivity). replace (INR 1024) with 1024 by (rewrite INR_IZR_INZ; reflexivity). lra. }
  apply INR_eq in X. lia.
Qed.
Lemma lensing_in p d : In d (lensing_bins p) -> In d (bins_of p). Proof. destruct p; [ easy | intros [] ]. Qed.
Lemma bd_visited z : visited (limber_epoch (values bd_survey)) (values bd_survey) z -> 0 <= z.
Proof.
  destruct (survey_ok (values bd_survey) bd_bins) as [HS _]. intros (b & Hb & HZ). assert (TB := redshift_of b (limber_range _ _ HS Hb)).
  destruct HZ as [-> | (p & zm & i & Hp & Hm & Hi & ->)]; [ apply TB | ].
  assert (TM : tabulated zm).
  { apply (deepest_tabulated (lensing_bins p)); [ | exact Hm ]. intros d Hd. apply HS. apply in_concat. exists (bins_of p). split; [ now apply in_map | now apply lensing_in ]. }
  replace (INR i * ((zm - (1 / b - 1)) / 256)) with (INR i / INR 256 * (zm - (1 / b - 1))) by (replace (INR 256) with 256 by (rewrite INR_IZR_INZ; reflexivity); lra).
  apply (tabulated_mid (1 / b - 1) zm); [ exact TB | exact TM | apply frac_range; [ exact Hi | lia ]].
Qed.
Lemma nodes_nonneg i : 0 <= INR i * (2 / 256). Proof. assert (J := pos_INR i). lra. Qed.
Lemma bd_bends : survey_bends bd_survey.
Proof.
  set (lens := limber_epoch (values bd_survey)). set (ps := values bd_survey).
  assert (B1 : bin_bends lens ps bd_shift).
  { assert (SM : forall x, 0 <= x -> bend_nz false (read_nz fst bd_shift) x).
    { intros x Hx. cbn [bd_shift read_nz read_fam nz_new bend_nz bend_fam fst]. split; [ lra | ]. cbn [bend_nz bend_fam]. repeat (split; [ lra | ]). rewrite Rmax_left by lra. lra. }
    split; [ split; [ intros i _; apply SM, nodes_nonneg | ] | intros z Hz; apply SM; now apply bd_visited ].
    apply mv_norm; [ | | reflexivity ]; cbn [bd_shift read_nz nz_new pz_fn read_fam fst]; cbn [fam_pz pz_fn nz_new]; [ intros z Hz; unfold clip_lo; rewrite Rmax_left by lra; apply smail_pos; lra | apply smail_nonneg ]. }
  assert (B3 : bin_bends lens ps mv_smail).
  { assert (SM : forall x, bend_nz false (read_nz fst mv_smail) x) by (intros x; cbn; unfold gentle; repeat split; intros; lra).
    split; [ split; [ intros i _; apply SM | ] | intros z _; apply SM ]. apply mv_norm; [ | | reflexivity ]; [ intros z Hz; now apply smail_pos | apply smail_nonneg ]. }
  assert (B4 : bin_bends lens ps mv_kde).
  { assert (SM : forall x, bend_nz false (read_nz fst mv_kde) x) by (intros x; cbn; repeat split; lra).
    split; [ split; [ intros i _; apply SM | ] | intros z _; apply SM ]. apply mv_norm; [ | | reflexivity ]; [ intros z Hz; apply kde_pos | left; apply kde_pos ]. }
  assert (B2 : bin_bends lens ps mv_plane).
  { right. assert (E : 1 / (1 + fst ((2 / 3, 1) : dual)) = 3 / 5) by (cbn [fst]; field). rewrite E. split; [ cbn [fst]; lra | split; [ exact off_table | exact bd_off ]]. }
  intros p Hp. cbn [bd_survey In] in Hp. destruct Hp as [<- | [<- | [<- | []]]].
  - split; [ | exact I ]. intros d Hd. destruct Hd as [<- | [<- | []]]; [ apply B1 | apply B2 ].
  - split; [ | cbn; lra ]. intros d Hd. destruct Hd as [<- | []]. apply B3.
  - split; [ | exact I ]. intros d Hd. destruct Hd as [<- | []]. apply B4.
Qed.
Lemma ex_C149 : let c := planck_s faint in built c /\ expanding c /\ _gamma c = None /\ physical c /\ moderate c /\ transfer_smooth false c /\ sigmasqr_default c 8.0 (eh false) <> 0 /\
  (eh false c (1 / 10000) <> 0 /\ _sigma8 c <> 0 /\ forall b, limber_epoch (values bd_survey) b -> scale_found c b (eh false) /\ forall k, formula_smooth c k b (eh false) "takahashi2012") /\
  shallow (concat (map bins_of (values bd_survey))) /\ off_clip chi c (values bd_survey) /\ survey_bends bd_survey.
Proof.
  cbv zeta. destruct ex_C123 as (_ & H1 & H2 & H3 & H4 & H5 & H6 & H7 & H8 & H9 & _). destruct (survey_ok (values bd_survey) bd_bins) as [S1 S2].
  do 5 (split; [ assumption | ]). split; [ exact ex_smooth | ]. split; [ assumption | ]. split; [ split; [ assumption | split; [ assumption | ]] | ].
  - intros b Hb. assert (HB := limber_range (values bd_survey) b S1 Hb). split; [ apply faint_found; exact HB | intros k; apply faint_smooth; exact HB ].
  - split; [ exact S1 | split; [ | exact bd_bends ]]. intros b Hb. destruct (S2 b Hb) as [Q1 Q2]. split; [ rewrite faint_chi; exact Q1 | ]. intros p q Hp Hq. rewrite faint_chi. now apply (Q2 p).
Qed.
(** a bin whose clustering spectrum has NaN for second derivatives *)
Lemma ex_cutoff c b P l : ggamma c = None -> let d := GNz (GSmail (still2 2) (still2 1.5) (moves2 1 0.7)) (still2 1) 3 in
  (forall d', In d' [d] -> cutoff_moves d') /\ exists x, hangular_cl num_x2 c (Array1 [l]) [GPNC (GNC [d] (GOneBias b))] P = Ok [[x]] /\ curvature x = Some SparseX.NaN.
Proof.
  intros HG d. assert (H : forall d', In d' [d] -> cutoff_moves d') by (intros d' [<- | []]; exists 2, 1.5, 0.7, 1, 3; repeat split; lra). split; [ exact H | ].
  destruct (AdNanFinal.one_bin_any num_x2 c d b P l HG eq_refl) as (x & E). exists x. split; [ exact E | ].
  exact (cutoff_spectra _ _ _ _ _ _ H E [x] x (or_introl eq_refl) (or_introl eq_refl)).
Qed.
