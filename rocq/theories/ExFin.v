(** * Surveys and cosmologies whose parameters move, as numbers with infinities and NaN *)
From Coq Require Import Reals Lra Lia ZArith String List.
From Coquelicot Require Import Coquelicot.
From Verif Require Import SparseX AdNan AdNanSpec AdNanFinal.
From Verif Require Import Np NpLemmas Core Ode OdeSpec OdeProofs Interp InterpProofs Integrate IntegrateSpec Background BgSpec BgAlgebra BgTables
  BgGrowth BgPositive BgProofs BgFinal BgFinal4 BgGrad Transfer TransferProofs Power ExPower Redshift Bias Probes AngularCl GradSpec
  Ad AdSpec AdFinal AdPower AdPowerFinal AdProbes AdProbesFinal AdArrSpec AdHalofit AdHalofitSpec ExAdProbes ExAdHalofit AdNuis AdNuisSpec AdNuisNz AdNuisFinal ExNuis ExNuisHalo ContFinal
  FinSpec FinProbes FinFinal FinBaryon.
Import ListNotations.
Local Open Scope R_scope.
Opaque chi_table growth_table_ODE growth_table_gamma logspace.
Local Notation still := AdNanSpec.still.
Local Notation mv := (moves_at 1).

(** Planck15 with another amplitude, all parameters but the curvature moving at the rate 1 *)
Definition planck_x (s : R) : gcosmo xdual := GCosmo (mv 0.2589) (mv 0.04860) (mv 0.6774) (mv 0.9667) (mv s) (still 0.0) (mv (-1.0)) (mv 0.0) None.
Lemma planck_x_0 s : cosmo_at 0 (planck_x s) = planck_s s.
Proof. unfold cosmo_at, planck_x. cbn [gOmega_c gOmega_b gh gn_s gsigma8 gOmega_k gw0 gwa ggamma option_map]. rewrite !moving_zero. reflexivity. Qed.
Lemma planck_x_15 : cosmo_at 0 (planck_x 0.8159) = Planck15. Proof. now rewrite planck_x_0. Qed.
Lemma planck_x_fin s : finite_cosmo (planck_x s).
Proof. repeat (split; [ first [ apply f_moves | apply f_still ] | ]). exact I. Qed.
(** the survey of ExNuis.v *)
Definition mvx_survey : list (gprobe xdual) :=
  [GPWL (GWL [GNz (GShift (GNz (GSmail (mv 2) (mv 1.5) (mv 0.5)) (still 1) 2) (mv 0)) (mv 1) 2; GNz (GDelta (mv (2 / 3))) (mv 1) 2] (GMList [mv 0.01; mv 0]) None (SScalar 0.26));
   GPWL (GWL [GNz (GSmail (mv 1) (mv 1) (mv 1)) (still 1) 2] (GMScalar (mv 0)) (Some (GOneBias (gdes_y1_ia_bias (mv 1) (mv 0.5) (mv 0.62)))) (SScalar 0.26));
   GPNC (GNC [GNz (GKde [mv 0.5; still 1] [mv 1; still 2] 0.1) (still 1) 2] (GOneBias (ginverse_growth_linear_bias (mv 1))))].
Lemma mvx_plain : map plain_probe mvx_survey = mv_survey. Proof. reflexivity. Qed.
Ltac all_fin := repeat (apply Forall_cons; [ apply f_moves || apply f_still | ]); apply Forall_nil.
Lemma mvx_fin p : In p mvx_survey -> finite_probe p.
Proof.
  assert (FM := f_moves). assert (FS := f_still).
  assert (FF : forall l, Forall finite l -> forall x, In x l -> finite x) by (intros l Hl; now apply Forall_forall).
  unfold mvx_survey. cbn [In]. intros [<- | [<- | [<- | []]]]; (split; [ cbn [gbins_of gwl_bins gnc_bins In] | ]).
  - intros d [<- | [<- | []]]; cbn [finite_nz finite_fam]; repeat split; apply FM || apply FS.
  - cbn [gwl_m gwl_ia finite_m]. split; [ | exact I ]. apply FF. all_fin.
  - intros d [<- | []]; cbn [finite_nz finite_fam]; repeat split; apply FM || apply FS.
  - cbn [gwl_m gwl_ia finite_m finite_bias_arg finite_bias]. repeat split; apply FM.
  - intros d [<- | []]; cbn [finite_nz finite_fam]; split; [ split; apply FF; all_fin | apply FS ].
  - cbn [gnc_bias finite_bias_arg finite_bias]. apply FM.
Qed.
Lemma ex_finite_survey : let g := planck_x 0.8159 in let V := values (map plain_probe mvx_survey) in
  finite_cosmo g /\ (forall p, In p mvx_survey -> finite_probe p) /\ expanding (cosmo_at 0 g) /\ _gamma (cosmo_at 0 g) = None /\ physical (cosmo_at 0 g) /\ moderate (cosmo_at 0 g) /\
  transfer_carried eisenhu (geisenhu num_x) g /\ transfer_carried eisenhu_osc (geisenhu_osc num_x) g /\ sigmasqr_default (cosmo_at 0 g) 8.0 eisenhu <> 0 /\
  shallow (concat (map bins_of V)) /\ off_clip chi (cosmo_at 0 g) V /\ survey_smooth (map plain_probe mvx_survey).
Proof.
  cbv zeta. destruct ex_nuisance as (_ & H1 & H2 & H3 & H4 & _ & H5 & H6 & H7 & H8). destruct ex_planck_alpha as [PD PA].
  assert (HF := planck_x_fin 0.8159). destruct (finite_transfers _ HF) as [T1 T2]; [ now rewrite planck_x_15 | ]. rewrite planck_x_15 in *. rewrite mvx_plain.
  split; [ exact HF | split; [ exact mvx_fin | ]]. do 4 (split; [ assumption | ]).
  split; [ exact (T1 PA) | split; [ apply T2; unfold Planck15, make_cosmology; cbn [_Omega_c]; lra | ]]. repeat (split; [ assumption | ]). assumption.
Qed.
Lemma ex_finite_default : let g := planck_x faint in let V := values (map plain_probe mvx_survey) in
  finite_cosmo g /\ (forall p, In p mvx_survey -> finite_probe p) /\ expanding (cosmo_at 0 g) /\ _gamma (cosmo_at 0 g) = None /\ physical (cosmo_at 0 g) /\ moderate (cosmo_at 0 g) /\
  transfer_carried eisenhu (geisenhu num_x) g /\ sigmasqr_default (cosmo_at 0 g) 8.0 eisenhu <> 0 /\ eisenhu (cosmo_at 0 g) (1 / 10000) <> 0 /\ _sigma8 (cosmo_at 0 g) <> 0 /\
  shallow (concat (map bins_of V)) /\ off_clip chi (cosmo_at 0 g) V /\ survey_smooth (map plain_probe mvx_survey) /\
  forall b, limber_epoch V b -> scale_found (cosmo_at 0 g) b eisenhu /\ forall k, formula_smooth (cosmo_at 0 g) k b eisenhu "takahashi2012".
Proof.
  cbv zeta. destruct ex_nuisance_default as (_ & H1 & H2 & H3 & H4 & _ & H5 & H6 & H7 & H8 & H9 & H10 & H11). destruct (planck_s_dense faint) as [PD PA].
  assert (HF := planck_x_fin faint). destruct (finite_transfers _ HF) as [T1 _]; [ now rewrite planck_x_0 | ]. rewrite planck_x_0 in *. rewrite mvx_plain.
  split; [ exact HF | split; [ exact mvx_fin | ]]. do 4 (split; [ assumption | ]). split; [ exact (T1 PA) | ]. repeat (split; [ assumption | ]). assumption.
Qed.
(** epochs that move *)
Lemma ex_finite_epoch : let g := planck_x 0.8159 in let a := (table_node 256 254 + 1) / 2 in let b := (table_node 128 126 + 1) / 2 in
  carries (fun t => a + t) (mv a) /\ 0 < a < 1 /\ off_table 256 (fun t => a + t) /\ growing (cosmo_at 0 g) /\
  carries (fun t => b + t) (mv b) /\ 0 < b /\ off_table 128 (fun t => b + t) /\ 0 < D (cosmo_at 0 g) (b + 0) < 1.
Proof.
  cbv zeta. destruct planck_ok as (Rc & HP & HMo & HE & FG). rewrite planck_x_15.
  assert (LE : forall n i, (4 <= n)%nat -> (i <= n - 2)%nat -> table_node n i <= table_node n (n - 2)).
  { intros n i Hn Hi. rewrite <- !anode_table, <- !logspace_el by lia. apply incr_le; [ apply logspace_incr; [ lra | lia ] | rewrite length_logspace; lia ]. }
  assert (P1 : 0 < table_node 256 254) by (rewrite <- anode_table; apply anode_pos). assert (P2 : 0 < table_node 128 126) by (rewrite <- anode_table; apply anode_pos).
  assert (L1 := node_lt 256 254 ltac:(lia) ltac:(lia)). assert (L2 := node_lt 128 126 ltac:(lia) ltac:(lia)).
  assert (CR : forall x, carries (fun t => x + t) (mv x)).
  { intros x. split; [ apply f_moves | ]. unfold x_val, x_tan. cbn [fst snd moves_at]. split; [ ring | ]. auto_derive; [ exact I | ring ]. }
  split; [ apply CR | ]. split; [ lra | ].
  split; [ right; intros i Hi E; specialize (LE 256%nat i ltac:(lia) ltac:(lia)); change (256 - 2)%nat with 254%nat in LE; lra | ].
  split; [ exact (conj HP HMo) | ]. split; [ apply CR | ]. split; [ lra | ].
  split; [ right; intros i Hi E; specialize (LE 128%nat i ltac:(lia) ltac:(lia)); change (128 - 2)%nat with 126%nat in LE; lra | ].
  apply growth_interior; [ exact planck_built | reflexivity | exact HP | exact HMo | ]. specialize (LE 128%nat 1%nat ltac:(lia) ltac:(lia)). change (128 - 2)%nat with 126%nat in LE. lra.
Qed.
(** no baryons *)
Definition dry_x : gcosmo xdual := GCosmo (mv 0.3075) (still 0) (mv 0.6774) (mv 0.9667) (mv 0.8159) (still 0.0) (mv (-1.0)) (mv 0.0) None.
Lemma ex_dry : finite (gOmega_c dry_x) /\ finite (gh dry_x) /\ fst (gOmega_b dry_x) = Fin 0 /\ 0 < x_val (gOmega_c dry_x) /\ 0 < x_val (gh dry_x).
Proof. split; [ apply f_moves | split; [ apply f_moves | split; [ reflexivity | unfold x_val; cbn; lra ]]]. Qed.
Lemma baryons_refuted : exists g, finite_cosmo g /\ expanding (cosmo_at 0 g) /\ physical (cosmo_at 0 g) /\ moderate (cosmo_at 0 g) /\ _Omega_b (cosmo_at 0 g) = 0 /\
  forall k a, fst (geisenhu num_x g k) = NaN /\ fst (geisenhu_osc num_x g k) = NaN /\
    fst (glinear_matter_power num_x g k a (geisenhu num_x)) = NaN /\ fst (glinear_matter_power num_x g k a (geisenhu_osc num_x)) = NaN.
Proof.
  exists dry_x. assert (E0 : cosmo_at 0 dry_x = make_cosmology 0.3075 0 0.6774 0.9667 0.8159 0.0 (-1.0) 0.0 None).
  { unfold cosmo_at, dry_x. cbn [gOmega_c gOmega_b gh gn_s gsigma8 gOmega_k gw0 gwa ggamma option_map]. rewrite !moving_zero. reflexivity. }
  rewrite E0. assert (HP : physical (make_cosmology 0.3075 0 0.6774 0.9667 0.8159 0.0 (-1.0) 0.0 None)) by phys.
  split; [ repeat (split; [ first [ apply f_moves | apply f_still ] | ]); exact I | ]. split; [ now apply physical_expanding | split; [ exact HP | split; [ unfold moderate; simpl; lra | split; [ reflexivity | ]]]].
  intros k a. destruct ex_dry as (H1 & H2 & H3 & H4 & H5). destruct (no_baryons dry_x k H1 H2 H3 H4 H5). destruct (no_baryons_power dry_x k a H1 H2 H3 H4 H5). auto.
Qed.
