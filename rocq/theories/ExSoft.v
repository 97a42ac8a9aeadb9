(** * A survey with the bins of the LSST DESC requirements: its likelihood is differentiable, its gradient is NaN *)
From Coq Require Import Reals Lra Lia ZArith String List.
From Coquelicot Require Import Coquelicot.
From Verif Require Import SparseX AdNan AdNanSpec AdNanProofs AdNanFinal.
From Verif Require Import Np NpLemmas Core Likelihood LikelihoodSpec Interp Integrate IntegrateSpec Background BgSpec BgGrowth BgPositive BgTables BgProofs Transfer TransferProofs Power ExPower Redshift Bias Probes ProbesSpec
  AngularCl AclSpec AclFinal CovSpec CovPsd GradSpec Ad AdSpec AdPower AdProbes AdProbesFinal AdArrSpec AdLike AdLikeSpec AdNuis AdNuisSpec AdNuisFinal AdNuisLike ExAdProbes ExNuis ExNuisLike ExJac ExCov
  AdNuisBack AdNuisBackSpec AdNuisBackFinal AdParamNuis XBack XBackSpec XBackNan XLike XLikeProofs ExXLike ExXBack Poison PowerProofs BgTables SoftSpec SoftFinal.
Import ListNotations.
Local Open Scope R_scope.
Opaque chi_table growth_table_ODE growth_table_gamma logspace.

(** a lensing bin whose redshifts are shifted by a bias to be fitted (slot 1), and a clustering bin whose scale is to be fitted (slot 0) *)
Definition soft_leaf_survey : list (gprobe leaf) :=
  [GPWL (GWL [GNz (GShift (GNz (GSmail (2, None) (0.68, None) (0.11, None)) (27, None) 4) (0, Some 1%nat)) (27, None) 4] (GMScalar (0, None)) None (SScalar 0.26));
   GPNC (GNC [lsst_leaf] (GOneBias (gconstant_linear_bias (1, None))))].
Definition soft_x_survey : list (gprobe xdual) :=
  [GPWL (GWL [lsst_shifted] (GMScalar (AdNanSpec.still 0)) None (SScalar 0.26)); GPNC (GNC [lsst] (GOneBias (gconstant_linear_bias (AdNanSpec.still 1))))].
Lemma tab_below4 z : 0 <= z <= 4 -> tabulated z.
Proof.
  intros Hz. split; [ lra | ]. apply (Rle_trans _ (/ 5)).
  - rewrite <- anode_table. unfold anode, pow10. destruct ln10_bounds as [L1 L2].
    replace (INR 1) with 1 by reflexivity. replace (INR (128 - 1)) with 127 by (rewrite INR_IZR_INZ; reflexivity).
    set (x := _ * ln 10). assert (Hx : x <= - 4) by (unfold x; lra). replace x with (- (- x)) by ring. rewrite exp_Ropp. apply Rinv_le_contravar; [ lra | ].
    pose proof (exp_ineq1_le (- x)). lra.
  - unfold Rdiv. rewrite Rmult_1_l. apply Rinv_le_contravar; lra.
Qed.
Definition soft_values : list probe :=
  [PWL (WL [nz_new (Shift (nz_new (Smail 2 0.68 0.11) 27 4) 0) 27 4] (MScalar 0) None (SScalar 0.26)); PNC (NC [nz_new (Smail 2 0.68 0.11) 27 4] (OneBias (constant_linear_bias 1)))].
Lemma soft_values_ok : let c := Planck15 in let V := soft_values in
  built c /\ expanding c /\ _gamma c = None /\ physical c /\ moderate c /\ shallow (concat (map bins_of V)) /\ probes_ok V /\ noise_positive V /\ (forall p d, In p V -> In d (bins_of p) -> 0 <= nz_zmax d) /\
  (forall l a, (l < length ell3)%nat -> 1 / (1 + survey_zmax V) <= a <= 1 -> 0 <= linear c ((el ell3 l + 1 / 2) / Rmax (chi c a) 1) a eisenhu) /\
  (2 <= length ell3)%nat /\ (forall l, (l < length ell3)%nat -> 0 < knox_norm ell3 0.25 l) /\ length (repeat 0 9) = (length ell3 * length (get_cl_ordering V))%nat.
Proof.
  cbv zeta. destruct ex_nuisance as (H1 & H2 & H3 & H4 & H5 & _ & H7 & _). destruct ex_nuisance_survey as (_ & _ & _ & _ & _ & _ & _ & _ & _ & _ & _ & _ & _ & _ & _ & _ & P1 & P2 & P3 & _).
  do 5 (split; [ assumption | ]).
  assert (HB : forall p d, In p soft_values -> In d (bins_of p) -> nz_zmax d = 4 /\ is_delta d = false /\ nz_gals d = 27) by (intros p d [<- | [<- | []]] [<- | []]; repeat split).
  split; [ | split; [ | split; [ | split; [ | split; [ | split; [ exact P1 | split; [ exact P3 | reflexivity ]]]]]]].
  - intros d Hd. apply in_concat in Hd. destruct Hd as (l & Hl & Hd). apply in_map_iff in Hl. destruct Hl as (p & <- & Hp). destruct (HB p d Hp Hd) as (E1 & E2 & _). split; [ rewrite E1; apply tab_below4; lra | ]. intros z0 E. unfold is_delta in E2. now rewrite E in E2.
  - split; [ discriminate | ]. intros p [<- | [<- | []]]; unfold ProbesSpec.probe_ok; cbn; repeat split; try discriminate. intros d [<- | []]. reflexivity.
  - apply noise_positive_suff. intros p [<- | [<- | []]]; (split; [ | try exact I ]); cbn.
    + intros d [<- | []]; cbn; lra.
    + split; [ exact I | intros; lra ].
    + intros d [<- | []]; cbn; lra.
  - intros p d Hp Hd. destruct (HB p d Hp Hd) as (-> & _). lra.
  - intros l a _ _. unfold linear. now apply linear_nonneg.
Qed.
Lemma ex_soft_leaf : let S := soft_leaf_survey in map (read_probe fst) S = soft_values /\ soft_leaves S /\ (forall p b, In p S -> In b (gbins_of p) -> fst (gnz_gals b) <> 0) /\
  (exists p d, In p S /\ In d (gbins_of p) /\ root_leaf 0 d) /\ (exists p d, In p S /\ In d (gbins_of p) /\ root_leaf 1 d).
Proof.
  cbv zeta. assert (RT : forall p d, In p soft_leaf_survey -> In d (gbins_of p) -> root_leaf 0 d \/ root_leaf 1 d) by (intros p d [<- | [<- | []]] [<- | []]; [ right | left ]; cbn; repeat split; lra).
  split; [ reflexivity | split; [ | split; [ | split ]]].
  - intros w p' Hp'. apply in_map_iff in Hp'. destruct Hp' as (p & <- & Hp). split.
    + intros d' Hd'. rewrite w_bins in Hd'. apply in_map_iff in Hd'. destruct Hd' as (d & <- & Hd).
      assert (HX : forall q, 0 <= q -> ex_derive (fun t => pz (read_nz (at_time t) (nz_map (slope_pair w) d)) q) 0).
      { intros q Hq. apply (ex_derive_ext (fun t => pz (read_nz (leaf_at w t) d) q)); [ intros t; now rewrite read_nz_map | ]. destruct (RT p d Hp Hd) as [HR | HR]; apply (proj1 (root_nan _ d q HR Hq)). }
      destruct (RT p d Hp Hd) as [HR | HR]; destruct d as [[ | | | ] ? ?]; try exact HX; destruct HR.
    + destruct Hp as [<- | [<- | []]]; exact I.
  - intros p b [<- | [<- | []]] [<- | []]; cbn; lra.
  - exists (GPNC (GNC [lsst_leaf] (GOneBias (gconstant_linear_bias (1, None))))), lsst_leaf. split; [ right; now left | split; [ now left | apply ex_root ]].
  - eexists. eexists. split; [ now left | split; [ now left | ]]. cbn. repeat split; lra.
Qed.
Lemma ex_soft_x : let S := soft_x_survey in map (read_probe x_val) S = soft_values /\ soft_survey (map (probe_map (fun x => (x_val x, x_tan x))) S) /\ (forall p b, In p S -> In b (gbins_of p) -> x_val (gnz_gals b) <> 0) /\
  (exists p d, In p S /\ In d (gbins_of p) /\ (root_smail d \/ root_shift d)).
Proof.
  cbv zeta. split; [ reflexivity | split; [ | split ]].
  - intros p' Hp'. apply in_map_iff in Hp'. destruct Hp' as (p & <- & Hp). split; [ | destruct Hp as [<- | [<- | []]]; exact I ].
    intros d' Hd'. rewrite w_bins in Hd'. apply in_map_iff in Hd'. destruct Hd' as (d & <- & Hd).
    assert (HX : forall q, 0 <= q -> ex_derive (fun t => pz (read_nz (at_time t) (nz_map (fun x => (x_val x, x_tan x)) d)) q) 0).
    { intros q Hq. apply (ex_derive_ext (fun t => pz (read_nz (AdNanSpec.moving t) d) q)); [ intros t; now rewrite read_nz_map | ].
      destruct Hp as [<- | [<- | []]]; destruct Hd as [<- | []]; [ apply root_shift_nan; [ apply lsst_root | exact Hq ] | apply root_smail_nan; [ apply lsst_root | cbn; lra | exact Hq ]]. }
    destruct Hp as [<- | [<- | []]]; destruct Hd as [<- | []]; exact HX.
  - intros p b [<- | [<- | []]] [<- | []]; cbn; unfold x_val; cbn; lra.
  - eexists. exists lsst. split; [ right; now left | split; [ now left | left; apply lsst_root ]].
Qed.
(** "the gradient of the log-likelihood is finite wherever the log-likelihood is differentiable" is false *)
Lemma grad_survey_refuted : exists la xl c (S : list (gprobe leaf)) ells data f_sky, linalg_ok la /\ linalg_shaped la /\ exact_on_finite la xl /\
  forall P sparse il method, sparse = true \/ method = "inverse"%string \/ method = "cholesky"%string ->
  (forall w, exists f, (forall t, survey_likelihood la c ells (survey_at w t S) eisenhu linear f_sky sparse data il method = Ok (f t)) /\ ex_derive f 0) /\
  exists x, hsurvey_likelihood num_xb (linalg_xb xl) (xcosmo (fixed_cosmo c)) ells (xprobes S) P f_sky sparse data il method = Ok x /\ partial x 0 = NaN /\ partial x 1 = NaN.
Proof.
  destruct ex_exact as (la & xl & O1 & O2 & O3). exists la, xl, Planck15, soft_leaf_survey, ell3, (repeat 0 9), 0.25. do 3 (split; [ assumption | ]). intros P sparse il method HM.
  destruct soft_values_ok as (H1 & H2 & H3 & H4 & H5 & H6 & H7 & H8 & H9 & H10 & H11 & H12 & H13). destruct ex_soft_leaf as (EV & S1 & S2 & S3 & S4).
  destruct (grad_survey_nan la xl Planck15 soft_leaf_survey ell3 eisenhu linear P 0.25 sparse (repeat 0 9) il method 0) as (F & x & E & N0); rewrite ?EV; try assumption.
  destruct (grad_survey_nan la xl Planck15 soft_leaf_survey ell3 eisenhu linear P 0.25 sparse (repeat 0 9) il method 1) as (_ & x' & E' & N1); rewrite ?EV; try assumption.
  split; [ exact F | ]. exists x. rewrite E in E'. apply ok_inj in E'. subst x'. split; [ exact E | split; [ exact N0 | exact N1 ]].
Qed.
Lemma jvp_survey_refuted : exists la xl c (S : list (gprobe xdual)) ells data f_sky, linalg_ok la /\ linalg_shaped la /\ exact_on_finite la xl /\
  forall P sparse il method, sparse = true \/ method = "inverse"%string \/ method = "cholesky"%string ->
  (exists f, (forall t, survey_likelihood la c ells (map (read_probe (AdNanSpec.moving t)) S) eisenhu linear f_sky sparse data il method = Ok (f t)) /\ ex_derive f 0) /\
  exists x, hsurvey_likelihood num_x (linalg_x xl) (cosmo_map AdNanSpec.still (lift_cosmo c)) ells S P f_sky sparse data il method = Ok x /\ snd x = Some NaN.
Proof.
  destruct ex_exact as (la & xl & O1 & O2 & O3). exists la, xl, Planck15, soft_x_survey, ell3, (repeat 0 9), 0.25. do 3 (split; [ assumption | ]). intros P sparse il method HM.
  destruct soft_values_ok as (H1 & H2 & H3 & H4 & H5 & H6 & H7 & H8 & H9 & H10 & H11 & H12 & H13). destruct ex_soft_x as (EV & S1 & S2 & S3).
  apply jvp_survey_nan; rewrite ?EV; assumption.
Qed.
