(** * A survey with moving redshift distributions, biases and calibrations *)
From Coquelicot Require Import Coquelicot.
From Verif Require Import Np NpLemmas Core Ode OdeSpec OdeProofs Interp InterpProofs Integrate IntegrateSpec SimpsProofs Background BgSpec BgAlgebra BgTables
  BgGrowth BgPositive BgProofs BgFinal BgFinal4 BgGrad Transfer TransferProofs Power ExPower Redshift RedshiftProofs RedshiftShape Bias Probes AngularCl GradSpec
  Ad AdSpec AdFinal AdPower AdPowerFinal AdProbesFinal AdArrSpec ExAdProbes AdNuis AdNuisSpec AdNuisNz AdNuisFinal.
Opaque chi_table growth_table_ODE growth_table_gamma logspace.

(** the parameters move with the second component: a Smail distribution shifted by 0, at the rate 1; a source plane at z = 2/3;
    a catalogue of two galaxies; calibrations; alignments of the DES Y1 form; a galaxy bias *)
Definition mv_shift : gnz dual := GNz (GShift (GNz (GSmail (2, 1) (1.5, 1) (0.5, 1)) (1, 0) 2) (0, 1)) (1, 1) 2.
Definition mv_plane : gnz dual := GNz (GDelta (2 / 3, 1)) (1, 1) 2.
Definition mv_smail : gnz dual := GNz (GSmail (1, 1) (1, 1) (1, 1)) (1, 0) 2.
Definition mv_kde : gnz dual := GNz (GKde [(0.5, 1); (1, 0)] [(1, 1); (2, 0)] 0.1) (1, 0) 2.
Definition mv_survey : list (gprobe dual) :=
  [GPWL (GWL [mv_shift; mv_plane] (GMList [(0.01, 1); (0, 1)]) None (SScalar 0.26));
   GPWL (GWL [mv_smail] (GMScalar (0, 1)) (Some (GOneBias (gdes_y1_ia_bias (1, 1) (0.5, 1) (0.62, 1)))) (SScalar 0.26));
   GPNC (GNC [mv_kde] (GOneBias (ginverse_growth_linear_bias (1, 1))))].
Lemma mv_bins d : In d (concat (map bins_of (values mv_survey))) -> nz_zmax d = 2 /\ forall z0, nz_fam d = Delta z0 -> 1 / 4 <= z0 <= 2.
Proof.
  unfold values, mv_survey. cbn [map read_probe bins_of wl_bins nc_bins gwl_bins gnc_bins concat app In]. intros Hd.
  repeat (destruct Hd as [<- | Hd]; [ split; [ reflexivity | ] | ]); try contradiction; intros z0 E; inversion E; cbn [fst]; lra.
Qed.
(** 3/5 is not a power of 10 to the 1/85: 3^85 10^k is even and 5^85 is odd *)
Lemma off_table i : (2 <= i <= 254)%nat -> 3 / 5 <> table_node 256 i.
Proof.
  intros Hi E. rewrite <- anode_table in E. unfold anode, pow10 in E. set (k := (255 - i)%nat).
  assert (EX : INR i = 255 - INR k) by (unfold k; rewrite minus_INR by lia; replace (INR 255) with 255 by (rewrite INR_IZR_INZ; reflexivity); lra).
  replace (INR (256 - 1)) with 255 in E by (rewrite INR_IZR_INZ; reflexivity).
  assert (P : (3 / 5) ^ 85 = / 10 ^ k).
  { rewrite E. rewrite <- Rpower_pow by apply exp_pos. unfold Rpower. rewrite ln_exp. replace (INR 85) with 85 by (rewrite INR_IZR_INZ; reflexivity).
    rewrite <- Rpower_pow by lra. unfold Rpower. rewrite <- exp_Ropp. f_equal. rewrite EX. field_simplify. lra. }
  assert (Q : 3 ^ 85 * 10 ^ k = 5 ^ 85).
  { assert (T1 : 0 < 10 ^ k) by (apply pow_lt; lra). assert (T2 : 0 < 5 ^ 85) by (apply pow_lt; lra). unfold Rdiv in P. rewrite Rpow_mult_distr, pow_inv in P.
    apply (Rmult_eq_reg_r (/ 5 ^ 85 * / 10 ^ k)); [ | apply Rmult_integral_contrapositive_currified; apply Rinv_neq_0_compat; lra ].
    replace (3 ^ 85 * 10 ^ k * (/ 5 ^ 85 * / 10 ^ k)) with (3 ^ 85 * / 5 ^ 85) by (field; lra). rewrite P. field. lra. }
  assert (K : exists m, k = S m) by (exists (254 - i)%nat; unfold k; lia). destruct K as (m & Km). rewrite Km in Q.
  assert (ZQ : (3 ^ 85 * 10 ^ Z.of_nat (S m) = 5 ^ 85)%Z).
  { apply eq_IZR. rewrite mult_IZR, <- !(pow_IZR _ (S m)). change (3 ^ 85)%Z with (3 ^ Z.of_nat 85)%Z. change (5 ^ 85)%Z with (5 ^ Z.of_nat 85)%Z. rewrite <- !pow_IZR. exact Q. }
  assert (EV : Z.even (3 ^ 85 * 10 ^ Z.of_nat (S m)) = true) by (rewrite Nat2Z.inj_succ, Z.pow_succ_r by lia; rewrite !Z.even_mul; cbn; reflexivity).
  rewrite ZQ in EV. vm_compute in EV. discriminate.
Qed.
Lemma off_limber b : limber_epoch (values mv_survey) b -> 3 / 5 <> b.
Proof.
  intros (zm & i & Hm & Hi & ->). apply deepest2 in Hm; [ | intros d Hd; now apply mv_bins ]. subst zm. intros E. assert (X : INR (5 * i) = INR 1024).
  { rewrite mult_INR. replace (INR 5) with 5 by (rewrite INR_IZR_INZ; reflexivity). replace (INR 1024) with 1024 by (rewrite INR_IZR_INZ; reflexivity). lra. }
  apply INR_eq in X. lia.
Qed.
Lemma mv_norm d : (forall z, 0 < z -> 0 < pz_fn d z) -> (0 <= pz_fn d 0) -> nz_zmax d = 2 -> simpson (pz_fn d) 0 (nz_zmax d) 256 <> 0.
Proof.
  intros HP H0 ->. apply Rgt_not_eq. assert (ND : forall j, 0 <= node 0 2 256 j /\ ((0 < j)%nat -> 0 < node 0 2 256 j)).
  { intros j. unfold node. replace (INR 256) with 256 by (rewrite INR_IZR_INZ; reflexivity). assert (J := pos_INR j). split; [ lra | ]. intros Hj. apply lt_0_INR in Hj. lra. }
  apply (simpson_pos_one _ _ _ _ 1); [ lra | lia | reflexivity | lia | | apply HP, ND; lia ].
  intros j _. destruct (ND j) as [[L | L] _]; [ left; now apply HP | rewrite <- L; exact H0 ].
Qed.
Lemma rpow_0_nonneg x y : 0 <= rpow x y. Proof. apply rpow_nonneg. Qed.
Lemma rpow_gt0 x y : 0 < x -> 0 < rpow x y.
Proof. intros Hx. unfold rpow. destruct (Req_EM_T x 0); [ lra | apply exp_pos ]. Qed.
Lemma smail_pos a b z0 z : 0 < z -> 0 < fam_pz (Smail a b z0) z. Proof. intros Hz. cbn [fam_pz]. apply Rmult_lt_0_compat; [ now apply rpow_gt0 | apply exp_pos ]. Qed.
Lemma smail_nonneg a b z0 z : 0 <= fam_pz (Smail a b z0) z. Proof. cbn [fam_pz]. apply Rmult_le_pos; [ apply rpow_nonneg | left; apply exp_pos ]. Qed.
Lemma kde_pos z : 0 < fam_pz (Kde [0.5; 1] [1; 2] 0.1) z.
Proof.
  assert (K : forall X, 0 < kde_kernel 0.1 X z).
  { intros X. unfold kde_kernel. apply Rmult_lt_0_compat; [ | apply exp_pos ]. apply Rdiv_lt_0_compat; [ | lra ]. apply Rdiv_lt_0_compat; [ lra | ]. apply sqrt_lt_R0. pose proof PI_RGT_0. lra. }
  cbn [fam_pz map]. unfold vdot, vmul, vsum. cbn [combine map fold_right fst snd map2]. assert (K1 := K 0.5). assert (K2 := K 1). apply Rdiv_lt_0_compat; lra.
Qed.
Lemma mv_smooth : survey_smooth mv_survey.
Proof.
  assert (B1 : forall lens probes, bin_smooth lens probes mv_shift).
  { intros lens probes. assert (ST : steep (nz_new (Smail 2 1.5 0.5) 1 2)) by (cbn; lra).
    assert (SM : forall x, smooth_nz (read_nz fst mv_shift) x) by (intros x; cbn; split; [ right; cbn; lra | lra ]).
    split; [ split; [ intros i _; apply SM | ] | intros z _; apply SM ].
    apply mv_norm; [ | | reflexivity ]; cbn [mv_shift read_nz nz_new pz_fn read_fam fst]; cbn [fam_pz pz_fn nz_new]; [ intros z Hz; unfold clip_lo; rewrite Rmax_left by lra; apply smail_pos; lra | apply smail_nonneg ]. }
  assert (B3 : forall lens probes, bin_smooth lens probes mv_smail).
  { intros lens probes. assert (SM : forall x, smooth_nz (read_nz fst mv_smail) x) by (intros x; cbn; lra).
    split; [ split; [ intros i _; apply SM | ] | intros z _; apply SM ]. apply mv_norm; [ | | reflexivity ]; [ intros z Hz; now apply smail_pos | apply smail_nonneg ]. }
  assert (B4 : forall lens probes, bin_smooth lens probes mv_kde).
  { intros lens probes. assert (SM : forall x, smooth_nz (read_nz fst mv_kde) x) by (intros x; cbn; repeat split; lra).
    split; [ split; [ intros i _; apply SM | ] | intros z _; apply SM ]. apply mv_norm; [ | | reflexivity ]; [ intros z Hz; apply kde_pos | left; apply kde_pos ]. }
  assert (B2 : bin_smooth (limber_epoch (values mv_survey)) (values mv_survey) mv_plane).
  { right. assert (E : 1 / (1 + fst ((2 / 3, 1) : dual)) = 3 / 5) by (cbn [fst]; field). rewrite E. split; [ cbn [fst]; lra | split; [ exact off_table | exact off_limber ]]. }
  intros p Hp. cbn [mv_survey In] in Hp. destruct Hp as [<- | [<- | [<- | []]]].
  - split; [ | exact I ]. intros d Hd. destruct Hd as [<- | [<- | []]]; [ apply B1 | apply B2 ].
  - split; [ | cbn; lra ]. intros d Hd. destruct Hd as [<- | []]. apply B3.
  - split; [ | exact I ]. intros d Hd. destruct Hd as [<- | []]. apply B4.
Qed.
Lemma ex_nuisance : built Planck15 /\ expanding Planck15 /\ _gamma Planck15 = None /\ physical Planck15 /\ moderate Planck15 /\
  (forall d, transfer_moves eisenhu (geisenhu num_dual) Planck15 d) /\ sigmasqr_default Planck15 8.0 eisenhu <> 0 /\
  shallow (concat (map bins_of (values mv_survey))) /\ off_clip chi Planck15 (values mv_survey) /\ survey_smooth mv_survey.
Proof.
  destruct ex_C122 as (H1 & H2 & H3 & H4 & H5 & H6 & _ & H7 & _). destruct (survey_ok _ mv_bins) as [S1 S2]. repeat (split; [ assumption | ]). exact mv_smooth.
Qed.
