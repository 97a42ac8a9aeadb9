(** * A survey that meets the hypotheses of the derivative theorems *)
From Coquelicot Require Import Coquelicot.
From Verif Require Import Np NpLemmas Core Ode OdeSpec OdeProofs Interp InterpProofs Integrate IntegrateSpec Background BgSpec BgAlgebra BgTables
  BgGrowth BgPositive BgProofs BgFinal BgFinal4 BgGrad Transfer TransferProofs Power ExPower Redshift Bias Probes AngularCl GradSpec
  Ad AdSpec AdFinal AdPower AdPowerFinal AdProbesFinal AdArrSpec.
Opaque chi_table growth_table_ODE growth_table_gamma logspace.

Lemma ln10_bounds : 2 <= ln 10 <= 9.
Proof.
  split.
  - rewrite <- (ln_exp 2). destruct (Req_dec (exp 2) 10) as [-> | NE]; [ lra | ]. left. apply ln_increasing; [ apply exp_pos | ].
    replace 2 with (1 + 1) by ring. rewrite exp_plus. pose proof exp_le_3. pose proof (exp_pos 1). nra.
  - replace 9 with (10 - 1) by ring. assert (H := exp_ineq1_le (ln 10)). rewrite exp_ln in H by lra. lra.
Qed.
Lemma node254 : 0.8 <= table_node 256 254 <= 0.985.
Proof.
  destruct ln10_bounds as [L1 L2]. rewrite <- anode_table. unfold anode, pow10.
  replace (INR 254) with 254 by (rewrite INR_IZR_INZ; reflexivity). replace (INR (256 - 1)) with 255 by (rewrite INR_IZR_INZ; reflexivity).
  set (x := _ * ln 10). assert (E : x = - (3 / 255 * ln 10)) by (unfold x; lra). rewrite E. set (y := 3 / 255 * ln 10) in *.
  assert (Hy : 0.02 <= y <= 0.11) by (unfold y; lra). split.
  - pose proof (exp_ineq1_le (- y)). lra.
  - rewrite exp_Ropp. pose proof (exp_ineq1_le y). apply (Rle_trans _ (/ 1.02)); [ apply Rinv_le_contravar; lra | lra ].
Qed.
Lemma Esqr_planck a : 0.8 <= a <= 1 -> 0 < Esqr Planck15 a <= 4.
Proof.
  intros Ha. destruct planck_ok as (_ & _ & _ & HE & _). split; [ apply HE; lra | ]. unfold Esqr.
  assert (F : f_de Planck15 a = 0) by (unfold f_de, Planck15, make_cosmology; cbn [_w0 _wa]; lra). rewrite F, exp_0.
  assert (C : / a ^ 3 <= 2) by (rewrite <- (Rinv_involutive 2) by lra; apply Rinv_le_contravar; [ lra | nra ]).
  unfold Omega_m, Omega_de, Omega_k, Omega, Planck15, make_cosmology. cbn [_Omega_b _Omega_c _Omega_k].
  unfold Omega_m. cbn [_Omega_b _Omega_c _Omega_k]. lra.
Qed.
Lemma far_planck a : a <= 0.9988 -> 1 < chi Planck15 a.
Proof.
  intros Ha. destruct planck_ok as (Rc & _ & _ & HE & _). destruct (distance_properties Planck15 Rc HE) as (_ & C1 & _ & AN & _).
  apply (Rlt_le_trans _ (chi Planck15 0.9988)); [ | now apply AN ].
  destruct node254 as [N1 N2]. rewrite (chi_edge Planck15 0.9988 planck_built HE) by lra. apply (Rlt_le_trans _ (last_slope (chi Planck15) 256 * (0.9988 - 1))); [ | apply Rmax_l ].
  unfold last_slope. change (256 - 2)%nat with 254%nat. rewrite C1. set (x := table_node 256 254) in *.
  assert (S := distance_simpson Planck15 254 Rc HE ltac:(lia) ltac:(lia)). cbv zeta in S. change (254 + 1)%nat with 255%nat in S. fold x in S.
  assert (EN : table_node 256 255 = 1) by (rewrite <- anode_table; change (anode (-3) 256 255) with (anode (-3) 256 (256 - 1)); apply anode_last; lia). rewrite EN, C1, ln_1, Rminus_0_r in S.
  assert (G : forall q, ln x <= q <= 0 -> 1498 <= 2997.92458 / (exp q * sqrt (Esqr Planck15 (exp q)))).
  { intros q [Q1 Q2]. assert (E1 : 0.8 <= exp q <= 1).
    { split; [ rewrite <- (exp_ln x) in N1 by lra; destruct Q1 as [Q1 | <-]; [ apply exp_increasing in Q1; lra | lra ] | rewrite <- exp_0; destruct Q2 as [Q2 | ->]; [ apply exp_increasing in Q2; lra | lra ]]. }
    destruct (Esqr_planck (exp q) E1) as [P1 P2]. assert (SQ : 0 < sqrt (Esqr Planck15 (exp q)) <= 2).
    { split; [ now apply sqrt_lt_R0 | ]. replace 2 with (sqrt (2 * 2)) by (apply sqrt_square; lra). apply sqrt_le_1_alt. lra. }
    set (u := sqrt _) in *. assert (0 < exp q * u <= 2) by nra. set (v := exp q * u) in *. apply (Rmult_le_reg_r v); [ lra | ]. unfold Rdiv. rewrite Rmult_assoc, Rinv_l by lra. lra. }
  assert (LX : ln x <= x - 1) by (assert (EI := exp_ineq1_le (ln x)); rewrite exp_ln in EI by lra; lra).
  assert (SL : forall f, (forall q, ln x <= q <= 0 -> 1498 <= f q) -> 1498 * (1 - x) <= simpson f (ln x) 0 2).
  { intros f H0. unfold simpson. change (2 / 2)%nat with 1%nat. cbn [Rsum]. cbv beta.
    assert (ND : forall i, (i <= 2)%nat -> 1498 <= f (node (ln x) 0 2 i)).
    { intros i Hi. apply H0. unfold node. replace (INR 2) with 2 by reflexivity. assert (0 <= INR i <= 2) by (split; [ apply pos_INR | apply (le_INR i 2), Hi ]). split; nra. }
    assert (K0 := ND 0%nat ltac:(lia)). assert (K1 := ND 1%nat ltac:(lia)). assert (K2 := ND 2%nat ltac:(lia)).
    change (2 * 0)%nat with 0%nat. change (0 + 1)%nat with 1%nat. change (0 + 2)%nat with 2%nat. replace (INR 2) with 2 by reflexivity. set (w := 0 - ln x) in *. assert (W : 1 - x <= w) by (unfold w; lra).
    apply (Rle_trans _ (w / 2 / 3 * (6 * 1498))); [ lra | ]. apply Rmult_le_compat_l; lra. }
  assert (CX : 1498 * (1 - x) <= chi Planck15 x) by (rewrite S; now apply SL).
  replace (0.9988 - 1) with (- (12 / 10000)) by lra. replace ((0 - chi Planck15 x) / (1 - x) * - (12 / 10000)) with (chi Planck15 x / (1 - x) * (12 / 10000)) by (field; lra).
  assert (1498 <= chi Planck15 x / (1 - x)) by (apply (Rmult_le_reg_r (1 - x)); [ lra | unfold Rdiv; rewrite Rmult_assoc, Rinv_l by lra; lra ]). lra.
Qed.

(** a survey to z = 2: two lensing bins, one of them at a single redshift, with intrinsic alignments left out, and a number
    counts bin with the bias of the growth factor *)
Definition ex_wl : nz := nz_new (Smail 1 2 1) 1 2.
Definition ex_plane : nz := nz_new (Delta 1) 1 2.
Definition ex_nc : nz := nz_new (Smail 2 2 1) 1 2.
Definition ex_survey : list probe :=
  [PWL (WL [ex_wl; ex_plane] (MScalar 0) None (SScalar 0.26)); PNC (NC [ex_nc] (OneBias (inverse_growth_linear_bias 1)))].
(** intrinsic alignments *)
Definition ex_aligned : list probe := [PWL (WL [ex_wl] (MList [0.01]) (Some (OneBias (constant_linear_bias 1))) (SScalar 0.26))].
Lemma tab_below z : 0 <= z <= 2 -> tabulated z.
Proof.
  intros Hz. split; [ lra | ]. apply (Rle_trans _ (/ 3)).
  - rewrite <- anode_table. unfold anode, pow10. destruct ln10_bounds as [L1 L2].
    replace (INR 1) with 1 by reflexivity. replace (INR (128 - 1)) with 127 by (rewrite INR_IZR_INZ; reflexivity).
    set (x := _ * ln 10). assert (Hx : x <= - 2) by (unfold x; lra). replace x with (- (- x)) by ring. rewrite exp_Ropp. apply Rinv_le_contravar; [ lra | ].
    pose proof (exp_ineq1_le (- x)). lra.
  - unfold Rdiv. rewrite Rmult_1_l. apply Rinv_le_contravar; lra.
Qed.
Lemma deepest2 bins zm : (forall d, In d bins -> nz_zmax d = 2) -> deepest bins zm -> zm = 2.
Proof. intros HB [(d & Hd & <-) _]. now apply HB. Qed.
Lemma inv_le1 x y : 0 < x -> x <= y -> 1 / y <= 1 / x.
Proof. intros. unfold Rdiv. rewrite !Rmult_1_l. apply Rinv_le_contravar; lra. Qed.
Lemma survey_ok probes : (forall d, In d (concat (map bins_of probes)) -> nz_zmax d = 2 /\ forall z0, nz_fam d = Delta z0 -> 1 / 4 <= z0 <= 2) ->
  shallow (concat (map bins_of probes)) /\ off_clip chi Planck15 probes.
Proof.
  intros HB. destruct planck_ok as (Rc & _ & _ & HE & _). destruct (distance_properties Planck15 Rc HE) as (_ & C1 & _).
  assert (FAR : forall a, a <= 0.9988 -> chi Planck15 a <> 1) by (intros a Ha; pose proof (far_planck a Ha); lra).
  assert (NOW : chi Planck15 1 <> 1) by (rewrite C1; lra).
  split.
  - intros d Hd. destruct (HB d Hd) as [E1 E2]. split; [ rewrite E1; apply tab_below; lra | ]. intros z0 Ez. apply tab_below. specialize (E2 z0 Ez). lra.
  - intros b (zm & i & Hm & Hi & Eb). apply deepest2 in Hm; [ | intros d Hd; now apply HB ]. subst zm.
    assert (HI : INR i <= 512) by (apply le_INR in Hi; replace (INR 512) with 512 in Hi by (rewrite INR_IZR_INZ; reflexivity); exact Hi).
    assert (I0 := pos_INR i). assert (CB : b = 1 \/ 0.3 <= b <= 0.9988).
    { destruct (Nat.eq_dec i 512) as [-> | NE]; [ left; rewrite Eb; replace (INR 512) with 512 by (rewrite INR_IZR_INZ; reflexivity); lra | right ].
      assert (HJ : INR i <= 511) by (assert (Hj : (i <= 511)%nat) by lia; apply le_INR in Hj; replace (INR 511) with 511 in Hj by (rewrite INR_IZR_INZ; reflexivity); exact Hj). lra. }
    split; [ destruct CB as [-> | CB]; [ exact NOW | apply FAR; lra ] | ].
    intros p a Hp. assert (HS : forall d, In d (lensing_bins p) -> In d (concat (map bins_of probes))).
    { intros d Hd. apply in_concat. exists (bins_of p). split; [ now apply in_map | ]. destruct p; [ exact Hd | easy ]. }
    intros [(zm & j & Hm & Hj & ->) | (d & z0 & Hd & Ef & ->)].
    + apply deepest2 in Hm; [ | intros d Hd; now apply HB, HS ]. subst zm. set (z := 1 / b - 1). assert (J0 := pos_INR j).
      assert (HJ : INR j <= 256) by (apply le_INR in Hj; replace (INR 256) with 256 in Hj by (rewrite INR_IZR_INZ; reflexivity); exact Hj).
      destruct CB as [EB | CB].
      * assert (Z : z = 0) by (unfold z; rewrite EB; field). rewrite Z. destruct (Nat.eq_dec j 0) as [-> | NE].
        -- replace (1 / (1 + (0 + INR 0 * ((2 - 0) / 256)))) with 1 by (cbn [INR]; field). exact NOW.
        -- apply FAR. assert (1 <= INR j) by (apply (le_INR 1); lia). apply (Rle_trans _ (1 / (1 + 1 / 128))); [ apply inv_le1; lra | lra ].
      * apply FAR. assert (B1 : 1 / 0.9988 <= 1 / b) by (apply inv_le1; lra). assert (B2 : 1 / b <= 3).
        { rewrite Eb. replace 3 with (1 / (1 / 3)) by field. apply inv_le1; [ lra | ]. lra. }
        assert (Z1 : z <= 2) by (unfold z; lra). assert (Z0 : 0 <= INR j * ((2 - z) / 256)) by (apply Rmult_le_pos; lra).
        apply (Rle_trans _ (1 / (1 / 0.9988))); [ apply inv_le1; [ lra | unfold z in *; lra ] | lra ].
    + assert (Z := proj2 (HB d (HS d Hd)) z0 Ef). apply FAR. apply (Rle_trans _ (1 / (1 + 1 / 4))); [ apply inv_le1; lra | lra ].
Qed.
Lemma ex_bins probes : probes = ex_survey \/ probes = ex_aligned -> forall d, In d (concat (map bins_of probes)) -> nz_zmax d = 2 /\ forall z0, nz_fam d = Delta z0 -> 1 / 4 <= z0 <= 2.
Proof.
  intros [-> | ->] d; cbn [ex_survey ex_aligned map bins_of wl_bins nc_bins concat app In]; intros Hd; repeat (destruct Hd as [<- | Hd]; [ split; [ reflexivity | ] | ]); try contradiction; intros z0 E; inversion E; lra.
Qed.
Lemma ex_C122 : built Planck15 /\ expanding Planck15 /\ _gamma Planck15 = None /\ physical Planck15 /\ moderate Planck15 /\
  (forall d, transfer_moves eisenhu (geisenhu num_dual) Planck15 d) /\ (forall d, transfer_moves eisenhu_osc (geisenhu_osc num_dual) Planck15 d) /\
  sigmasqr_default Planck15 8.0 eisenhu <> 0 /\
  shallow (concat (map bins_of ex_survey)) /\ off_clip chi Planck15 ex_survey /\
  shallow (concat (map bins_of ex_aligned)) /\ off_clip chi Planck15 ex_aligned.
Proof.
  destruct planck_ok as (Rc & HP & HMo & HE & FG). destruct ex_planck_alpha as [PD PA].
  split; [ exact planck_built | split; [ exact HE | split; [ reflexivity | split; [ exact HP | split; [ exact HMo | ]]]]].
  split; [ intros d; apply eisenhu_moves; [ exact planck_built | exact PD | exact PA ] | ].
  split; [ intros d; apply eisenhu_osc_moves; [ exact planck_built | exact PD | unfold Planck15, make_cosmology; cbn [_Omega_c]; lra ] | ].
  split; [ apply ex_power_planck | ]. destruct (survey_ok ex_survey (ex_bins _ (or_introl eq_refl))) as [S1 S2]. destruct (survey_ok ex_aligned (ex_bins _ (or_intror eq_refl))) as [S3 S4]. auto.
Qed.
