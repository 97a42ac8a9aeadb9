(** * Jumps of the halofit scale in sigma8 *)
From Coq Require Import Reals Lra Lia List.
From Coquelicot Require Import Coquelicot.
From Verif Require Import Np NpLemmas Core Ode OdeSpec OdeProofs Interp InterpProofs InterpCont Integrate IntegrateSpec SimpsProofs Background BgSpec
  BgAlgebra BgTables BgGrowth BgPositive BgProofs BgFinal BgFinal2 BgFinal3 BgCont Transfer Power PowerProofs PowerFinal RedshiftShape
  DependsSpec BgDepends AmpScale PowerArrProofs HalofitScaleSpec HalofitScale.
Import ListNotations.
Local Open Scope R_scope.
Opaque chi_table growth_table_ODE growth_table_gamma logspace.

Lemma hf_logr_length : length hf_logr = 256%nat.
Proof. unfold hf_logr, linspace. apply length_tab. Qed.
Lemma ln_ratio : ln 1e1 - ln 1e-4 = ln 100000.
Proof. rewrite <- ln_quot by lra. f_equal. lra. Qed.
Lemma hf_logr_el i : (i < 256)%nat -> el hf_logr i = ln (search_radius i).
Proof.
  intros Hi. unfold hf_logr, linspace, el. rewrite nth_tab by assumption. unfold search_radius. rewrite ln_exp.
  replace (INR (256 - 1)) with 255 by (simpl; lra). rewrite ln_ratio. replace 1e-4 with (1 / 10000) by lra. reflexivity.
Qed.
Lemma ln5_pos : 0 < ln 100000 / 255.
Proof. apply Rdiv_lt_0_compat; [ rewrite <- ln_1; apply ln_increasing; lra | lra ]. Qed.
Lemma radius_pos i : 0 < search_radius i.
Proof. apply exp_pos. Qed.
Lemma radius_step i : search_radius (i + 1) = search_radius i * exp (ln 100000 / 255).
Proof. unfold search_radius. rewrite <- exp_plus. f_equal. rewrite plus_INR. simpl (INR 1). ring. Qed.
Lemma radius_lt i j : (i < j)%nat -> search_radius i < search_radius j.
Proof.
  intros H. unfold search_radius. apply exp_increasing. apply lt_INR in H. pose proof ln5_pos.
  apply Rplus_lt_compat_l. now apply Rmult_lt_compat_r.
Qed.
Lemma hf_logr_incr : incr hf_logr.
Proof.
  intros i j. rewrite hf_logr_length. intros Hij. rewrite !hf_logr_el by lia. apply ln_increasing; [ apply radius_pos | apply radius_lt; lia ].
Qed.

Section Scale.
Variables (Oc Ob h ns Ok_ w0 wa a : R) (gam : option R) (T : transfer).
Let C (s : R) : cosmology := make_cosmology Oc Ob h ns s Ok_ w0 wa gam.
Hypothesis HT : forall s k, T (C s) k = T (C 1) k.
Hypothesis HN : sigmasqr_default (C 1) 8.0 T <> 0.
Hypothesis HT0 : T (C 1) (1 / 10000) <> 0.
Hypotheses (HD : D (C 1) a <> 0) (HD1 : D (C 1) 1 <> 0).
Let P := fun k => linear_matter_power (C 1) k 1 T.
Let v := fun i => smoothed_variance P (D (C 1) a) (search_radius i).
Let t := hf_sigma (C 1) a T.

Lemma C_reach s : reachable (C s).
Proof. exists (C s), []. split; [ split; reflexivity | reflexivity ]. Qed.
Lemma C_same s : same_but_sigma8 (C 1) (C s).
Proof. repeat split. Qed.
Lemma P_nonneg k : 0 <= P k.
Proof. now apply linear_nonneg. Qed.
Lemma P_pos : 0 < P (1 / 10000).
Proof. apply linear_pos; auto; simpl; lra. Qed.
Lemma t_length : length t = 256%nat.
Proof. unfold t, hf_sigma. now rewrite map_length, hf_logr_length. Qed.
Lemma t_el i : (i < 256)%nat -> el t i = v i.
Proof.
  intros Hi. unfold t, hf_sigma, el. rewrite (nth_map_lt _ _ _ 0 0) by (now rewrite hf_logr_length).
  change (nth i hf_logr 0) with (el hf_logr i). rewrite hf_logr_el, exp_ln by (assumption || apply radius_pos).
  rewrite simps_val by (reflexivity || lia). unfold v, smoothed_variance.
  replace 1e-4 with (1 / 10000) by lra. replace 1e4 with 10000 by lra.
  apply simpson_ext. intros j _. unfold hf_int_sigma, P. replace 1.0 with 1 by lra. replace 2.0 with 2 by lra.
  set (x := exp _). replace (- (x * search_radius i) ^ 2) with (- ((x * search_radius i) ^ 2)) by ring. reflexivity.
Qed.
(** sigma8 rescales the table *)
Lemma t_scale s : hf_sigma (C s) a T = map (Rmult (s ^ 2)) t.
Proof.
  unfold t, hf_sigma. rewrite map_map. apply map_ext. intros lr. rewrite !simps_val by (reflexivity || lia).
  rewrite <- simpson_scal. apply simpson_ext. intros j _. unfold hf_int_sigma.
  rewrite <- (same_D (C 1) (C s) a (C_reach 1) (C_reach s) (sigma8_background _ _ (C_same s))).
  pose proof (sigma8_linear (C 1) (C s) T (exp (node (ln 1e-4) (ln 1e4) 256 j)) 1.0 (C_reach 1) (C_reach s) (C_same s) (fun k => eq_sym (HT s k))) as E.
  simpl _sigma8 in E. replace (1 ^ 2) with 1 in E by ring. rewrite Rmult_1_r in E. rewrite E. unfold Rdiv. ring.
Qed.

Lemma D2_pos : 0 < D (C 1) a ^ 2.
Proof. rewrite <- Rsqr_pow2. now apply Rsqr_pos_lt. Qed.
Lemma weight_nonneg x : 0 <= P (exp x) * exp x ^ 3 / (2 * PI ^ 2) * D (C 1) a ^ 2.
Proof.
  pose proof D2_pos. pose proof PI_RGT_0. assert (0 < 2 * PI ^ 2) by (assert (0 < PI ^ 2) by (now apply pow_lt); lra).
  apply Rmult_le_pos; [ | lra ]. apply Rmult_le_pos; [ | left; now apply Rinv_0_lt_compat ].
  apply Rmult_le_pos; [ apply P_nonneg | left; apply pow_lt, exp_pos ].
Qed.
Lemma weight_pos : 0 < P (exp (ln (1 / 10000))) * exp (ln (1 / 10000)) ^ 3 / (2 * PI ^ 2) * D (C 1) a ^ 2.
Proof.
  pose proof D2_pos. pose proof PI_RGT_0. assert (0 < 2 * PI ^ 2) by (assert (0 < PI ^ 2) by (now apply pow_lt); lra).
  rewrite exp_ln by lra. pose proof P_pos.
  apply Rmult_lt_0_compat; [ | lra ]. apply Rdiv_lt_0_compat; [ | lra ]. apply Rmult_lt_0_compat; [ lra | apply pow_lt; lra ].
Qed.
Lemma range_pos : ln (1 / 10000) < ln 10000.
Proof. apply ln_increasing; lra. Qed.
Lemma node0 x y N : node x y N 0 = x.
Proof. unfold node. simpl. ring. Qed.

(** combinations of table entries with a positive kernel *)
Lemma combo_pos (f : R -> R) : (forall k, 0 < k -> P k <> 0 -> 0 < f k) ->
  0 < simpson (fun x => P (exp x) * exp x ^ 3 / (2 * PI ^ 2) * D (C 1) a ^ 2 * f (exp x)) (ln (1 / 10000)) (ln 10000) 256.
Proof.
  intros Hf. apply (simpson_pos_one _ _ _ 256 0); [ apply range_pos | lia | reflexivity | lia | | ].
  - intros j _. set (x := node _ _ _ _). pose proof (weight_nonneg x) as W. destruct (Req_dec (P (exp x)) 0) as [Z | NZ].
    + rewrite Z. unfold Rdiv. rewrite !Rmult_0_l. lra.
    + apply Rmult_le_pos; [ assumption | ]. left. apply Hf; [ apply exp_pos | assumption ].
  - rewrite node0. apply Rmult_lt_0_compat; [ apply weight_pos | ]. apply Hf; [ apply exp_pos | ]. rewrite exp_ln by lra. pose proof P_pos. lra.
Qed.
Lemma v_form i : v i = simpson (fun x => P (exp x) * exp x ^ 3 / (2 * PI ^ 2) * D (C 1) a ^ 2 * exp (- (exp x * search_radius i) ^ 2)) (ln (1 / 10000)) (ln 10000) 256.
Proof. unfold v, smoothed_variance. apply simpson_ext. intros j _. unfold Rdiv. ring. Qed.
Lemma v_pos i : 0 < v i.
Proof. rewrite v_form. apply (combo_pos (fun k => exp (- (k * search_radius i) ^ 2))). intros. apply exp_pos. Qed.
Lemma v_lt i j : (i < j)%nat -> v j < v i.
Proof.
  intros Hij. assert (Q : 0 < v i + (-1) * v j); [ | lra ].
  rewrite !v_form, <- simpson_scal, <- simpson_plus.
  erewrite simpson_ext; [ apply (combo_pos (fun k => exp (- (k * search_radius i) ^ 2) - exp (- (k * search_radius j) ^ 2))) | ].
  - intros k Hk _. assert (exp (- (k * search_radius j) ^ 2) < exp (- (k * search_radius i) ^ 2)); [ | lra ].
    apply exp_increasing. pose proof (radius_pos i). pose proof (radius_lt i j Hij).
    assert ((k * search_radius i) ^ 2 < (k * search_radius j) ^ 2); [ | lra ].
    rewrite <- !Rsqr_pow2. apply Rsqr_incrst_1; [ now apply Rmult_lt_compat_l | left; now apply Rmult_lt_0_compat | left; apply Rmult_lt_0_compat; lra ].
  - intros q _. cbv beta. unfold Rdiv. ring.
Qed.
Lemma t_decr : decr t.
Proof. intros i j. rewrite t_length. intros H. rewrite !t_el by lia. apply v_lt; lia. Qed.

Lemma halofit_jump i : (1 <= i)%nat -> (i + 1 < 254)%nat ->
  0 < v (i + 1)%nat < v i /\
  (continuity_pt (fun s => fst (fst (halofit_parameters (C s) a T))) (/ sqrt ((v i + v (i + 1)%nat) / 2)) <->
   v (i - 1)%nat - v i = v i - v (i + 1)%nat).
Proof.
  intros H1 H2. split; [ split; [ apply v_pos | apply v_lt; lia ] | ].
  assert (HF : forall s, 0 < s -> fst (fst (halofit_parameters (C s) a T)) = 1.0 / clip_lo (exp (interp1 1.0 (map (Rmult (s ^ 2)) t) hf_logr)) 1e-6).
  { intros s _. unfold halofit_parameters. cbn [fst]. unfold k_nl, R_nl. now rewrite t_scale. }
  pose proof (jump_iff t hf_logr (fun s => fst (fst (halofit_parameters (C s) a T))) i) as J.
  rewrite t_length, hf_logr_length in J. specialize (J ltac:(lia) eq_refl t_decr hf_logr_incr).
  assert (L0 : ln 1e-6 <= el hf_logr 0).
  { rewrite hf_logr_el by lia. left. apply ln_increasing; [ lra | ]. unfold search_radius. simpl INR. rewrite Rmult_0_l, Rplus_0_r, exp_ln; lra. }
  specialize (J L0 H1 ltac:(lia)). rewrite !t_el in J by lia. specialize (J (v_pos _) HF). cbv zeta in J.
  assert (S : forall k, (k + 1 < 256)%nat -> el hf_logr (k + 1) - el hf_logr k = ln 100000 / 255).
  { intros k Hk. rewrite !hf_logr_el by lia. rewrite radius_step, ln_mult, ln_exp by (apply radius_pos || apply exp_pos). ring. }
  pose proof (S i ltac:(lia)) as S1. pose proof (S (i - 1)%nat ltac:(lia)) as S2. replace (i - 1 + 1)%nat with i in S2 by lia.
  rewrite S1, S2 in J. pose proof ln5_pos. replace (ln 100000 / 255 / (ln 100000 / 255)) with 1 in J by (field; lra).
  rewrite J. split; intros; lra.
Qed.

(** with a small-scale cut-off the first differences of the table grow *)
Lemma gauss_concave x p : 0 < x -> 1 < p -> x * p ^ 2 <= 1 -> exp (- x) - exp (- (p * x)) < exp (- (p * x)) - exp (- (p * (p * x))).
Proof.
  intros Hx Hp Hb.
  set (f := fun u => exp (- u) - exp (- (p * u))). set (f' := fun u => - exp (- u) + p * exp (- (p * u))).
  change (f x < f (p * x)).
  assert (Hlt : x < p * x) by nra.
  assert (HD' : forall u, derivable_pt_lim f u (f' u)).
  { intros u. apply is_derive_Reals. unfold f, f'. auto_derive; [ exact I | ring ]. }
  destruct (MVT_cor2 f f' x (p * x) Hlt) as (u & Eu & Hu); [ intros; apply HD' | ].
  assert (0 < f' u).
  { unfold f'. assert (Hlp : 1 - / p < ln p).
    { assert (Q : exp (- ln p) = / p) by (rewrite exp_Ropp, exp_ln; lra).
      assert (Q2 : 0 < ln p) by (rewrite <- ln_1; apply ln_increasing; lra).
      pose proof (exp_ineq1 (- ln p) ltac:(lra)). lra. }
    assert (Hpu : p * u <= 1) by nra.
    assert (Hup : (p - 1) * u <= 1 - / p).
    { replace (1 - / p) with ((p - 1) * / p) by (field; lra). apply Rmult_le_compat_l; [ lra | ].
      apply Rmult_le_reg_l with p; [ lra | ]. rewrite Rinv_r; lra. }
    assert (exp (- u) < p * exp (- (p * u))); [ | lra ].
    replace (p * exp (- (p * u))) with (exp (ln p + - (p * u))) by (rewrite exp_plus, exp_ln; lra).
    apply exp_increasing. lra. }
  assert (0 < f' u * (p * x - x)) by (apply Rmult_lt_0_compat; lra). lra.
Qed.

Lemma cutoff_grows : (forall k, 5000 < k -> T (C 1) k = 0) -> v 1%nat - v 2%nat < v 2%nat - v 3%nat.
Proof.
  intros Hcut. assert (Q : 0 < 2 * v 2%nat + ((-1) * v 1%nat + (-1) * v 3%nat)); [ | lra ].
  rewrite !v_form, <- !simpson_scal, <- !simpson_plus.
  erewrite simpson_ext; [ apply (combo_pos (fun k => 2 * exp (- (k * search_radius 2) ^ 2) - exp (- (k * search_radius 1) ^ 2) - exp (- (k * search_radius 3) ^ 2))) | ].
  2:{ intros q _. cbv beta. unfold Rdiv. ring. }
  intros k Hk HP. assert (K : k <= 5000).
  { destruct (Rle_dec k 5000) as [ | N]; [ assumption | exfalso; apply HP ]. unfold P, linear_matter_power. rewrite Hcut by lra. cbv zeta. ring. }
  set (q := exp (ln 100000 / 255)). assert (Q1 : 1 < q) by (unfold q; rewrite <- exp_0; apply exp_increasing, ln5_pos).
  pose proof (radius_step 1) as R1. pose proof (radius_step 2) as R2. fold q in R1, R2. change (1 + 1)%nat with 2%nat in R1. change (2 + 1)%nat with 3%nat in R2.
  rewrite R2, R1. pose proof (radius_pos 1) as RP. set (r := search_radius 1) in *.
  pose proof (gauss_concave ((k * r) ^ 2) (q ^ 2)) as G.
  assert (B3 : search_radius 3 <= 2 / 10000).
  { unfold search_radius. rewrite exp_plus, exp_ln by lra.
    assert (exp (INR 3 * (ln 100000 / 255)) <= 2); [ | lra ].
    rewrite <- (exp_ln 2) by lra. left. apply exp_increasing. simpl INR.
    replace 100000 with (10 ^ 5) by ring. rewrite ln_pow by lra. simpl INR.
    assert (L10 : ln 10 < 4 * ln 2) by (replace (4 * ln 2) with (ln (2 ^ 4)) by (rewrite ln_pow by lra; simpl INR; ring); apply ln_increasing; lra).
    assert (0 < ln 2) by (rewrite <- ln_1; apply ln_increasing; lra). lra. }
  assert (KR : 0 < k * r) by (now apply Rmult_lt_0_compat).
  specialize (G ltac:(now apply pow_lt) ltac:(nra)).
  assert (B : (k * r) ^ 2 * (q ^ 2) ^ 2 <= 1).
  { replace ((k * r) ^ 2 * (q ^ 2) ^ 2) with ((k * (r * q * q)) ^ 2) by ring. rewrite <- R1, <- R2.
    pose proof (radius_pos 3) as RP3. assert (0 <= k * search_radius 3 <= 1).
    { split; [ left; now apply Rmult_lt_0_compat | ]. apply Rle_trans with (5000 * (2 / 10000)); [ apply Rmult_le_compat; lra | lra ]. }
    rewrite <- (pow1 2). apply pow_incr. lra. }
  specialize (G B).
  replace (- (k * (r * q)) ^ 2) with (- (q ^ 2 * (k * r) ^ 2)) by ring.
  replace (- (k * (r * q * q)) ^ 2) with (- (q ^ 2 * (q ^ 2 * (k * r) ^ 2))) by ring.
  lra.
Qed.
Lemma cutoff_jump : (forall k, 5000 < k -> T (C 1) k = 0) ->
  exists s, 0 < s /\ ~ continuity_pt (fun s => fst (fst (halofit_parameters (C s) a T))) s.
Proof.
  intros Hcut. exists (/ sqrt ((v 2%nat + v 3%nat) / 2)).
  pose proof (halofit_jump 2 ltac:(lia) ltac:(lia)) as [P0 J]. change (2 + 1)%nat with 3%nat in *. change (2 - 1)%nat with 1%nat in J.
  split; [ apply Rinv_0_lt_compat, sqrt_lt_R0; lra | ]. intros Cn. apply J in Cn. pose proof (cutoff_grows Hcut). lra.
Qed.
End Scale.
