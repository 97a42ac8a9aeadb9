(** * Concrete cases for the derivatives of halofit *)
From Coq Require Import Reals Lra Lia List ZArith String.
From Coquelicot Require Import Coquelicot.
From Verif Require Import Np NpLemmas Core Ode OdeSpec OdeProofs Interp InterpProofs InterpCont Integrate IntegrateSpec SimpsProofs RombProofs Background BgSpec
  BgAlgebra BgTables BgGrowth BgPositive BgProofs BgFinal BgFinal2 BgFinal4 BgGrad Transfer TransferProofs Power PowerProofs PowerFinal ExPower RedshiftShape
  DependsSpec BgDepends AmpScale PowerArrProofs HalofitScaleSpec HalofitScale HalofitScale2 ContFinal GradSpec Redshift Bias Probes AngularCl
  Ad AdSpec AdProofs AdBg AdGrowth AdFinal AdPower AdPowerProofs AdTransfer AdPowerFinal AdProbes AdRel AdProbesProofs AdArrSpec AdProbesFinal ExAdProbes AdHalofit AdHalofitSpec AdHalofitProofs AdHalofitFinal.
Import ListNotations.
Local Open Scope R_scope.
Opaque chi_table growth_table_ODE growth_table_gamma logspace.

Lemma simpson_le f h a b n : a <= b -> (0 < n)%nat -> (forall i, (i <= n)%nat -> f (node a b n i) <= h (node a b n i)) -> simpson f a b n <= simpson h a b n.
Proof.
  intros Hab Hn HF. assert (Q : 0 <= simpson h a b n + (-1) * simpson f a b n); [ | lra ].
  rewrite <- simpson_scal, <- simpson_plus. apply simpson_nonneg; [ assumption | assumption | ]. intros i Hi. specialize (HF i Hi). lra.
Qed.
Local Notation lo := (ln 1e-4).
Local Notation hi := (ln 1e4).
Lemma lo_hi : lo < hi. Proof. apply ln_increasing; lra. Qed.
Lemma node_range j : (j <= 256)%nat -> lo <= node lo hi 256 j <= hi.
Proof.
  intros Hj. unfold node. assert (0 <= INR j <= 256) by (split; [ apply pos_INR | apply le_INR in Hj; replace (INR 256) with 256 in Hj by (rewrite INR_IZR_INZ; reflexivity); exact Hj ]).
  replace (INR 256) with 256 by (rewrite INR_IZR_INZ; reflexivity). pose proof lo_hi. set (x := lo) in *. set (y := hi) in *.
  assert (E : INR j * ((y - x) / 256) = (INR j / 256) * (y - x)) by (unfold Rdiv; ring). rewrite ?E.
  assert (0 <= INR j / 256 <= 1) by (split; lra). assert (0 <= (INR j / 256) * (y - x)) by (apply Rmult_le_pos; lra).
  assert ((INR j / 256) * (y - x) <= 1 * (y - x)) by (apply Rmult_le_compat_r; lra). lra.
Qed.
Lemma node_wave j : (j <= 256)%nat -> 0 < exp (node lo hi 256 j) <= 10000.
Proof. intros Hj. split; [ apply exp_pos | ]. destruct (node_range j Hj) as [_ [Q | Q]]; [ apply exp_increasing in Q; rewrite exp_ln in Q by lra; lra | rewrite Q, exp_ln by lra; lra ]. Qed.

(** ** a small effective slope keeps alpha away from zero *)
Section Small.
Variables (c : cosmology) (a : R) (T : transfer) (S e : R).
Hypotheses (HN : sigmasqr_default c 8.0 T <> 0) (He : 0 <= e <= 1) (HSe : S * e <= 1 / 1000)
  (HY : forall j, (j <= 256)%nat -> linear_matter_power c (exp (node lo hi 256 j)) 1 T <> 0 -> (exp (node lo hi 256 j) * R_nl c a T) ^ 2 <= e)
  (HS : simpson (hf_res c a T) lo hi 256 <= S).
Lemma inv_k_nl : 1.0 / k_nl c a T = R_nl c a T.
Proof. pose proof (R_nl_pos T a c). unfold k_nl. replace 1.0 with 1 by lra. field. lra. Qed.
Lemma res_nonneg x : 0 <= hf_res c a T x.
Proof.
  pose proof pi_pos. unfold hf_res. cbv zeta. replace 2.0 with 2 by lra. apply Rmult_le_pos; [ | left; now apply Rinv_0_lt_compat ].
  apply Rmult_le_pos; [ | apply pow2_ge_0 ]. apply Rmult_le_pos; [ | left; apply exp_pos ]. apply Rmult_le_pos; [ now apply linear_nonneg | left; apply pow_lt, exp_pos ].
Qed.
Lemma res_support j : (j <= 256)%nat -> hf_res c a T (node lo hi 256 j) * (exp (node lo hi 256 j) * R_nl c a T) ^ 2 <= e * hf_res c a T (node lo hi 256 j).
Proof.
  intros Hj. pose proof (res_nonneg (node lo hi 256 j)) as Q. destruct (Req_dec (linear_matter_power c (exp (node lo hi 256 j)) 1 T) 0) as [Z | NZ].
  - assert (E : hf_res c a T (node lo hi 256 j) = 0) by (unfold hf_res; cbv zeta; replace 1.0 with 1 by lra; rewrite Z; unfold Rdiv; ring). rewrite E. lra.
  - rewrite (Rmult_comm e). apply Rmult_le_compat_l; [ exact Q | now apply HY ].
Qed.
Lemma res0_range : 0 <= simps_value (hf_dneff c a T) lo hi 256 <= 2 / 1000.
Proof.
  pose proof lo_hi. rewrite simps_val by (reflexivity || lia). split.
  - apply simpson_nonneg; [ lra | lia | ]. intros j _. unfold hf_dneff. cbv zeta. apply Rmult_le_pos; [ pose proof (res_nonneg (node lo hi 256 j)); lra | apply pow2_ge_0 ].
  - apply (Rle_trans _ (simpson (fun x => 2 * e * hf_res c a T x) lo hi 256)).
    + apply simpson_le; [ lra | lia | ]. intros j Hj. unfold hf_dneff. cbv zeta. rewrite inv_k_nl. pose proof (res_support j Hj). lra.
    + rewrite simpson_scal. assert (2 * e * simpson (hf_res c a T) lo hi 256 <= 2 * e * S) by (apply Rmult_le_compat_l; lra). lra.
Qed.
Lemma res1_range : 0 <= simps_value (hf_dC c a T) lo hi 256 <= 4 / 1000.
Proof.
  pose proof lo_hi. rewrite simps_val by (reflexivity || lia).
  assert (PT : forall j, (j <= 256)%nat -> 0 <= hf_dC c a T (node lo hi 256 j) <= 4 * e * hf_res c a T (node lo hi 256 j)).
  { intros j Hj. unfold hf_dC. cbv zeta. rewrite inv_k_nl. pose proof (res_support j Hj) as QS. pose proof (res_nonneg (node lo hi 256 j)) as Q.
    set (r := hf_res c a T (node lo hi 256 j)) in *. set (y := exp (node lo hi 256 j) * R_nl c a T) in *.
    assert (Y2 := pow2_ge_0 y). assert (Y4 := pow2_ge_0 (y ^ 2)). replace (y ^ 4) with ((y ^ 2) ^ 2) by ring. split; [ | ].
    - destruct (Req_dec (linear_matter_power c (exp (node lo hi 256 j)) 1 T) 0) as [Z | NZ].
      + assert (E : r = 0) by (unfold r, hf_res; cbv zeta; replace 1.0 with 1 by lra; rewrite Z; unfold Rdiv; ring). rewrite E. lra.
      + assert (YE : y ^ 2 <= 1) by (pose proof (HY j Hj NZ) as W; fold y in W; lra). apply Rmult_le_pos; [ lra | ]. nra.
    - assert (0 <= r * (y ^ 2) ^ 2) by (now apply Rmult_le_pos). lra. }
  split; [ apply simpson_nonneg; [ lra | lia | intros j Hj; now apply PT ] | ].
  apply (Rle_trans _ (simpson (fun x => 4 * e * hf_res c a T x) lo hi 256)); [ apply simpson_le; [ lra | lia | intros j Hj; now apply PT ] | ].
  rewrite simpson_scal. assert (4 * e * simpson (hf_res c a T) lo hi 256 <= 4 * e * S) by (apply Rmult_le_compat_l; lra). lra.
Qed.
Lemma alpha_small k : formula_smooth c k a T "takahashi2012".
Proof.
  unfold formula_smooth, halofit_parameters. left. split; [ reflexivity | ]. pose proof res0_range as H0. pose proof res1_range as H1.
  set (m := simps_value (hf_dneff c a T) lo hi 256) in *. set (q := simps_value (hf_dC c a T) lo hi 256) in *.
  assert (0 <= m ^ 2 <= 1 / 1000) by (split; [ apply pow2_ge_0 | nra ]). apply Rgt_not_eq. replace ((m - 3.0) ^ 2) with (m ^ 2 - 6 * m + 9) by (replace 3.0 with 3 by lra; ring). lra.
Qed.
End Small.

(** ** Planck with a small amplitude, at all epochs: the search runs into the floor of 1e-6 Mpc/h *)
Lemma planck_s_built s : built (planck_s s). Proof. reflexivity. Qed.
Lemma planck_s_reach s : reachable (planck_s s). Proof. exists (planck_s s), []. split; [ split; reflexivity | reflexivity ]. Qed.
Lemma planck_s_same s t : same_but_sigma8 (planck_s s) (planck_s t). Proof. repeat split. Qed.
Lemma planck_s_phys s : physical (planck_s s) /\ moderate (planck_s s) /\ expanding (planck_s s).
Proof.
  destruct planck_ok as (_ & HP & HMo & HE & _). split; [ exact HP | split; [ exact HMo | ]]. intros a Ha. exact (HE a Ha).
Qed.
Lemma planck_s_dense s : dense (planck_s s) /\ 0 <= eh_alpha_gamma (planck_s s).
Proof. destruct ex_planck_alpha as [PD PA]. split; [ exact PD | exact PA ]. Qed.
Lemma planck_s_eisenhu s t k : eisenhu (planck_s s) k = eisenhu (planck_s t) k. Proof. now apply eisenhu_depends. Qed.
Lemma eisenhu_pos s k : 0 <= k -> 0 < eisenhu (planck_s s) k.
Proof.
  intros Hk. destruct planck_dense as (P1 & P2 & P3 & P4). rewrite (eisenhu_depends (planck_s s) Planck15) by reflexivity.
  apply (eisenhu_range Planck15 k P1 (alpha_gamma_realistic Planck15 P1 P2 P3 P4) Hk).
Qed.
Lemma planck_s_norm s : sigmasqr_default (planck_s s) 8.0 eisenhu <> 0.
Proof. assert (0 < sigmasqr_default (planck_s s) 8.0 eisenhu); [ | lra ]. apply sigma8_positive. pose proof (eisenhu_pos s (exp (-4)) ltac:(left; apply exp_pos)). lra. Qed.
Lemma planck_s_linear s T k : (forall q, T (planck_s s) q = T (planck_s 1) q) -> linear_matter_power (planck_s s) k 1 T = s ^ 2 * linear_matter_power (planck_s 1) k 1 T.
Proof.
  intros HT. pose proof (sigma8_linear (planck_s 1) (planck_s s) T k 1 (planck_s_reach 1) (planck_s_reach s) (planck_s_same 1 s) (fun k => eq_sym (HT k))) as E.
  cbn [_sigma8 planck_s make_cosmology] in E. replace (1 ^ 2) with 1 in E by ring. rewrite Rmult_1_r in E. rewrite E. ring.
Qed.
Lemma planck_s_growth s a : table_node 128 1 <= a <= 1 -> 0 < D (planck_s s) a <= 1.
Proof.
  intros [A1 [A2 | ->]]; [ | rewrite planck_s_D; lra ]. destruct (planck_s_phys s) as (HP & HMo & _).
  pose proof (growth_interior (planck_s s) a (planck_s_built s) eq_refl HP HMo (conj A1 A2)). lra.
Qed.
(** without the Gaussian *)
Definition top_variance : R := simpson (fun x => linear_matter_power (planck_s 1) (exp x) 1 eisenhu * exp x ^ 3 / (2 * PI ^ 2)) lo hi 256.
Definition faint : R := / (100 * (1 + top_variance)).
Lemma top_nonneg : 0 <= top_variance.
Proof.
  pose proof lo_hi. pose proof pi_pos. apply simpson_nonneg; [ lra | lia | ]. intros j _. apply Rmult_le_pos; [ | left; now apply Rinv_0_lt_compat ].
  apply Rmult_le_pos; [ apply linear_nonneg, planck_s_norm | left; apply pow_lt, exp_pos ].
Qed.
Lemma faint_range : 0 < faint <= 1 / 100 /\ faint ^ 2 * top_variance <= 1 / 10000.
Proof.
  pose proof top_nonneg as Q. assert (P : 0 < 100 * (1 + top_variance)) by lra. assert (F0 : 0 < faint) by (now apply Rinv_0_lt_compat).
  assert (F1 : faint <= 1 / 100) by (unfold faint, Rdiv; rewrite Rmult_1_l; apply Rinv_le_contravar; lra). split; [ lra | ].
  assert (F2 : faint * top_variance <= 1 / 100).
  { unfold faint. apply (Rmult_le_reg_l (100 * (1 + top_variance))); [ exact P | ]. rewrite <- Rmult_assoc, Rinv_r by lra. lra. }
  replace (faint ^ 2 * top_variance) with (faint * (faint * top_variance)) by ring.
  apply (Rle_trans _ (1 / 100 * (1 / 100))); [ apply Rmult_le_compat; try lra; apply Rmult_le_pos; lra | lra ].
Qed.
Section Faint.
Variable a : R.
Hypothesis Ha : table_node 128 1 <= a <= 1.
Let c := planck_s faint.
Let P := fun k => linear_matter_power c k 1 eisenhu.
Let v := fun i => smoothed_variance P (D c a) (search_radius i).
Lemma D_sq : 0 < D c a ^ 2 <= 1.
Proof. pose proof (planck_s_growth faint a Ha) as Q. fold c in Q. split; [ apply pow_lt; lra | ]. nra. Qed.
Lemma faint_sum (w : R -> R) : (forall x, 0 <= w x <= 1) -> simpson (fun x => P (exp x) * exp x ^ 3 * w x / (2 * PI ^ 2) * D c a ^ 2) lo hi 256 <= 1 / 10000.
Proof.
  intros Hw. pose proof lo_hi. pose proof pi_pos. destruct faint_range as [F0 F1].
  apply (Rle_trans _ (simpson (fun x => faint ^ 2 * (linear_matter_power (planck_s 1) (exp x) 1 eisenhu * exp x ^ 3 / (2 * PI ^ 2))) lo hi 256)); [ | rewrite simpson_scal; exact F1 ].
  apply simpson_le; [ lra | lia | ]. intros j _. set (x := node lo hi 256 j). unfold P, c. rewrite planck_s_linear by (intros; apply planck_s_eisenhu).
  assert (L0 := linear_nonneg (planck_s 1) (exp x) 1 eisenhu (planck_s_norm 1)). set (L := linear_matter_power (planck_s 1) (exp x) 1 eisenhu) in *.
  assert (K3 : 0 < exp x ^ 3) by (apply pow_lt, exp_pos). assert (I0 : 0 < / (2 * PI ^ 2)) by (now apply Rinv_0_lt_compat). pose proof D_sq as DS. fold c. specialize (Hw x).
  replace (faint ^ 2 * L * exp x ^ 3 * w x / (2 * PI ^ 2) * D c a ^ 2) with (faint ^ 2 * (L * exp x ^ 3 / (2 * PI ^ 2)) * (w x * D c a ^ 2)) by (unfold Rdiv; ring).
  assert (Q : 0 <= faint ^ 2 * (L * exp x ^ 3 / (2 * PI ^ 2))).
  { apply Rmult_le_pos; [ apply pow2_ge_0 | ]. apply Rmult_le_pos; [ apply Rmult_le_pos; lra | lra ]. }
  assert (W : w x * D c a ^ 2 <= 1) by nra. rewrite <- (Rmult_1_r (faint ^ 2 * (L * exp x ^ 3 / (2 * PI ^ 2)))) at 2. apply Rmult_le_compat_l; assumption.
Qed.
Lemma gauss_range x : 0 <= exp (- x ^ 2) <= 1.
Proof. split; [ left; apply exp_pos | ]. rewrite <- exp_0. destruct (Req_dec (x ^ 2) 0) as [-> | NZ]; [ right; f_equal; ring | ]. left. apply exp_increasing. pose proof (pow2_ge_0 x). lra. Qed.
Lemma faint_var i : 0 < v i <= 1 / 10000.
Proof.
  split.
  - apply variance_pos; [ apply planck_s_norm | pose proof (eisenhu_pos faint (1 / 10000) ltac:(lra)); unfold c; lra | | | cbn [_sigma8 planck_s make_cosmology c]; destruct faint_range; lra ].
    + pose proof (planck_s_growth faint a Ha). unfold c. lra.
    + unfold c. rewrite planck_s_D. lra.
  - unfold v, smoothed_variance. replace (ln (1 / 10000)) with lo by (f_equal; lra). replace (ln 10000) with hi by (f_equal; lra).
    apply (faint_sum (fun x => exp (- (exp x * search_radius i) ^ 2))). intros x. apply gauss_range.
Qed.
Lemma faint_decr i j : (i < j)%nat -> v j < v i.
Proof.
  intros Hij. apply variance_lt; [ apply planck_s_norm | pose proof (eisenhu_pos faint (1 / 10000) ltac:(lra)); unfold c; lra | | | cbn [_sigma8 planck_s make_cosmology c]; destruct faint_range; lra | split; [ apply radius_pos | now apply radius_lt ]].
  + pose proof (planck_s_growth faint a Ha). unfold c. lra.
  + unfold c. rewrite planck_s_D. lra.
Qed.
Lemma ln100 : ln 100 < 100.
Proof.
  destruct ln10_bounds as [_ L]. replace 100 with (10 * 10) by lra. rewrite ln_mult by lra. lra.
Qed.
Lemma faint_nearest : nearest_one v 0.
Proof.
  split; [ lia | ]. intros j Hj NE. pose proof (faint_decr 0 j ltac:(lia)). pose proof (faint_var 0). pose proof (faint_var j). rewrite !Rabs_right; lra.
Qed.
Lemma faint_radius : found_radius v 0 < 1e-6.
Proof.
  unfold found_radius, search_cell. cbn [Nat.ltb Nat.leb Nat.sub]. cbv zeta. change (0 + 1)%nat with 1%nat.
  assert (S1 : ln (search_radius 1) - ln (search_radius 0) = ln 100000 / 255).
  { change 1%nat with (0 + 1)%nat. rewrite radius_step, ln_mult, ln_exp by (apply radius_pos || apply exp_pos). ring. }
  rewrite S1. replace (ln (search_radius 0)) with (ln (1 / 10000)) by (unfold search_radius; rewrite ln_exp; cbn [INR]; ring).
  assert (V0 := faint_var 0). assert (V1 := faint_var 1). assert (V2 := faint_decr 0 1 ltac:(lia)).
  rewrite <- (exp_ln 1e-6) by lra. apply exp_increasing.
  assert (E1 : ln (1 / 10000) = ln 1e-6 + ln 100) by (rewrite <- ln_mult by lra; f_equal; lra).
  assert (L5 : 10 <= ln 100000). { destruct ln10_bounds as [L _]. replace 100000 with (10 * (10 * (10 * (10 * 10)))) by lra. rewrite !ln_mult by lra. lra. }
  set (g := (1 - v 0%nat) / (v 0%nat - v 1%nat)). assert (G : 4000 < g).
  { unfold g. apply (Rlt_le_trans _ ((1 / 2) / (1 / 10000))); [ lra | ]. unfold Rdiv at 1 3. apply Rmult_le_compat; [ lra | left; apply Rinv_0_lt_compat; lra | lra | apply Rinv_le_contravar; lra ]. }
  assert (E2 : ln 100000 / 255 / (v 1%nat - v 0%nat) * (1 - v 0%nat) = - (ln 100000 / 255 * g)) by (unfold g; field; lra). rewrite E2.
  assert (L6 := ln100). assert (10 / 255 * 4000 <= ln 100000 / 255 * g) by (apply Rmult_le_compat; lra). lra.
Qed.
Lemma faint_found : scale_found c a eisenhu.
Proof. exists 0%nat. split; [ exact faint_nearest | pose proof faint_radius as Q; unfold v, P in Q; lra ]. Qed.
Lemma faint_R_nl : R_nl c a eisenhu = 1e-6.
Proof.
  unfold R_nl, clip_lo. rewrite (found_interp c a eisenhu) with (i := 0%nat).
  - apply Rmax_right. pose proof faint_radius as Q. unfold v, P in Q. lra.
  - apply planck_s_norm.
  - pose proof (eisenhu_pos faint (1 / 10000) ltac:(lra)). unfold c. lra.
  - pose proof (planck_s_growth faint a Ha). unfold c. lra.
  - unfold c. rewrite planck_s_D. lra.
  - cbn [_sigma8 planck_s make_cosmology c]. destruct faint_range. lra.
  - exact faint_nearest.
Qed.
Lemma faint_smooth k : formula_smooth c k a eisenhu "takahashi2012".
Proof.
  apply (alpha_small c a eisenhu (1 / 10000) (1 / 10000)); [ apply planck_s_norm | lra | lra | | ].
  - intros j Hj _. rewrite faint_R_nl. pose proof (node_wave j Hj) as W. set (k' := exp (node lo hi 256 j)) in *.
    assert (0 <= k' * 1e-6 <= 1 / 100) by (split; [ apply Rmult_le_pos; lra | lra ]). nra.
  - apply (Rle_trans _ (simpson (fun x => P (exp x) * exp x ^ 3 * exp (- (exp x * 1e-6) ^ 2) / (2 * PI ^ 2) * D c a ^ 2) lo hi 256)).
    + right. apply simpson_ext. intros j _. unfold hf_res, P. cbv zeta. rewrite inv_k_nl, faint_R_nl. replace 1.0 with 1 by lra. replace 2.0 with 2 by lra.
      set (x := exp _). replace (- ((x * 1e-6) ^ 2)) with (- (x * 1e-6) ^ 2) by ring. unfold Rdiv. ring.
    + apply (faint_sum (fun x => exp (- (exp x * 1e-6) ^ 2))). intros x. apply gauss_range.
Qed.
End Faint.
Lemma faint_chi a : chi (planck_s faint) a = chi Planck15 a.
Proof. apply same_chi; [ apply planck_s_reach | apply planck_ok | apply sigma8_background; repeat split ]. Qed.
Lemma ex_C123 : let c := planck_s faint in 0 < faint <= 1 / 100 /\ built c /\ expanding c /\ _gamma c = None /\ physical c /\ moderate c /\
  (forall d, transfer_moves eisenhu (geisenhu num_dual) c d) /\ sigmasqr_default c 8.0 eisenhu <> 0 /\ eisenhu c (1 / 10000) <> 0 /\ _sigma8 c <> 0 /\
  shallow (concat (map bins_of ex_survey)) /\ off_clip chi c ex_survey /\
  forall b, limber_epoch ex_survey b -> scale_found c b eisenhu /\ forall k, formula_smooth c k b eisenhu "takahashi2012".
Proof.
  cbv zeta. destruct (planck_s_phys faint) as (HP & HMo & HE). destruct (planck_s_dense faint) as [PD PA].
  destruct (survey_ok ex_survey (ex_bins _ (or_introl eq_refl))) as [S1 S2].
  split; [ apply faint_range | split; [ apply planck_s_built | split; [ exact HE | split; [ reflexivity | split; [ exact HP | split; [ exact HMo | ]]]]]].
  split; [ intros d; apply eisenhu_moves; [ apply planck_s_built | exact PD | exact PA ] | ].
  split; [ apply planck_s_norm | split; [ pose proof (eisenhu_pos faint (1 / 10000) ltac:(lra)); lra | split; [ cbn [_sigma8 planck_s make_cosmology]; destruct faint_range; lra | split; [ exact S1 | split ]]]].
  - intros b Hb. destruct (S2 b Hb) as [Q1 Q2]. split; [ rewrite faint_chi; exact Q1 | ]. intros p q Hp Hq. rewrite faint_chi. now apply (Q2 p).
  - intros b Hb. assert (HB := limber_range ex_survey b S1 Hb). split; [ now apply faint_found | intros k; now apply faint_smooth ].
Qed.

(** ** a transfer function that ends at k = 1, and an amplitude for which the search ends at 1e-3 Mpc/h *)
Definition bump : transfer := fun _ k => Rmax (1 - k) 0 ^ 2.
Definition gbump (_ : gcosmo dual) (k : dual) : dual := nipow num_dual (nmax num_dual (nsub num_dual (cst num_dual 1) k) (cst num_dual 0)) 2.
Ltac req := match goal with |- @eq _ ?a ?b => change (@eq R a b) end.
Lemma bump_slope y : is_derive (fun y => Rmax (1 - y) 0 ^ 2) y (- 2 * Rmax (1 - y) 0).
Proof.
  destruct (Rtotal_order y 1) as [L | [-> | L]].
  - rewrite Rmax_left by lra. apply (is_derive_ext_loc (fun y => (1 - y) ^ 2)).
    + apply (filter_imp (fun z => z < 1)); [ intros z Hz; rewrite Rmax_left by lra; reflexivity | exact (open_lt 1 y L) ].
    + evar_last; [ apply (is_derive_pow (fun y => 1 - y) 2 y (0 - 1)); apply (is_derive_minus (V := R_NormedModule)); [ apply (is_derive_const (V := R_NormedModule)) | apply (is_derive_id (K := R_AbsRing)) ] | ].
      req. cbn [INR pred pow]. ring.
  - rewrite Rmax_left by lra. apply is_derive_Reals. intros eps Heps. exists (mkposreal eps Heps). cbn [pos]. intros h Hh Hd.
    replace (Rmax (1 - 1) 0 ^ 2) with 0 by (rewrite Rmax_left by lra; ring).
    replace ((Rmax (1 - (1 + h)) 0 ^ 2 - 0) / h - -2 * (1 - 1)) with (Rmax (- h) 0 ^ 2 / h) by (replace (1 - (1 + h)) with (- h) by ring; field; exact Hh).
    destruct (Rle_dec 0 h) as [P | P].
    + rewrite Rmax_right by lra. replace (0 ^ 2 / h) with 0 by (field; exact Hh). rewrite Rabs_R0. exact Heps.
    + rewrite Rmax_left by lra. replace ((- h) ^ 2 / h) with h by (field; exact Hh). exact Hd.
  - rewrite Rmax_right by lra. apply (is_derive_ext_loc (fun _ => 0)).
    + apply (filter_imp (fun z => 1 < z)); [ intros z Hz; rewrite Rmax_right by lra; req; ring | exact (open_gt 1 y L) ].
    + evar_last; [ apply (is_derive_const (V := R_NormedModule)) | ]. unfold zero; cbn. req. ring.
Qed.
Lemma bump_moves c d : transfer_moves bump gbump c d.
Proof.
  intros k kd Tk _. unfold bump, gbump. assert (Q := t_comp 0 (fun y => Rmax (1 - y) 0 ^ 2) (fun y => - 2 * Rmax (1 - y) 0) k kd (bump_slope (k 0)) Tk).
  cbn [nipow nmax nsub cst num_dual fst snd]. 
  destruct Q as [Q1 Q2]. cbn [fst snd] in Q1, Q2. split; [ exact Q1 | ]. cbn [snd] in *. evar_last; [ exact Q2 | ]. unfold sel3.
  change (2 - 1)%Z with 1%Z. unfold ipow. change (Pos.to_nat 1) with 1%nat. rewrite pow_1. req.
  destruct (Rlt_dec 0 (1 - fst kd)); [ rewrite Rmax_left by lra; ring | ]. destruct (Rlt_dec (1 - fst kd) 0); [ rewrite Rmax_right by lra; ring | ].
  rewrite Rmax_right by lra. ring.
Qed.
Lemma bump_norm s : sigmasqr_default (planck_s s) 8.0 bump <> 0.
Proof.
  assert (0 < sigmasqr_default (planck_s s) 8.0 bump); [ | lra ]. apply sigma8_positive. unfold bump. destruct exp_m4. rewrite Rmax_left by lra.
  apply Rgt_not_eq, pow_lt. lra.
Qed.
Lemma bump_low s : bump (planck_s s) (1 / 10000) <> 0.
Proof. unfold bump. rewrite Rmax_left by lra. apply Rgt_not_eq, pow_lt. lra. Qed.
Definition bump_variance : R := smoothed_variance (fun k => linear_matter_power (planck_s 1) k 1 bump) 1 (search_radius 51).
Definition bright : R := / sqrt bump_variance.
Lemma bump_variance_pos : 0 < bump_variance.
Proof.
  assert (D1 := planck_s_D 1). unfold bump_variance. replace (smoothed_variance _ 1 _) with (smoothed_variance (fun k => linear_matter_power (planck_s 1) k 1 bump) (D (planck_s 1) 1) (search_radius 51)) by (rewrite D1; reflexivity).
  apply variance_pos; [ apply bump_norm | apply bump_low | rewrite D1; lra | rewrite D1; lra | cbn [_sigma8 planck_s make_cosmology]; lra ].
Qed.
Lemma bright_pos : 0 < bright. Proof. apply Rinv_0_lt_compat, sqrt_lt_R0, bump_variance_pos. Qed.
Lemma bright_sq : bright ^ 2 * bump_variance = 1.
Proof.
  pose proof bump_variance_pos. unfold bright. rewrite pow_inv, pow2_sqrt by lra. field. lra.
Qed.
Lemma radius51 : search_radius 51 = 1 / 1000.
Proof.
  unfold search_radius. replace (INR 51) with 51 by (rewrite INR_IZR_INZ; reflexivity). replace 100000 with (10 * (10 * (10 * (10 * 10)))) by lra. rewrite !ln_mult by lra.
  replace (51 * ((ln 10 + (ln 10 + (ln 10 + (ln 10 + ln 10)))) / 255)) with (ln 10) by field. rewrite <- ln_mult by lra. rewrite exp_ln by lra. lra.
Qed.
Section Bright.
Let c := planck_s bright.
Let P := fun k => linear_matter_power c k 1 bump.
Let v := fun i => smoothed_variance P (D c 1) (search_radius i).
Lemma bright_D : D c 1 = 1. Proof. apply planck_s_D. Qed.
Lemma bright_var r : smoothed_variance P (D c 1) r = bright ^ 2 * smoothed_variance (fun k => linear_matter_power (planck_s 1) k 1 bump) 1 r.
Proof.
  rewrite bright_D. unfold smoothed_variance. rewrite <- simpson_scal. apply simpson_ext. intros j _. unfold P, c. rewrite planck_s_linear by reflexivity. unfold Rdiv. ring.
Qed.
Lemma bright_one : v 51%nat = 1.
Proof. unfold v. rewrite bright_var. exact bright_sq. Qed.
Lemma bright_lt i j : (i < j)%nat -> v j < v i.
Proof.
  intros Hij. assert (D1 := bright_D). pose proof bright_pos. apply variance_lt; [ apply bump_norm | apply bump_low | rewrite D1; lra | rewrite D1; lra | cbn [_sigma8 planck_s make_cosmology c]; lra | split; [ apply radius_pos | now apply radius_lt ]].
Qed.
Lemma bright_nearest : nearest_one v 51.
Proof.
  split; [ lia | ]. intros j Hj NE. rewrite bright_one. replace (1 - 1) with 0 by ring. rewrite Rabs_R0. apply Rabs_pos_lt.
  assert (j < 51 \/ 51 < j)%nat as [K | K] by lia; apply bright_lt in K; rewrite bright_one in K; lra.
Qed.
Lemma bright_radius : found_radius v 51 = 1 / 1000.
Proof.
  unfold found_radius, search_cell. cbn [Nat.ltb Nat.leb Nat.sub]. cbv zeta. change (50 + 1)%nat with 51%nat. rewrite bright_one. assert (K := bright_lt 50 51 ltac:(lia)). rewrite bright_one in K.
  set (x0 := ln (search_radius 50)). replace (x0 + (ln (search_radius 51) - x0) / (1 - v 50%nat) * (1 - v 50%nat)) with (ln (search_radius 51)) by (field; lra).
  rewrite exp_ln by (apply radius_pos). exact radius51.
Qed.
Lemma bright_found : scale_found c 1 bump.
Proof. exists 51%nat. split; [ exact bright_nearest | pose proof bright_radius as Q; unfold v, P in Q; rewrite Q; lra ]. Qed.
Lemma bright_R_nl : R_nl c 1 bump = 1 / 1000.
Proof.
  assert (D1 := bright_D). pose proof bright_pos. unfold R_nl, clip_lo. rewrite (found_interp c 1 bump) with (i := 51%nat).
  - pose proof bright_radius as Q. unfold v, P in Q. rewrite Q. apply Rmax_left. lra.
  - apply bump_norm.
  - apply bump_low.
  - rewrite D1; lra.
  - rewrite D1; lra.
  - cbn [_sigma8 planck_s make_cosmology c]. lra.
  - exact bright_nearest.
Qed.
Lemma bright_smooth k : formula_smooth c k 1 bump "takahashi2012".
Proof.
  apply (alpha_small c 1 bump 1 (1 / 1000000)); [ apply bump_norm | lra | lra | | ].
  - intros j Hj NZ. rewrite bright_R_nl. pose proof (node_wave j Hj) as W. set (k' := exp (node lo hi 256 j)) in *.
    assert (K1 : k' <= 1).
    { destruct (Rle_dec k' 1) as [Q | Q]; [ exact Q | ]. exfalso. apply NZ. unfold linear_matter_power, bump. cbv zeta. rewrite Rmax_right by lra. ring. }
    assert (0 <= k' * (1 / 1000) <= 1 / 1000) by (split; lra). nra.
  - right. transitivity (v 51%nat); [ | exact bright_one ]. unfold v, smoothed_variance. replace (ln (1 / 10000)) with lo by (f_equal; lra). replace (ln 10000) with hi by (f_equal; lra).
    apply simpson_ext. intros j _. unfold hf_res, P. cbv zeta. rewrite inv_k_nl, bright_R_nl, radius51. replace 1.0 with 1 by lra. replace 2.0 with 2 by lra.
    set (x := exp _). replace (- ((x * (1 / 1000)) ^ 2)) with (- (x * (1 / 1000)) ^ 2) by ring. unfold Rdiv. ring.
Qed.
End Bright.
Lemma ex_C123_inside : let c := planck_s bright in 0 < bright /\ built c /\ expanding c /\ _gamma c = None /\ physical c /\ moderate c /\
  (forall d, transfer_moves bump gbump c d) /\ sigmasqr_default c 8.0 bump <> 0 /\ bump c (1 / 10000) <> 0 /\ _sigma8 c <> 0 /\ table_node 128 1 <= 1 <= 1 /\
  scale_found c 1 bump /\ fst (fst (halofit_parameters c 1 bump)) = 1000 /\ forall k, formula_smooth c k 1 bump "takahashi2012".
Proof.
  cbv zeta. destruct (planck_s_phys bright) as (HP & HMo & HE). pose proof bright_pos as PB. pose proof node1_pos.
  split; [ exact PB | split; [ apply planck_s_built | split; [ exact HE | split; [ reflexivity | split; [ exact HP | split; [ exact HMo | ]]]]]].
  split; [ intros d; apply bump_moves | split; [ apply bump_norm | split; [ apply bump_low | split; [ cbn [_sigma8 planck_s make_cosmology]; lra | ]]]].
  split; [ split; [ pose proof (tab_below 0 ltac:(lra)) as [_ Q]; replace (1 / (1 + 0)) with 1 in Q by field; exact Q | lra ] | ].
  split; [ exact bright_found | split; [ | exact bright_smooth ]].
  unfold halofit_parameters. cbn [fst]. unfold k_nl. rewrite bright_R_nl. lra.
Qed.
