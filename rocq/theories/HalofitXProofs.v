(** * halofit over extended numbers: finite except at 0/0 *)
From Coq Require Import String.
From Verif Require Import Np NpLemmas Core Background BgSpec BgAlgebra BgGrowth BgTables Transfer Power PowerProofs SparseX HalofitX.
Local Open Scope R_scope.
Opaque chi_table growth_table_ODE growth_table_gamma logspace hf_sigma.

Lemma xdiv_fin a b : b <> 0 -> xdiv (Fin a) (Fin b) = Fin (a / b).
Proof. intros H. unfold xdiv. destruct (Req_EM_T b 0); [ contradiction | reflexivity ]. Qed.
Lemma xpow_fin a b : 0 < a -> xpow (Fin a) (Fin b) = Fin (rpow a b).
Proof.
  intros H. unfold xpow. destruct (Req_EM_T b 0) as [-> | N].
  - unfold rpow. destruct (Req_EM_T a 0); [ lra | ]. rewrite Rmult_0_l, exp_0. reflexivity.
  - destruct (Rlt_dec a 0); [ lra | ]. destruct (Req_EM_T a 0); [ lra | reflexivity ].
Qed.
Lemma xmul_fin a b : xmul (Fin a) (Fin b) = Fin (a * b).
Proof. reflexivity. Qed.
Lemma xadd_fin a b : xadd (Fin a) (Fin b) = Fin (a + b).
Proof. reflexivity. Qed.

Lemma xassemble_fin k pk knl co f1 f2 f3 : 0 < k -> 0 <= pk -> 0 < knl -> 0 <= hf_b co -> 0 < hf_c co -> 0 <= hf_mu co -> 0 <= hf_nu co ->
  0 < f3 -> 1 + hf_alpha co * (k ^ 3 * pk / (2.0 * PI ^ 2)) <> 0 ->
  xhf_assemble k pk knl co (Fin f1, Fin f2, Fin f3) = Fin (hf_assemble k pk knl co (f1, f2, f3)).
Proof.
  intros Hk Hp Hn Hb Hc Hmu Hnu Hf3 Hal. unfold xhf_assemble, hf_assemble. cbv zeta.
  pose proof PI_RGT_0. assert (P2 : 0 < PI ^ 2) by (apply pow_lt; lra). assert (K3 : 0 < k ^ 3) by (now apply pow_lt).
  assert (Y : 0 < k / knl) by (now apply Rdiv_lt_0_compat). rewrite (xdiv_fin k knl) by lra. set (y := k / knl) in *.
  set (d2l := k ^ 3 * pk / (2.0 * PI ^ 2)) in *.
  assert (L : 0 <= d2l) by (apply Rmult_le_pos; [ apply Rmult_le_pos; lra | left; apply Rinv_0_lt_compat; lra ]).
  rewrite !xmul_fin, !xadd_fin. rewrite !(xdiv_fin _ 4.0), !(xdiv_fin _ 8.0) by lra. rewrite xadd_fin. cbn [xneg xexp].
  rewrite !xpow_fin by (first [ exact Y | apply Rmult_lt_0_compat; [ now apply Rmult_lt_0_compat | exact Y ] | lra ]).
  assert (Y2 : 0 < y * y) by (now apply Rmult_lt_0_compat).
  rewrite !xmul_fin, !xadd_fin.
  pose proof (rpow_nonneg y f2). pose proof (rpow_nonneg (hf_c co * f3 * y) (3.0 - hf_gamma co)).
  assert (0 <= hf_b co * rpow y f2) by (now apply Rmult_le_pos).
  rewrite (xdiv_fin _ (1 + hf_alpha co * d2l)) by exact Hal.
  rewrite (xdiv_fin (hf_mu co) y), (xdiv_fin (hf_nu co) (y * y)) by lra.
  rewrite (xdiv_fin (hf_a co * rpow y (3 * f1))) by lra. rewrite !xadd_fin, !xmul_fin.
  assert (0 <= hf_mu co / y) by (apply Rmult_le_pos; [ lra | left; now apply Rinv_0_lt_compat ]).
  assert (0 <= hf_nu co / (y * y)) by (apply Rmult_le_pos; [ lra | left; now apply Rinv_0_lt_compat ]).
  rewrite xdiv_fin by lra. rewrite xadd_fin, xmul_fin. f_equal. replace (y ^ 2) with (y * y) by ring. reflexivity.
Qed.

Lemma xhalofit_takahashi c k a T : 0 < k -> 0 <= linear_matter_power c k a T -> 0 < Omega_m_a c a ->
  exists p, xhalofit c k a T "takahashi2012" = Ok (Fin p) /\ halofit c k a T "takahashi2012" = Ok p /\ 0 < p.
Proof.
  intros Hk Hp Hm. destruct (takahashi_pos c k a T Hk Hp) as (p & E & P0). exists p. split; [ | split; [ exact E | exact P0 ]].
  clear P0. revert E. unfold xhalofit, halofit. destruct (halofit_parameters c a T) as [[knl n] C] eqn:EP. cbn [String.eqb]. intros E.
  assert (K : 0 < knl) by (unfold halofit_parameters in EP; injection EP as <- _ _; apply k_nl_pos).
  change (String.eqb "takahashi2012" "smith2003") with false in *. change (String.eqb "takahashi2012" "takahashi2012") with true in *. cbv iota in *.
  apply (f_equal (fun r => match r with Ok v => v | Err _ => 0 end)) in E. cbv beta iota in E. apply (f_equal Ok). rewrite <- E. unfold xhf_f_takahashi, hf_f_takahashi.
  assert (RP : forall e, 0 < rpow (Omega_m_a c a) e) by (intros e; rewrite rpow_pos by assumption; apply exp_pos).
  apply xassemble_fin; auto; unfold hf_takahashi; cbn [hf_b hf_c hf_mu hf_nu hf_alpha]; try (left; apply pow10_gt0); try apply pow10_gt0; try lra.
  set (al := Rabs _). assert (0 <= al) by apply Rabs_pos. assert (0 < k ^ 3) by (now apply pow_lt). assert (0 < 2.0 * PI ^ 2) by (pose proof PI_RGT_0; assert (0 < PI ^ 2) by (now apply pow_lt); lra).
  assert (0 <= al * (k ^ 3 * linear_matter_power c k a T / (2.0 * PI ^ 2))); [ | lra ].
  apply Rmult_le_pos; [ assumption | ]. apply Rmult_le_pos; [ apply Rmult_le_pos; lra | left; now apply Rinv_0_lt_compat ].
Qed.

(** positivity with a possibly negative alpha *)
Lemma assemble_pos2 k pk knl co f : 0 < k -> 0 <= pk -> 0 < knl -> 0 < hf_a co -> 0 <= hf_b co -> 0 < 1 + hf_alpha co * (k ^ 3 * pk / (2.0 * PI ^ 2)) ->
  0 <= hf_mu co -> 0 <= hf_nu co -> 0 < hf_assemble k pk knl co f.
Proof.
  intros Hk Hp Hn Ha Hb Hal Hmu Hnu. destruct f as [[f1 f2] f3]. unfold hf_assemble. cbv zeta.
  pose proof PI_RGT_0. assert (P2 : 0 < PI ^ 2) by (apply pow_lt; lra). assert (K3 : 0 < k ^ 3) by (now apply pow_lt).
  assert (Y : 0 < k / knl) by (now apply Rdiv_lt_0_compat). set (y := k / knl) in *.
  set (d2l := k ^ 3 * pk / (2.0 * PI ^ 2)) in *.
  assert (L : 0 <= d2l) by (apply Rmult_le_pos; [ apply Rmult_le_pos; lra | left; apply Rinv_0_lt_compat; lra ]).
  apply Rmult_lt_0_compat; [ apply Rdiv_lt_0_compat; lra | ]. apply Rplus_le_lt_0_compat.
  - apply Rmult_le_pos; [ | left; apply exp_pos ]. apply Rmult_le_pos; [ exact L | ].
    apply Rmult_le_pos; [ apply rpow_nonneg | ]. left. now apply Rinv_0_lt_compat.
  - apply Rdiv_lt_0_compat.
    + apply Rdiv_lt_0_compat.
      * apply Rmult_lt_0_compat; [ exact Ha | rewrite rpow_pos by assumption; apply exp_pos ].
      * pose proof (rpow_nonneg y f2). pose proof (rpow_nonneg (hf_c co * f3 * y) (3.0 - hf_gamma co)).
        assert (0 <= hf_b co * rpow y f2) by (now apply Rmult_le_pos). lra.
    + assert (0 <= hf_mu co / y) by (apply Rmult_le_pos; [ lra | left; now apply Rinv_0_lt_compat ]).
      assert (0 <= hf_nu co / y ^ 2) by (apply Rmult_le_pos; [ lra | left; apply Rinv_0_lt_compat; now apply pow_lt ]). lra.
Qed.

Lemma xhalofit_smith c k a T : 0 < k -> 0 <= linear_matter_power c k a T -> 0 < Omega_m_a c a < 1 -> 0 <= Omega_de_a c a <= 1 - Omega_m_a c a ->
  (let n := snd (fst (halofit_parameters c a T)) in
   -1 < (1.3884 + 0.3700 * n - 0.1452 * n ^ 2) * (k ^ 3 * linear_matter_power c k a T / (2 * PI ^ 2))) ->
  exists p, xhalofit c k a T "smith2003" = Ok (Fin p) /\ halofit c k a T "smith2003" = Ok p /\ 0 < p.
Proof.
  intros Hk Hp Hm Hde. unfold xhalofit, halofit. destruct (halofit_parameters c a T) as [[knl n] C] eqn:EP. cbn [fst snd]. intros Hal.
  assert (K : 0 < knl) by (unfold halofit_parameters in EP; injection EP as <- _ _; apply k_nl_pos).
  change (String.eqb "smith2003" "smith2003") with true. cbv iota.
  rewrite xdiv_fin by lra. set (fr := Omega_de_a c a / (1.0 - Omega_m_a c a)).
  assert (F : 0 <= fr <= 1).
  { unfold fr. assert (0 < 1.0 - Omega_m_a c a) by lra. split.
    - apply Rmult_le_pos; [ lra | left; now apply Rinv_0_lt_compat ].
    - apply Rmult_le_reg_r with (1.0 - Omega_m_a c a); [ assumption | ]. unfold Rdiv. rewrite Rmult_assoc, Rinv_l by lra. lra. }
  assert (RP : forall e, 0 < rpow (Omega_m_a c a) e) by (intros e; rewrite rpow_pos by lra; apply exp_pos).
  replace (2 * PI ^ 2) with (2.0 * PI ^ 2) in Hal by lra.
  eexists. split; [ | split; [ reflexivity | ]].
  - apply (f_equal Ok). unfold xhf_f_smith, hf_f_smith. unfold xsub, xneg. rewrite !xadd_fin, !xmul_fin, !xadd_fin.
    replace (1 + - fr) with (1 - fr) by ring.
    apply xassemble_fin; auto; unfold hf_smith; cbn [hf_b hf_c hf_mu hf_nu hf_alpha]; try (left; apply pow10_gt0); try apply pow10_gt0; [ | lra ].
    pose proof (RP 0.0743) as A1. pose proof (RP 0.0725) as A2. set (u := rpow _ 0.0743) in *. set (v := rpow _ 0.0725) in *.
    destruct (Req_dec fr 0) as [-> | N]; [ lra | ]. apply Rplus_lt_le_0_compat; [ apply Rmult_lt_0_compat; lra | apply Rmult_le_pos; lra ].
  - apply assemble_pos2; auto; unfold hf_smith; cbn [hf_a hf_b hf_c hf_mu hf_nu hf_alpha]; try (left; apply pow10_gt0); try apply pow10_gt0. lra.
Qed.

(** exactly matter dominated at a: the fraction is 0/0 or x/0 *)
Lemma smith_mix_nan fr b e : fr = NaN \/ fr = PInf \/ fr = NInf -> xadd (xmul fr (Fin (rpow 1 b))) (xmul (xsub (Fin 1) fr) (Fin (rpow 1 e))) = NaN.
Proof.
  assert (R1 : forall z, rpow 1 z = 1) by (intros z; unfold rpow; destruct (Req_EM_T 1 0); [ lra | ]; rewrite ln_1, Rmult_0_r; apply exp_0).
  rewrite !R1. assert (S1 : Rsgn 1 = 1) by (unfold Rsgn; destruct (Rlt_dec 1 0); [ lra | ]; destruct (Rlt_dec 0 1); [ reflexivity | lra ]).
  assert (I1 : inf_of 1 = PInf) by (unfold inf_of; destruct (Rlt_dec 1 0); [ lra | ]; destruct (Rlt_dec 0 1); [ reflexivity | lra ]).
  assert (I2 : inf_of (-1) = NInf) by (unfold inf_of; destruct (Rlt_dec (-1) 0); [ reflexivity | lra ]).
  intros [-> | [-> | ->]]; simpl; rewrite ?S1; [ reflexivity | | ].
  - replace (1 * 1) with 1 by ring. replace (-1 * 1) with (-1) by ring. rewrite I1, I2. reflexivity.
  - replace (1 * 1) with 1 by ring. replace (-1 * 1) with (-1) by ring. rewrite I1, I2. reflexivity.
Qed.
Lemma xadd_nan_r x : xadd x NaN = NaN.
Proof. destruct x; reflexivity. Qed.
Lemma xmul_nan_r x : xmul x NaN = NaN.
Proof. destruct x; simpl; try reflexivity; destruct (Rsgn _); reflexivity. Qed.
Lemma xassemble_nan k pk knl co f2 f3 : 0 < k -> 0 < knl -> k <> knl -> xhf_assemble k pk knl co (NaN, f2, f3) = NaN.
Proof.
  intros Hk Hn Hne. unfold xhf_assemble. rewrite (xdiv_fin k knl) by lra.
  rewrite (xmul_nan_r (Fin 3)).
  replace (xpow (Fin (k / knl)) NaN) with NaN.
  - rewrite xmul_nan_r. cbn [xdiv]. rewrite xadd_nan_r, xmul_nan_r. reflexivity.
  - unfold xpow. destruct (Req_EM_T (k / knl) 1) as [E | ]; [ | reflexivity ]. exfalso. apply Hne.
    replace k with (k / knl * knl) by (field; lra). rewrite E. ring.
Qed.
Lemma smith_nan c k a T : 0 < k -> Omega_m_a c a = 1 -> k <> fst (fst (halofit_parameters c a T)) ->
  xhalofit c k a T "smith2003" = Ok NaN.
Proof.
  intros Hk Hm. unfold xhalofit. destruct (halofit_parameters c a T) as [[knl n] C] eqn:EP. cbn [fst]. intros Hne.
  assert (K : 0 < knl) by (unfold halofit_parameters in EP; injection EP as <- _ _; apply k_nl_pos).
  change (String.eqb "smith2003" "smith2003") with true. cbv iota. apply (f_equal Ok).
  rewrite Hm. replace (1.0 - 1) with 0 by lra. set (fr := xdiv _ _).
  assert (F : fr = NaN \/ fr = PInf \/ fr = NInf).
  { unfold fr, xdiv. destruct (Req_EM_T 0 0); [ | lra ]. destruct (Req_EM_T (Omega_de_a c a) 0); [ now left | right ].
    unfold inf_of. destruct (Rlt_dec (Rsgn (Omega_de_a c a)) 0); [ now right | ].
    destruct (Rlt_dec 0 (Rsgn (Omega_de_a c a))); [ now left | exfalso ].
    unfold Rsgn in *. destruct (Rlt_dec (Omega_de_a c a) 0); [ lra | ]. destruct (Rlt_dec 0 (Omega_de_a c a)); lra. }
  unfold xhf_f_smith. rewrite !smith_mix_nan by exact F. now apply xassemble_nan.
Qed.
