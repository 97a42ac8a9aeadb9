(** * Rounded expansion rate and distance table *)
From Coq Require Import Reals Lra Lia.
From Verif Require Import Np NpLemmas Core Ode OdeProofs Integrate Background BgSpec BgPositive BgTables Ad AdSpec AdProofs Fp FpSpec FpProofs FpSums.
Local Open Scope R_scope.

Section Bg.
Context (N : num R) (u : R) {RN : rounding N u}.
Let U : 0 <= u < 1 := r_u.
Let l := loss u.
Let L : 0 <= l := loss_0 u U.
Local Lemma near_mul k x' y' x : close k (x' * y') x -> close (k + l) (nmul N x' y') x.
Proof. intros C. eapply close_near; [apply U|apply r_mul|exact C]. Qed.
Local Lemma near_add k x' y' x : close k (x' + y') x -> close (k + l) (nadd N x' y') x.
Proof. intros C. eapply close_near; [apply U|apply r_add|exact C]. Qed.
Local Lemma near_div k x' y' x : y' <> 0 -> close k (x' / y') x -> close (k + l) (ndiv N x' y') x.
Proof. intros Y C. eapply close_near; [apply U|apply r_div; exact Y|exact C]. Qed.
Local Lemma near_cst x : 0 <= x -> close l (cst N x) x.
Proof. intros X. replace l with (0 + l) by ring. eapply close_near; [apply U|apply r_cst|apply close_refl; exact X]. Qed.
Local Lemma mul_rule k1 k2 x' x y' y : close k1 x' x -> close k2 y' y -> close (k1 + k2 + l) (nmul N x' y') (x * y).
Proof. intros H1 H2. apply near_mul, close_mul; assumption. Qed.
Local Lemma add_rule k x' x y' y : close k x' x -> close k y' y -> close (k + l) (nadd N x' y') (x + y).
Proof. intros H1 H2. apply near_add, close_add; assumption. Qed.
Local Lemma c1 : cst N 1.0 = 1.
Proof. replace 1.0 with (IZR 1) by lra. apply r_int. lia. Qed.
Local Lemma c3 : cst N 3.0 = 3.
Proof. replace 3.0 with (IZR 3) by lra. apply r_int. lia. Qed.
Local Lemma cm3 : cst N (-3.0) = -3.
Proof. replace (-3.0) with (IZR (-3)) by lra. apply r_int. lia. Qed.
Local Lemma c2 : cst N 2 = 2.
Proof. apply (r_int 2). lia. Qed.

Variable c : cosmology.
Let g := lift_cosmo c.
Hypothesis (Pm : 0 < Omega_m c) (Pk : 0 <= Omega_k c) (Pde : 0 < Omega_de c) (Hde : de_part u c < 1).

Lemma de_part_0 : 0 <= de_part u c < 1.
Proof.
  split; [|exact Hde]. unfold de_part. apply Rmult_le_pos; [|left; apply Rinv_0_lt_compat; exact Pde].
  pose proof (pow_R1_Rle (1 + u) 3 ltac:(lra)). pose proof (Rabs_pos (Omega_k c)). pose proof (Rabs_pos (Omega_m c)). apply Rmult_le_pos; lra.
Qed.
Lemma m_close : close l (gOmega_m N g) (Omega_m c).
Proof. replace l with (0 + l) by ring. eapply close_near; [apply U|apply r_add|]. apply close_refl. change (0 <= Omega_m c). lra. Qed.
Lemma de_close : close (loss (de_part u c)) (gOmega_de N g) (Omega_de c).
Proof.
  apply close_of_rel; [apply de_part_0|lra|].
  assert (A : upto (1 + u) (1 + Rabs (Omega_k c)) (gOmega N g) (1 - Omega_k c)).
  { replace (1 + u) with (1 * (1 + u)) by ring. eapply upto_near; [apply U|apply r_sub|]. rewrite c1. apply upto_sub; [|apply upto_refl].
    eapply upto_grow; [apply Rle_refl| |apply upto_refl]. rewrite Rabs_R1. lra. }
  assert (B : upto (1 + u) (Rabs (Omega_m c)) (gOmega_m N g) (Omega_m c)).
  { replace (1 + u) with (1 * (1 + u)) by ring. eapply upto_near; [apply U|apply r_add|]. apply upto_refl. }
  pose proof (upto_near _ _ _ _ _ _ (proj1 U) (r_sub (N := N) _ _) (upto_sub _ _ _ _ _ _ _ A B)) as (_ & _ & C).
  replace (Omega_de c) with (1 - Omega_k c - Omega_m c) at 1 by (unfold Omega_de, Omega, Omega_k; lra).
  eapply Rle_trans; [exact C|]. unfold de_part.
  replace (((1 + u) ^ 3 - 1) * (1 + Rabs (Omega_k c) + Rabs (Omega_m c)) / Omega_de c * Omega_de c) with (((1 + u) ^ 3 - 1) * (1 + Rabs (Omega_k c) + Rabs (Omega_m c))) by (field; lra).
  apply Rmult_le_compat_r; [pose proof (Rabs_pos (Omega_k c)); pose proof (Rabs_pos (Omega_m c)); lra|]. simpl. nra.
Qed.

(** ** the exponent of the dark energy *)
Lemma near_0 z' : near u z' 0 -> z' = 0.
Proof. unfold near. rewrite Rabs_R0, Rmult_0_r, Rminus_0_r. intros H. destruct (Req_dec z' 0) as [E|E]; [exact E|]. pose proof (Rabs_pos_lt _ E). lra. Qed.
Lemma exponent_constant a' : constant_de c -> gf_de N g a' = 0.
Proof.
  intros [W0 WA]. unfold gf_de. rewrite c1, c3, cm3. change (gw0 g) with (_w0 c). change (gwa g) with (_wa c). rewrite W0, WA.
  assert (E1 : nadd N 1 (-1) = 0) by (apply near_0; replace 0 with (1 + -1) by lra; apply r_add). rewrite E1.
  assert (E2 : nadd N 0 0 = 0) by (apply near_0; replace 0 with (0 + 0) at 3 by lra; apply r_add). rewrite E2.
  assert (E3 : nmul N (-3) 0 = 0) by (apply near_0; replace 0 with (-3 * 0) at 2 by lra; apply r_mul). rewrite E3.
  assert (E4 : nmul N 0 (nln N a') = 0) by (apply near_0; replace 0 with (0 * nln N a') at 2 by lra; apply r_mul). rewrite E4.
  assert (E5 : nmul N 3 0 = 0) by (apply near_0; replace 0 with (3 * 0) at 2 by lra; apply r_mul). rewrite E5.
  assert (E6 : nmul N 0 (nsub N a' 1) = 0) by (apply near_0; replace 0 with (0 * nsub N a' 1) at 2 by lra; apply r_mul). rewrite E6.
  exact E2.
Qed.
Lemma exponent_general k a' a T : exp (- T) <= a <= 1 -> close k a' a -> Rabs (gf_de N g a' - f_de c a) <= de_exponent u k T c.
Proof.
  intros [Ta A1] C. assert (A0 : 0 < a) by (pose proof (exp_pos (- T)); lra). pose proof (close_pos _ _ _ C A0) as A0'.
  pose proof (close_ln _ _ _ A0 C) as CL. assert (K0 : 0 <= k) by apply C. pose proof (exp_ge1 k K0) as EK. pose proof (exp_ineq1_le k) as EK1.
  assert (LT : Rabs (ln a) <= T).
  { assert (- T <= ln a) by (rewrite <- (ln_exp (- T)); destruct Ta as [Q|Q]; [left; apply ln_increasing; [apply exp_pos|exact Q]|rewrite Q; lra]).
    assert (ln a <= 0) by (rewrite <- ln_1; destruct A1 as [Q|Q]; [left; apply ln_increasing; assumption|rewrite Q; lra]). apply Rabs_le. lra. }
  unfold gf_de, f_de. rewrite c1, c3, cm3. change (gw0 g) with (_w0 c). change (gwa g) with (_wa c).
  assert (UL : upto (1 * exp k * (1 + u)) (T + 1) (nln N a') (ln a)).
  { pose proof (r_ln (N := N) a' A0') as RL. unfold near in RL. pose proof (Rabs_pos (ln a)). split; [nra|]. split; [lra|].
    replace (nln N a' - ln a) with ((nln N a' - ln a') + (ln a' - ln a)) by ring. eapply Rle_trans; [apply Rabs_triang|].
    assert (Rabs (ln a') <= T + k) by (replace (ln a') with ((ln a' - ln a) + ln a) by ring; eapply Rle_trans; [apply Rabs_triang|lra]).
    assert (u * Rabs (ln a') <= u * (T + k)) by (apply Rmult_le_compat_l; lra).
    assert (T0 : 0 <= T) by lra.
    assert (X1 : ((1 + k) * (1 + u) - 1) * (T + 1) <= (1 * exp k * (1 + u) - 1) * (T + 1)) by (apply Rmult_le_compat_r; [lra|]; assert ((1 + k) * (1 + u) <= exp k * (1 + u)) by (apply Rmult_le_compat_r; lra); lra).
    assert (X2 : 0 <= k * T) by (apply Rmult_le_pos; lra). assert (X3 : 0 <= u * k) by (apply Rmult_le_pos; lra). assert (X4 : 0 <= u * k * T) by (apply Rmult_le_pos; lra).
    lra. }
  assert (UW : upto (1 * (1 + u) * (1 + u)) (1 + Rabs (_w0 c) + Rabs (_wa c)) (nadd N (nadd N 1 (_w0 c)) (_wa c)) (1 + _w0 c + _wa c)).
  { eapply upto_near; [apply U|apply r_add|]. apply upto_add.
    - eapply upto_near; [apply U|apply r_add|]. apply upto_add; [|apply upto_refl]. eapply upto_grow; [apply Rle_refl| |apply upto_refl]. rewrite Rabs_R1. lra.
    - eapply upto_grow; [|apply Rle_refl|apply upto_refl]. nra. }
  assert (U3 : upto (1 * (1 + u) ^ 2 * (1 + u)) (3 * (1 + Rabs (_w0 c) + Rabs (_wa c))) (nmul N (-3) (nadd N (nadd N 1 (_w0 c)) (_wa c))) (-3 * (1 + _w0 c + _wa c))).
  { eapply upto_near; [apply U|apply r_mul|]. apply upto_mul.
    - replace 3 with (Rabs (-3)) by (rewrite Rabs_left; lra). apply upto_refl.
    - eapply upto_grow; [|apply Rle_refl|exact UW]. lra. }
  pose proof (upto_near _ _ _ _ _ _ (proj1 U) (r_mul (N := N) _ _) (upto_mul _ _ _ _ _ _ _ _ U3 UL)) as UA.
  assert (UD : upto (exp k * (1 + u)) 2 (nsub N a' 1) (a - 1)).
  { eapply upto_near; [apply U|apply r_sub|]. replace 2 with (1 + 1) by ring. apply upto_sub.
    - eapply upto_grow; [apply Rle_refl|exact A1|]. apply close_upto. exact C.
    - eapply upto_grow; [exact EK| |apply upto_refl]. rewrite Rabs_R1. lra. }
  assert (U4 : upto (1 * (1 + u)) (3 * Rabs (_wa c)) (nmul N 3 (_wa c)) (3 * _wa c)).
  { eapply upto_near; [apply U|apply r_mul|]. rewrite <- (Rmult_1_l 1). apply upto_mul; [|apply upto_refl]. replace 3 with (Rabs 3) at 1 by (apply Rabs_right; lra). apply upto_refl. }
  pose proof (upto_near _ _ _ _ _ _ (proj1 U) (r_mul (N := N) _ _) (upto_mul _ _ _ _ _ _ _ _ U4 UD)) as UB.
  assert (P1 : 1 <= 1 + u) by lra.
  assert (GA : 1 * (1 + u) ^ 2 * (1 + u) * (1 * exp k * (1 + u)) * (1 + u) <= (1 + u) ^ 5 * exp k) by (simpl; lra).
  assert (GB : 1 * (1 + u) * (exp k * (1 + u)) * (1 + u) <= (1 + u) ^ 5 * exp k).
  { replace (1 * (1 + u) * (exp k * (1 + u)) * (1 + u)) with ((1 + u) ^ 3 * exp k) by (simpl; ring). apply Rmult_le_compat_r; [lra|]. apply Rle_pow; [exact P1|lia]. }
  pose proof (upto_near _ _ _ _ _ _ (proj1 U) (r_add (N := N) _ _) (upto_add _ _ _ _ _ _ _ (upto_grow _ _ _ _ _ _ GA (Rle_refl _) UA) (upto_grow _ _ _ _ _ _ GB (Rle_refl _) UB))) as (_ & _ & F).
  replace (-3.0) with (-3) by lra. replace 1.0 with 1 by lra. replace 3.0 with 3 by lra.
  eapply Rle_trans; [exact F|]. unfold de_exponent. right. simpl. ring.
Qed.
Lemma exponent_ok k a' a T d : exponent_error u k T d c -> exp (- T) <= a <= 1 -> close k a' a -> Rabs (gf_de N g a' - f_de c a) <= d.
Proof.
  intros [->|[K ->]] Ta C; [apply exponent_general; assumption|]. rewrite exponent_constant by exact K.
  destruct K as [W0 WA]. unfold f_de. rewrite W0, WA. replace (0 - _) with 0 by lra. rewrite Rabs_R0. lra.
Qed.

(** ** the expansion rate *)
Section At.
Variables (k T d a' a : R).
Hypothesis (Hd : exponent_error u k T d c) (Ta : exp (- T) <= a <= 1) (C : close k a' a).
Let A0 : 0 < a. Proof. pose proof (exp_pos (- T)). lra. Qed.
Let A0' : 0 < a'. Proof. exact (close_pos _ _ _ C A0). Qed.
Lemma E_pos : 0 < Esqr c a.
Proof.
  unfold Esqr. pose proof (exp_pos (f_de c a)). pose proof (pow_lt a 3 A0). pose proof (pow_lt a 2 A0).
  pose proof (Rinv_0_lt_compat _ H0). pose proof (Rinv_0_lt_compat _ H1).
  pose proof (Rmult_lt_0_compat _ _ Pm H2). pose proof (Rmult_le_pos _ _ Pk (Rlt_le _ _ H3)). pose proof (Rmult_lt_0_compat _ _ Pde H). lra.
Qed.
Let K0 : 0 <= k := proj1 C.
Let D0 : 0 <= d.
Proof. pose proof (exponent_ok _ _ _ _ _ Hd Ta C). pose proof (Rabs_pos (gf_de N g a' - f_de c a)). lra. Qed.
Lemma ipow_close n : close (INR (Pos.to_nat n) * k + l) (nipow N a' (Zneg n)) (/ a ^ Pos.to_nat n).
Proof. eapply close_near; [apply U|apply r_ipow; lra|]. simpl. apply close_inv; [apply pow_lt; exact A0|]. apply close_pow. exact C. Qed.
Lemma Esqr_close : close (Esqr_loss u k d c) (gEsqr N g a') (Esqr c a).
Proof.
  pose proof (loss_0 _ de_part_0) as LD. unfold gEsqr, Esqr, Esqr_loss. fold l.
  pose proof (mul_rule _ _ _ _ _ _ m_close (ipow_close 3)) as T1.
  pose proof (mul_rule _ _ _ _ _ _ (close_refl _ Pk) (ipow_close 2)) as T2.
  assert (CE : close (d + l) (nexp N (gf_de N g a')) (exp (f_de c a))).
  { eapply close_near; [apply U|apply r_exp|]. apply close_exp. apply (exponent_ok k a' a T d); assumption. }
  pose proof (mul_rule _ _ _ _ _ _ de_close CE) as T3.
  change (Pos.to_nat 3) with 3%nat in T1. change (Pos.to_nat 2) with 2%nat in T2. simpl INR in T1, T2.
  apply (close_grow _ (3 * k + 3 * l)) in T1; [|lra]. apply (close_grow _ (3 * k + 3 * l)) in T2; [|lra].
  pose proof (add_rule _ _ _ _ _ T1 T2) as T4.
  replace (3 * k + loss (de_part u c) + d + 5 * l) with ((3 * k + loss (de_part u c) + d + 4 * l) + l) by ring.
  apply add_rule; [eapply close_grow; [|exact T4]|eapply close_grow; [|exact T3]]; lra.
Qed.
Lemma sqrt_close : close (Esqr_loss u k d c / 2 + l) (nsqrt N (gEsqr N g a')) (sqrt (Esqr c a)).
Proof. eapply close_near; [apply U|apply r_sqrt; exact (close_0 _ _ _ Esqr_close)|]. apply close_sqrt, Esqr_close. Qed.
Lemma H_close : close (Esqr_loss u k d c / 2 + 3 * l) (gH N g a') (H c a).
Proof.
  unfold gH, H. eapply close_grow; [|eapply mul_rule; [apply near_cst; unfold const_H0; lra|apply sqrt_close]]. lra.
Qed.
Lemma dchi_close : close (2 * k + Esqr_loss u k d c / 2 + 5 * l) (gdchioverda N g a') (dchioverda c a).
Proof.
  unfold gdchioverda, dchioverda.
  assert (C2 : close (2 * k + l) (nipow N a' 2) (a ^ 2)).
  { eapply close_near; [apply U|apply r_ipow; lra|]. replace (2 * k) with (INR 2 * k) by (simpl; ring). exact (close_pow k a' a 2 C). }
  pose proof (mul_rule _ _ _ _ _ _ C2 sqrt_close) as CD.
  assert (PD : 0 < a ^ 2 * sqrt (Esqr c a)) by (apply Rmult_lt_0_compat; [apply pow_lt; exact A0|apply sqrt_lt_R0, E_pos]).
  pose proof (close_pos _ _ _ CD PD) as PD'.
  eapply close_grow; [|eapply near_div; [apply Rgt_not_eq; exact PD'|apply close_div; [exact PD|apply near_cst; unfold const_rh; lra|exact CD]]]. lra.
Qed.
End At.

(** ** the table *)
Section Table.
Variables (tau h T d : R).
Hypothesis (Ht : 0 <= tau) (Hh : 2 * tau < h).
Let k := node_loss u tau h T.
Hypothesis (Hd : exponent_error u k T d c) (HT : 0 <= T).
Let rho_ok : 0 <= 2 * tau / h < 1.
Proof. assert (0 < h) by lra. split; [apply Rmult_le_pos; [lra|left; apply Rinv_0_lt_compat; assumption]|]. apply Rmult_lt_reg_r with h; [lra|]. unfold Rdiv. rewrite Rmult_assoc, Rinv_l by lra. lra. Qed.
Let kf := 3 * k + Esqr_loss u k d c / 2 + 6 * l.
Let ks := step_loss u tau h.
Lemma ks_0 : 0 <= ks.
Proof. unfold ks, step_loss. pose proof (loss_0 _ rho_ok). fold l. lra. Qed.
Lemma mid_ge : tau <= mid_error u tau h T.
Proof. unfold mid_error. fold ks l. pose proof ks_0. pose proof (exp_ge1 (ks + l) ltac:(lra)). assert (0 <= (exp (ks + l) - 1) * (h / 2)) by (apply Rmult_le_pos; lra). nra. Qed.
Lemma integrand_close y' y t' t : Rabs (t' - t) <= mid_error u tau h T -> - T <= t <= 0 -> close kf (fdchioverdlna N g y' t') (dchioverdlna c y t).
Proof.
  intros B Rt. unfold fdchioverdlna, dchioverdlna. cbv zeta.
  assert (CX : close k (nexp N t') (exp t)) by (eapply close_near; [apply U|apply r_exp|apply close_exp; exact B]).
  assert (Ra : exp (- T) <= exp t <= 1) by (split; [apply exp_le; lra|rewrite <- exp_0; apply exp_le; lra]).
  eapply close_grow; [|eapply mul_rule; [apply (dchi_close k T d _ _ Hd Ra CX)|exact CX]]. unfold kf. lra.
Qed.
Lemma step_close j yt y tp' tp t' t : 0 <= j -> Rabs (tp' - tp) <= tau -> Rabs (t' - t) <= tau -> t - tp = h -> - T <= tp -> t <= 0 ->
  close (kf + ks + 7 * l + j * l) yt y ->
  close (kf + ks + 7 * l + (j + 1) * l) (snd (frk4 N (fdchioverdlna N g) (yt, tp') t'))
    (y + h / 6 * (dchioverdlna c 0 tp + 4 * dchioverdlna c 0 ((tp + t) / 2) + dchioverdlna c 0 t)).
Proof.
  intros J Bp Bt Eh Rp Rt Cy. assert (0 < h) by lra. unfold frk4. cbv zeta. unfold snd at 1.
  assert (Ch : close ks (nsub N t' tp') h).
  { eapply close_near; [apply U|apply r_sub|]. apply close_of_rel; [exact rho_ok|lra|].
    replace (2 * tau / h * h) with (2 * tau) by (field; lra). rewrite <- Eh. replace (t' - tp' - (t - tp)) with ((t' - t) - (tp' - tp)) by ring.
    eapply Rle_trans; [apply Rabs_triang|]. rewrite Rabs_Ropp. lra. }
  assert (Cm : close (ks + l) (ndiv N (nsub N t' tp') (cst N 2)) (h / 2)).
  { rewrite c2. apply near_div; [lra|]. replace ks with (ks + 0) by ring. apply close_div; [lra|exact Ch|apply close_refl; lra]. }
  assert (Bm : Rabs (nadd N tp' (ndiv N (nsub N t' tp') (cst N 2)) - (tp + t) / 2) <= mid_error u tau h T).
  { apply close_rel in Cm. set (hm := ndiv N (nsub N t' tp') (cst N 2)) in *. pose proof (r_add (N := N) tp' hm) as A. unfold near in A.
    assert (Q : Rabs (tp' + hm - (tp + t) / 2) <= tau + (exp (ks + l) - 1) * (h / 2)).
    { replace (tp' + hm - (tp + t) / 2) with ((tp' - tp) + (hm - h / 2)) by lra. eapply Rle_trans; [apply Rabs_triang|]. lra. }
    assert (Z : Rabs ((tp + t) / 2) <= T) by (apply Rabs_le; lra).
    assert (Q2 : Rabs (tp' + hm) <= T + (tau + (exp (ks + l) - 1) * (h / 2))).
    { replace (tp' + hm) with ((tp + t) / 2 + (tp' + hm - (tp + t) / 2)) by lra. eapply Rle_trans; [apply Rabs_triang|]. lra. }
    replace (nadd N tp' hm - (tp + t) / 2) with ((nadd N tp' hm - (tp' + hm)) + (tp' + hm - (tp + t) / 2)) by ring.
    eapply Rle_trans; [apply Rabs_triang|]. unfold mid_error. fold ks l.
    assert (u * Rabs (tp' + hm) <= u * (T + (tau + (exp (ks + l) - 1) * (h / 2)))) by (apply Rmult_le_compat_l; [apply U|exact Q2]). lra. }
  pose proof mid_ge as MG.
  replace (h / 6 * (dchioverdlna c 0 tp + 4 * dchioverdlna c 0 ((tp + t) / 2) + dchioverdlna c 0 t)) with
    (1.0 / 6.0 * h * (dchioverdlna c 0 tp + 2 * dchioverdlna c 0 ((tp + t) / 2) + 2 * dchioverdlna c 0 ((tp + t) / 2) + dchioverdlna c 0 t)) by lra.
  replace (kf + ks + 7 * l + (j + 1) * l) with (kf + ks + 7 * l + j * l + l) by ring.
  apply add_rule; [exact Cy|].
  assert (C6 : close (ks + 2 * l) (nmul N (cst N (1.0 / 6.0)) (nsub N t' tp')) (1.0 / 6.0 * h)).
  { eapply close_grow; [|eapply mul_rule; [apply near_cst; lra|exact Ch]]. lra. }
  assert (C2f : forall y', close (kf + l) (nmul N (cst N 2) (fdchioverdlna N g y' (nadd N tp' (ndiv N (nsub N t' tp') (cst N 2))))) (2 * dchioverdlna c 0 ((tp + t) / 2))).
  { intros y'. rewrite c2 at 1. eapply close_grow; [|eapply mul_rule; [apply close_refl; lra|apply integrand_close; [exact Bm|lra]]]. lra. }
  assert (J0 : 0 <= j * l) by (apply Rmult_le_pos; [exact J|exact L]).
  eapply close_grow; [|eapply mul_rule; [exact C6|]].
  2: { apply (add_rule (kf + 3 * l)).
       - replace (kf + 3 * l) with (kf + 2 * l + l) by ring. apply add_rule.
         + replace (kf + 2 * l) with (kf + l + l) by ring. apply add_rule; [|apply C2f].
           eapply close_grow; [|apply integrand_close; [lra|lra]]. lra.
         + eapply close_grow; [|apply C2f]. lra.
       - eapply close_grow; [|apply integrand_close; [lra|lra]]. lra. }
  lra.
Qed.
End Table.
End Bg.
