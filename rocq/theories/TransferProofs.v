(** * Proofs about the Eisenstein & Hu transfer function *)
From Coquelicot Require Import Coquelicot.
From Verif Require Import Np NpLemmas Core Transfer BgGrowth.

(** matter and baryons present, baryons not more than all matter, positive h *)
Definition dense (c : cosmology) : Prop := 0 < _Omega_b c /\ 0 <= _Omega_c c /\ 0 < _h c.

Lemma T27_pos : 0 < eh_T27sqr.
Proof. unfold eh_T27sqr, const_tcmb. apply pow_lt. lra. Qed.
Lemma dense_pos c : dense c -> 0 < Omega_m c /\ 0 < eh_w_m c /\ 0 < eh_w_b c /\ 0 < eh_fb c <= 1 /\ 0 <= eh_fc c /\
  eh_fb c + eh_fc c = 1 /\ 0 < eh_k_eq c /\ 0 < eh_z_eq c.
Proof.
  intros (Hb & Hc & Hh). pose proof T27_pos as HT. assert (M : 0 < Omega_m c) by (unfold Omega_m; lra).
  assert (h2 : 0 < _h c ^ 2) by (now apply pow_lt). assert (WM : 0 < eh_w_m c) by (now apply Rmult_lt_0_compat).
  split; [ exact M | split; [ exact WM | split; [ now apply Rmult_lt_0_compat | ]]].
  assert (B : Omega_b c <= Omega_m c) by (unfold Omega_b, Omega_m; lra). assert (Hb' : 0 < Omega_b c) by exact Hb.
  split; [ split; [ now apply Rdiv_lt_0_compat | ] | split; [ | split; [ | split ]]].
  - unfold eh_fb. apply Rmult_le_reg_r with (Omega_m c); [ exact M | ]. unfold Rdiv. rewrite Rmult_assoc, Rinv_l; lra.
  - apply Rmult_le_pos; [ lra | left; now apply Rinv_0_lt_compat ].
  - unfold eh_fb, eh_fc. field. lra.
  - unfold eh_k_eq. apply Rdiv_lt_0_compat; [ | exact Hh ]. apply Rdiv_lt_0_compat; [ | exact HT ]. nra.
  - unfold eh_z_eq. apply Rdiv_lt_0_compat; [ nra | now apply pow_lt ].
Qed.
Lemma Rpower_pos x y : 0 < Rpower x y.
Proof. apply exp_pos. Qed.
Lemma z_d_pos c : dense c -> 0 < eh_z_d c.
Proof.
  intros H. destruct (dense_pos c H) as (_ & WM & WB & _). unfold eh_z_d. cbv zeta. rewrite !rpow_pos by assumption.
  pose proof (Rpower_pos (eh_w_m c)) as P.
  assert (0 < 0.313 * Rpower (eh_w_m c) (-0.419) * (1.0 + 0.607 * Rpower (eh_w_m c) 0.674)).
  { pose proof (P (-0.419)). pose proof (P 0.674). apply Rmult_lt_0_compat; lra. }
  apply Rmult_lt_0_compat; [ apply Rdiv_lt_0_compat | ].
  - pose proof (P 0.251). lra.
  - pose proof (P 0.828). lra.
  - pose proof (Rpower_pos (eh_w_b c) (0.238 * Rpower (eh_w_m c) 0.223)). nra.
Qed.
Lemma R_pos c : dense c -> 0 < eh_R_d c /\ 0 < eh_R_eq c.
Proof.
  intros H. pose proof (z_d_pos c H) as ZD. destruct (dense_pos c H) as (_ & WM & WB & _ & _ & _ & _ & ZE). pose proof T27_pos as HT.
  assert (0 < 31.5 * eh_w_b c / eh_T27sqr ^ 2) by (apply Rdiv_lt_0_compat; [ lra | now apply pow_lt ]).
  split; (apply Rmult_lt_0_compat; [ assumption | apply Rdiv_lt_0_compat; lra ]).
Qed.
Lemma sh_d_pos c : dense c -> 0 < eh_sh_d c.
Proof.
  intros H. destruct (R_pos c H) as (RD & RE). destruct (dense_pos c H) as (_ & _ & _ & _ & _ & _ & KE & _). unfold eh_sh_d.
  apply Rmult_lt_0_compat; [ apply Rmult_lt_0_compat; [ apply Rdiv_lt_0_compat; lra | apply sqrt_lt_R0, Rdiv_lt_0_compat; lra ] | ].
  rewrite <- ln_1. apply ln_increasing; [ lra | ].
  pose proof (sqrt_pos (eh_R_eq c)). assert (1 < sqrt (1.0 + eh_R_d c)) by (rewrite <- sqrt_1 at 1; apply sqrt_lt_1; lra).
  assert (sqrt (eh_R_eq c) < sqrt (eh_R_eq c + eh_R_d c)) by (apply sqrt_lt_1; lra).
  apply Rmult_lt_reg_r with (1.0 + sqrt (eh_R_eq c)); [ lra | ]. unfold Rdiv. rewrite Rmult_assoc, Rinv_l; lra.
Qed.

(** ** limits from the right at 0 *)
Definition lim0 (f : R -> R) (l : R) : Prop := filterlim f (at_right 0) (locally l).

Lemma lim0_eq f a b : a = b -> lim0 f a -> lim0 f b.
Proof. now intros ->. Qed.
Lemma lim0_const k : lim0 (fun _ => k) k.
Proof. apply filterlim_const. Qed.
Lemma lim0_plus f g a b : lim0 f a -> lim0 g b -> lim0 (fun x => f x + g x) (a + b).
Proof. intros Hf Hg. eapply filterlim_comp_2; [ exact Hf | exact Hg | apply (filterlim_plus (K := R_AbsRing) (V := R_NormedModule)) ]. Qed.
Lemma lim0_mult f g a b : lim0 f a -> lim0 g b -> lim0 (fun x => f x * g x) (a * b).
Proof. intros Hf Hg. eapply filterlim_comp_2; [ exact Hf | exact Hg | apply (filterlim_mult (K := R_AbsRing)) ]. Qed.
Lemma lim0_comp f g a : lim0 f a -> continuous g a -> lim0 (fun x => g (f x)) (g a).
Proof. intros Hf Hg. eapply filterlim_comp; [ exact Hf | exact Hg ]. Qed.
Lemma lim0_inv f a : lim0 f a -> a <> 0 -> lim0 (fun x => / f x) (/ a).
Proof. intros Hf Ha. apply (lim0_comp f Rinv a Hf). now apply continuous_Rinv. Qed.
Lemma lim0_div f g a b : lim0 f a -> lim0 g b -> b <> 0 -> lim0 (fun x => f x / g x) (a / b).
Proof. intros Hf Hg Hb. apply lim0_mult; [ exact Hf | now apply lim0_inv ]. Qed.
Lemma lim0_id : lim0 (fun x => x) 0.
Proof. intros P [e He]. exists e. intros y Hy _. now apply He. Qed.
Lemma lim0_ext f g a : (forall x, 0 < x -> f x = g x) -> lim0 f a -> lim0 g a.
Proof.
  intros E Hf. eapply filterlim_ext_loc; [ | exact Hf ]. exists (mkposreal 1 Rlt_0_1). intros y _ Hy. now apply E.
Qed.
Lemma lim0_squeeze f g : (forall x, 0 < x -> Rabs (f x) <= g x) -> lim0 g 0 -> lim0 f 0.
Proof.
  intros E Hg P [e He]. 
  specialize (Hg (fun y => Rabs y < e)). assert (L : locally 0 (fun y => Rabs y < e)).
  { exists e. intros y Hy. unfold ball in Hy; simpl in Hy. unfold AbsRing_ball, abs, minus, plus, opp in Hy; simpl in Hy. now rewrite Ropp_0, Rplus_0_r in Hy. }
  destruct (Hg L) as [d Hd]. exists d. intros y Hy Hpos. apply He. unfold ball; simpl; unfold AbsRing_ball, abs, minus, plus, opp; simpl.
  rewrite Ropp_0, Rplus_0_r. apply Rle_lt_trans with (g y); [ now apply E | ]. apply Rle_lt_trans with (Rabs (g y)); [ apply Rle_abs | now apply Hd ].
Qed.
Lemma lim0_scal k : lim0 (fun x => k * x) 0.
Proof. replace 0 with (k * 0) by ring. apply lim0_mult; [ apply lim0_const | apply lim0_id ]. Qed.
Lemma lim0_pow f a n : lim0 f a -> lim0 (fun x => f x ^ n) (a ^ n).
Proof.
  intros Hf. induction n as [ | n IH]; [ apply lim0_const | ]. simpl. now apply lim0_mult.
Qed.
Lemma lim0_bounded f g M : (forall x, 0 < x -> Rabs (f x) <= M) -> lim0 g 0 -> lim0 (fun x => f x * g x) 0.
Proof.
  intros Hf Hg. apply (lim0_squeeze _ (fun x => Rabs M * Rabs (g x))).
  - intros x Hx. rewrite Rabs_mult. apply Rmult_le_compat_r; [ apply Rabs_pos | ]. apply Rle_trans with M; [ now apply Hf | apply Rle_abs ].
  - replace 0 with (Rabs M * Rabs 0) by (rewrite Rabs_R0; ring). apply lim0_mult; [ apply lim0_const | ].
    apply (lim0_comp g Rabs 0 Hg). apply continuous_Rabs.
Qed.
Lemma lim0_ln f a : lim0 f a -> 0 < a -> lim0 (fun x => ln (f x)) (ln a).
Proof. intros Hf Ha. apply (lim0_comp f ln a Hf). apply continuity_pt_filterlim, derivable_continuous_pt. exists (/ a). now apply derivable_pt_lim_ln. Qed.

(** L/(L + C q^2) with C bounded *)
Lemma lim0_ratio L C q l M : lim0 L l -> l <> 0 -> (forall x, 0 < x -> Rabs (C x) <= M) -> lim0 q 0 ->
  lim0 (fun x => L x / (L x + C x * q x * q x)) 1.
Proof.
  intros HL Hl HC Hq. replace 1 with (l / (l + 0)) by (field; lra). apply lim0_div; [ exact HL | | lra ].
  apply lim0_plus; [ exact HL | ]. apply (lim0_ext (fun x => C x * (q x * q x))); [ intros; ring | ].
  apply (lim0_bounded C (fun x => q x * q x) M HC). replace 0 with (0 * 0) by ring. now apply lim0_mult.
Qed.

Lemma gamma_eff_lim c : dense c -> lim0 (eh_gamma_eff c) (Omega_m c * _h c).
Proof.
  intros H. unfold eh_gamma_eff. set (al := eh_alpha_gamma c).
  apply (lim0_eq _ (Omega_m c * _h c * (al + (1.0 - al) / (1.0 + 0 ^ 4)))); [ replace 1.0 with 1 by lra; field; simpl; lra | ].
  apply lim0_mult; [ apply lim0_const | ]. apply lim0_plus; [ apply lim0_const | ].
  apply lim0_div; [ apply lim0_const | | simpl; lra ]. apply lim0_plus; [ apply lim0_const | ]. apply lim0_pow.
  apply (lim0_ext (fun x => (0.43 * eh_sh_d c) * x)); [ intros; ring | apply lim0_scal ].
Qed.

Lemma gamma_eff_pos c k : dense c -> 0 <= eh_alpha_gamma c -> 0 <= k -> 0 < eh_gamma_eff c k.
Proof.
  intros H Ha Hk. destruct (dense_pos c H) as (M & _). destruct H as (_ & _ & Hh). unfold eh_gamma_eff.
  apply Rmult_lt_0_compat; [ now apply Rmult_lt_0_compat | ]. set (al := eh_alpha_gamma c) in *. set (x := (0.43 * k * eh_sh_d c) ^ 4).
  assert (X : 0 <= x) by (unfold x; replace 4%nat with (2 * 2)%nat by reflexivity; rewrite pow_mult; apply pow2_ge_0).
  replace (al + (1.0 - al) / (1.0 + x)) with ((1 + al * x) / (1 + x)) by (replace 1.0 with 1 by lra; field; lra).
  apply Rdiv_lt_0_compat; nra.
Qed.
Lemma eisenhu_range c k : dense c -> 0 <= eh_alpha_gamma c -> 0 <= k -> 0 < eisenhu c k <= 1.
Proof.
  intros H Ha Hk. pose proof (gamma_eff_pos c k H Ha Hk) as G. unfold eisenhu. cbv zeta.
  assert (Q : 0 <= k * (const_tcmb / 2.7) ^ 2 / eh_gamma_eff c k).
  { apply Rmult_le_pos; [ apply Rmult_le_pos; [ exact Hk | apply pow2_ge_0 ] | left; now apply Rinv_0_lt_compat ]. }
  set (q := k * (const_tcmb / 2.7) ^ 2 / eh_gamma_eff c k) in *.
  assert (L : 0 < ln (2.0 * exp 1.0 + 1.8 * q)).
  { rewrite <- ln_1. apply ln_increasing; [ lra | ]. pose proof (exp_ineq1 1.0 ltac:(lra)). lra. }
  set (l := ln (2.0 * exp 1.0 + 1.8 * q)) in *.
  assert (C : 0 < 14.2 + 731.0 / (1.0 + 62.5 * q)) by (assert (0 < 731.0 / (1.0 + 62.5 * q)) by (apply Rdiv_lt_0_compat; lra); lra).
  set (cc := 14.2 + 731.0 / (1.0 + 62.5 * q)) in *. assert (0 <= cc * q * q) by nra.
  split; [ apply Rdiv_lt_0_compat; lra | ]. apply Rmult_le_reg_r with (l + cc * q * q); [ lra | ]. unfold Rdiv. rewrite Rmult_assoc, Rinv_l; lra.
Qed.

Lemma eisenhu_lim c : dense c -> lim0 (eisenhu c) 1.
Proof.
  intros H. destruct (dense_pos c H) as (M & _). assert (G : 0 < Omega_m c * _h c) by (destruct H as (_ & _ & Hh); now apply Rmult_lt_0_compat).
  assert (HQ : lim0 (fun k => k * (const_tcmb / 2.7) ^ 2 / eh_gamma_eff c k) 0).
  { replace 0 with (0 * (const_tcmb / 2.7) ^ 2 / (Omega_m c * _h c)) by (unfold Rdiv; ring).
    apply lim0_div; [ | now apply gamma_eff_lim | lra ]. apply lim0_mult; [ apply lim0_id | apply lim0_const ]. }
  set (q := fun k => k * (const_tcmb / 2.7) ^ 2 / eh_gamma_eff c k) in *.
  assert (HL : lim0 (fun k => ln (2.0 * exp 1.0 + 1.8 * q k)) (ln (2.0 * exp 1.0 + 1.8 * 0))).
  { apply lim0_ln; [ | pose proof (exp_pos 1.0); lra ]. apply lim0_plus; [ apply lim0_const | ]. apply lim0_mult; [ apply lim0_const | exact HQ ]. }
  assert (L0 : ln (2.0 * exp 1.0 + 1.8 * 0) <> 0).
  { assert (Q : ln 1 < ln (2.0 * exp 1.0 + 1.8 * 0)) by (apply ln_increasing; [ lra | ]; pose proof (exp_ineq1 1.0 ltac:(lra)); lra).
    rewrite ln_1 in Q. lra. }
  set (C := fun k => 14.2 + 731.0 / (1.0 + 62.5 * q k)).
  assert (HC : lim0 C (14.2 + 731.0 / (1.0 + 62.5 * 0))).
  { apply lim0_plus; [ apply lim0_const | ]. apply lim0_div; [ apply lim0_const | | lra ]. apply lim0_plus; [ apply lim0_const | ].
    apply lim0_mult; [ apply lim0_const | exact HQ ]. }
  change (lim0 (fun k => ln (2.0 * exp 1.0 + 1.8 * q k) / (ln (2.0 * exp 1.0 + 1.8 * q k) + C k * q k * q k)) 1).
  set (l := ln (2.0 * exp 1.0 + 1.8 * 0)) in *.
  apply (lim0_eq _ (l / (l + (14.2 + 731.0 / (1.0 + 62.5 * 0)) * 0 * 0))); [ rewrite !Rmult_0_r, Rplus_0_r; now apply Rinv_r | ].
  apply lim0_div; [ exact HL | | replace (l + (14.2 + 731.0 / (1.0 + 62.5 * 0)) * 0 * 0) with l by ring; exact L0 ].
  apply lim0_plus; [ exact HL | ]. apply lim0_mult; [ | exact HQ ]. now apply lim0_mult.
Qed.

(** ** the oscillating form *)
Lemma T_tilde_lim c alpha beta : dense c -> lim0 (fun k => eh_T_tilde c k alpha beta) 1.
Proof.
  intros H. destruct (dense_pos c H) as (_ & _ & _ & _ & _ & _ & KE & _).
  set (q := fun k => k / (13.41 * eh_k_eq c)).
  assert (HQ : lim0 q 0).
  { apply (lim0_ext (fun k => / (13.41 * eh_k_eq c) * k)); [ intros; unfold q, Rdiv; ring | apply lim0_scal ]. }
  unfold eh_T_tilde. cbv zeta.
  apply (lim0_ratio (fun k => ln (exp 1.0 + 1.8 * beta * q k)) (fun k => 14.2 / alpha + 386.0 / (1.0 + 69.9 * rpow (q k) 1.08)) q 1 (Rabs (14.2 / alpha) + 386)); [ | lra | | exact HQ ].
  - apply (lim0_eq _ (ln (exp 1.0 + 1.8 * beta * 0))); [ replace (exp 1.0 + 1.8 * beta * 0) with (exp 1) by (replace 1.0 with 1 by lra; ring); apply ln_exp | ].
    apply lim0_ln; [ | pose proof (exp_pos 1.0); lra ]. apply lim0_plus; [ apply lim0_const | ]. apply lim0_mult; [ apply lim0_const | exact HQ ].
  - intros x Hx. apply Rle_trans with (Rabs (14.2 / alpha) + Rabs (386.0 / (1.0 + 69.9 * rpow (q x) 1.08))); [ apply Rabs_triang | ].
    apply Rplus_le_compat_l. pose proof (rpow_nonneg (q x) 1.08) as P. assert (D : 0 < 1.0 + 69.9 * rpow (q x) 1.08) by lra.
    rewrite Rabs_right by (apply Rle_ge; left; apply Rdiv_lt_0_compat; lra).
    apply Rmult_le_reg_r with (1.0 + 69.9 * rpow (q x) 1.08); [ exact D | ]. unfold Rdiv. rewrite Rmult_assoc, Rinv_l by lra. nra.
Qed.
Lemma Tc_lim c : dense c -> lim0 (eh_Tc c) 1.
Proof.
  intros H. unfold eh_Tc. cbv zeta.
  assert (F : lim0 (fun k => 1.0 / (1.0 + (k * eh_sh_d c / 5.4) ^ 4)) 1).
  { apply (lim0_eq _ (1.0 / (1.0 + 0 ^ 4))); [ simpl; lra | ]. apply lim0_div; [ apply lim0_const | | simpl; lra ].
    apply lim0_plus; [ apply lim0_const | ]. apply lim0_pow. apply (lim0_ext (fun k => eh_sh_d c / 5.4 * k)); [ intros; unfold Rdiv; ring | apply lim0_scal ]. }
  apply (lim0_eq _ (1 * 1 + (1.0 - 1) * 1)); [ lra | ]. apply lim0_plus; apply lim0_mult; try (now apply T_tilde_lim); [ exact F | ].
  apply (lim0_ext (fun k => 1.0 + -1 * (1.0 / (1.0 + (k * eh_sh_d c / 5.4) ^ 4)))); [ intros; ring | ].
  apply (lim0_eq _ (1.0 + -1 * 1)); [ ring | ]. apply lim0_plus; [ apply lim0_const | apply lim0_mult; [ apply lim0_const | exact F ]].
Qed.
Lemma sinc_lim f : (forall x, 0 < x -> 0 < f x) -> lim0 f 0 -> lim0 (fun x => sinc (f x / PI)) 1.
Proof.
  intros Hp Hf. pose proof PI_RGT_0. apply (lim0_ext (fun x => sin (f x) / f x)).
  - intros x Hx. specialize (Hp x Hx). unfold sinc. destruct (Req_EM_T (f x / PI) 0) as [E | E].
    + assert (f x = 0) by (replace (f x) with (f x / PI * PI) by (field; lra); rewrite E; ring). lra.
    + replace (PI * (f x / PI)) with (f x) by (field; lra). reflexivity.
  - pose proof is_lim_sinc_0 as L. unfold is_lim in L. simpl in L.
    intros P HP. specialize (L P HP). unfold filtermap in *.
    assert (L' : locally 0 (fun y => y <> 0 -> P (sin y / y))) by (destruct L as [d Hd]; exists d; intros y Hy Hne; now apply Hd).
    specialize (Hf _ L'). unfold filtermap in Hf. destruct Hf as [d Hd]. exists d. intros y Hy Hpos. apply Hd; auto. specialize (Hp y Hpos). lra.
Qed.
Lemma tilde_s_bound c k : dense c -> 0 < k -> 0 < eh_tilde_s c k <= eh_sh_d c.
Proof.
  intros H Hk. pose proof (sh_d_pos c H) as S. destruct (dense_pos c H) as (_ & WM & _). unfold eh_tilde_s. cbv zeta.
  assert (X : 0 < (8.41 * rpow (eh_w_m c) 0.435 / (k * eh_sh_d c)) ^ 3).
  { apply pow_lt. apply Rdiv_lt_0_compat; [ | now apply Rmult_lt_0_compat ]. rewrite rpow_pos by assumption. pose proof (Rpower_pos (eh_w_m c) 0.435). lra. }
  set (x := (8.41 * rpow (eh_w_m c) 0.435 / (k * eh_sh_d c)) ^ 3) in *. rewrite rpow_pos by lra.
  assert (B : 1 <= Rpower (1.0 + x) (1.0 / 3.0)).
  { replace 1 with (Rpower (1.0 + x) 0) at 1 by (apply Rpower_O; lra). apply Rle_Rpower; lra. }
  split; [ apply Rdiv_lt_0_compat; lra | ]. apply Rmult_le_reg_r with (Rpower (1.0 + x) (1.0 / 3.0)); [ lra | ].
  unfold Rdiv. rewrite Rmult_assoc, Rinv_l by lra. nra.
Qed.
Lemma beta_b_pos c : dense c -> 0 < eh_beta_b c.
Proof.
  intros H. destruct (dense_pos c H) as (_ & _ & _ & B & _). unfold eh_beta_b. pose proof (sqrt_pos ((17.2 * eh_w_m c) ^ 2 + 1.0)). nra.
Qed.
Lemma Tb_lim c : dense c -> lim0 (eh_Tb c) 1.
Proof.
  intros H. pose proof (sh_d_pos c H) as S. pose proof (beta_b_pos c H) as B. unfold eh_Tb.
  apply (lim0_eq _ ((1 / 1 + 0) * 1)); [ field | ]. apply lim0_mult.
  - apply lim0_plus.
    + apply lim0_div; [ now apply T_tilde_lim | | lra ]. apply (lim0_eq _ (1.0 + 0 ^ 2)); [ simpl; lra | ].
      apply lim0_plus; [ apply lim0_const | ]. apply lim0_pow. apply (lim0_ext (fun k => eh_sh_d c / 5.2 * k)); [ intros; unfold Rdiv; ring | apply lim0_scal ].
    + apply (lim0_ext (fun k => exp (- rpow (k / eh_k_silk c) 1.4) * (eh_alpha_b c / (1.0 + (eh_beta_b c / (k * eh_sh_d c)) ^ 3)))); [ intros; ring | ].
      apply (lim0_bounded _ _ 1).
      * intros x _. rewrite Rabs_right by (apply Rle_ge; left; apply exp_pos). rewrite <- exp_0. pose proof (rpow_nonneg (x / eh_k_silk c) 1.4) as [P | E].
        -- left; apply exp_increasing; lra.
        -- rewrite <- E, Ropp_0. lra.
      * apply (lim0_ext (fun k => eh_alpha_b c * (k * eh_sh_d c) ^ 3 / ((k * eh_sh_d c) ^ 3 + eh_beta_b c ^ 3))).
        -- intros x Hx. assert (0 < x * eh_sh_d c) by (now apply Rmult_lt_0_compat). assert (0 < (x * eh_sh_d c) ^ 3) by (now apply pow_lt).
           assert (0 < eh_beta_b c ^ 3) by (now apply pow_lt). replace 1.0 with 1 by lra. field. repeat split; lra.
        -- assert (P3 : 0 < eh_beta_b c ^ 3) by (now apply pow_lt).
           apply (lim0_eq _ (eh_alpha_b c * 0 ^ 3 / (0 ^ 3 + eh_beta_b c ^ 3))); [ simpl; field; simpl in P3; lra | ].
           assert (K : lim0 (fun k => (k * eh_sh_d c) ^ 3) (0 ^ 3)).
           { apply lim0_pow. apply (lim0_ext (fun k => eh_sh_d c * k)); [ intros; ring | apply lim0_scal ]. }
           apply lim0_div; [ | | simpl; simpl in P3; lra ]. { apply lim0_mult; [ apply lim0_const | exact K ]. }
           apply lim0_plus; [ exact K | apply lim0_const ].
  - apply (sinc_lim (fun k => k * eh_tilde_s c k)).
    + intros x Hx. destruct (tilde_s_bound c x H Hx). now apply Rmult_lt_0_compat.
    + apply (lim0_squeeze _ (fun k => eh_sh_d c * k)); [ | apply lim0_scal ]. intros x Hx. destruct (tilde_s_bound c x H Hx).
      rewrite Rabs_right by nra. nra.
Qed.
Lemma eisenhu_osc_lim c : dense c -> lim0 (eisenhu_osc c) 1.
Proof.
  intros H. destruct (dense_pos c H) as (_ & _ & _ & _ & _ & E & _). unfold eisenhu_osc.
  apply (lim0_eq _ (eh_fb c * 1 + eh_fc c * 1)); [ lra | ]. apply lim0_plus; (apply lim0_mult; [ apply lim0_const | ]); [ now apply Tb_lim | now apply Tc_lim ].
Qed.
