(** * Halofit on large scales *)
From Coquelicot Require Import Coquelicot.
From Verif Require Import Np NpLemmas Core Interp Background BgSpec BgGrowth Transfer Power PowerProofs TransferProofs.
Opaque chi_table growth_table_ODE growth_table_gamma logspace hf_sigma.

Lemma rpow_exp x y : 0 < x -> rpow x y = exp (y * ln x).
Proof. exact (rpow_pos x y). Qed.
Lemma lim0_rpower e : 0 < e -> lim0 (fun k => rpow k e) 0.
Proof.
  intros He. intros P [eps HP]. set (d := exp (ln (pos eps) / e)). assert (Hd : 0 < d) by apply exp_pos.
  exists (mkposreal d Hd). intros k Hk Hk0. apply HP. change (Rabs (k - 0) < d) in Hk. rewrite Rminus_0_r, Rabs_pos_eq in Hk by lra.
  change (Rabs (rpow k e - 0) < eps). rewrite rpow_exp by assumption. rewrite Rminus_0_r, Rabs_pos_eq by (left; apply exp_pos).
  rewrite <- (exp_ln eps (cond_pos eps)). apply exp_increasing. pose proof (ln_increasing k d Hk0 Hk) as L. unfold d in L. rewrite ln_exp in L.
  apply (Rmult_lt_compat_l e) in L; [ | exact He ]. replace (e * (ln eps / e)) with (ln eps) in L by (field; lra). exact L.
Qed.
(** the halo term is at most a y^(3 f1 + 2) / nu *)
Lemma assemble_ratio k pk knl co f1 f2 f3 : 0 < k -> 0 < pk -> 0 < knl -> 0 < hf_a co -> 0 <= hf_b co -> 0 <= hf_mu co -> 0 < hf_nu co ->
  let d2l := k ^ 3 * pk / (2 * PI ^ 2) in let y := k / knl in
  exists h, 0 <= h <= hf_a co / hf_nu co * (rpow y (3 * f1) * y ^ 2) / d2l /\
  hf_assemble k pk knl co (f1, f2, f3) / pk = rpow (1 + d2l) (hf_beta co) / (1 + hf_alpha co * d2l) * exp (- (y / 4 + y ^ 2 / 8)) + h.
Proof.
  intros Hk Hp Hn Ha Hb Hmu Hnu d2l y. pose proof PI_RGT_0. assert (P2 : 0 < PI ^ 2) by (apply pow_lt; lra). assert (K3 : 0 < k ^ 3) by (now apply pow_lt).
  assert (Y : 0 < y) by (unfold y; now apply Rdiv_lt_0_compat).
  assert (L : 0 < d2l) by (unfold d2l; apply Rdiv_lt_0_compat; [ now apply Rmult_lt_0_compat | lra ]).
  set (A := hf_a co) in *. set (N := hf_nu co) in *. set (r := rpow y (3 * f1)). assert (Rp : 0 < r) by (unfold r; rewrite rpow_exp by assumption; apply exp_pos).
  set (u := 1 + hf_b co * rpow y f2 + rpow (hf_c co * f3 * y) (3 - hf_gamma co)).
  assert (U : 1 <= u) by (unfold u; pose proof (rpow_nonneg y f2); pose proof (rpow_nonneg (hf_c co * f3 * y) (3 - hf_gamma co)); nra).
  set (v := 1 + hf_mu co / y + N / y ^ 2).
  assert (V : N / y ^ 2 <= v) by (unfold v; assert (0 <= hf_mu co / y) by (apply Rmult_le_pos; [ lra | left; now apply Rinv_0_lt_compat ]); lra).
  assert (NY : 0 < N / y ^ 2) by (apply Rdiv_lt_0_compat; [ exact Hnu | now apply pow_lt ]).
  exists (A * r / u / v / d2l). split.
  - split.
    + repeat (apply Rmult_le_pos || (left; apply Rinv_0_lt_compat)); try lra.
    + unfold Rdiv at 1 4. apply Rmult_le_compat_r; [ left; now apply Rinv_0_lt_compat | ].
      replace (A / N * (r * y ^ 2)) with (A * r / 1 / (N / y ^ 2)) by (field; split; lra || (apply pow_nonzero; lra)).
      unfold Rdiv at 1 4. apply Rmult_le_compat; [ | left; apply Rinv_0_lt_compat; lra | | apply Rinv_le_contravar; lra ].
      * apply Rmult_le_pos; [ nra | left; apply Rinv_0_lt_compat; lra ].
      * apply Rmult_le_compat_l; [ nra | ]. apply Rinv_le_contravar; lra.
  - unfold hf_assemble. replace (2.0) with 2 by lra. replace 4.0 with 4 by lra. replace 8.0 with 8 by lra. replace 1.0 with 1 by lra. replace 3.0 with 3 by lra.
    fold d2l. fold y. fold r. fold u. fold N. fold v. fold A.
    match goal with |- _ * (d2l * ?q * ?e + ?h) / pk = _ => generalize q e; intros q' e' end.
    assert (ID : 2 * PI ^ 2 / k ^ 3 = pk / d2l) by (unfold d2l; field; repeat split; lra). rewrite ID. clearbody d2l r u v y. field. repeat split; lra.
Qed.

Lemma rpow_div x y e : 0 < x -> 0 < y -> rpow (x / y) e = rpow x e / rpow y e.
Proof.
  intros Hx Hy. assert (0 < x / y) by (now apply Rdiv_lt_0_compat). rewrite !rpow_exp by assumption. unfold Rdiv. rewrite ln_mult, ln_Rinv by (assumption || now apply Rinv_0_lt_compat).
  rewrite <- exp_Ropp, <- exp_plus. f_equal. ring.
Qed.
Lemma rpow_add x e f : 0 < x -> rpow x (e + f) = rpow x e * rpow x f.
Proof. intros Hx. rewrite !rpow_exp by assumption. rewrite <- exp_plus. f_equal. ring. Qed.
Lemma rpow_nat x n : 0 < x -> rpow x (INR n) = x ^ n.
Proof. intros Hx. rewrite rpow_exp by assumption. change (Rpower x (INR n) = x ^ n). now apply Rpower_pow. Qed.

Lemma rpow_inv k e : 0 < k -> / rpow k e = rpow k (- e).
Proof. intros Hk. rewrite !rpow_exp by assumption. rewrite <- exp_Ropp. f_equal. ring. Qed.
(** the whole expression tends to the linear power *)
Lemma assemble_limit P knl co f1 f2 f3 ns A : (forall k, 0 < k -> 0 < P k) -> 0 < knl -> 0 < hf_a co -> 0 <= hf_b co -> 0 <= hf_mu co -> 0 < hf_nu co ->
  -3 < ns -> ns < 3 * f1 - 1 -> 0 < A -> lim0 (fun k => P k / rpow k ns) A ->
  lim0 (fun k => hf_assemble k (P k) knl co (f1, f2, f3) / P k) 1.
Proof.
  intros HP Hn Ha Hb Hmu Hnu N1 N2 HA HL. pose proof PI_RGT_0. assert (P2 : 0 < PI ^ 2) by (apply pow_lt; lra).
  assert (RP : forall k, 0 < k -> 0 < rpow k ns) by (intros k Hk; rewrite rpow_exp by assumption; apply exp_pos).
  assert (D2 : lim0 (fun k => k ^ 3 * P k / (2 * PI ^ 2)) 0).
  { apply (lim0_ext (fun k => rpow k (3 + ns) * (P k / rpow k ns) * / (2 * PI ^ 2))).
    - intros k Hk. rewrite rpow_add by assumption. replace (rpow k 3) with (k ^ 3) by (symmetry; replace 3 with (INR 3) by (simpl; lra); now apply rpow_nat).
      specialize (RP k Hk). field. split; lra.
    - replace 0 with (0 * A * / (2 * PI ^ 2)) by (field; lra). apply lim0_mult; [ apply lim0_mult; [ apply lim0_rpower; lra | exact HL ] | apply lim0_const ]. }
  assert (Y : lim0 (fun k => k / knl) 0).
  { apply (lim0_ext (fun k => / knl * k)); [ intros; unfold Rdiv; ring | apply lim0_scal ]. }
  set (G := fun k => rpow (1 + k ^ 3 * P k / (2 * PI ^ 2)) (hf_beta co) / (1 + hf_alpha co * (k ^ 3 * P k / (2 * PI ^ 2))) * exp (- (k / knl / 4 + (k / knl) ^ 2 / 8))).
  assert (HG : lim0 G 1).
  { apply (lim0_eq _ (exp (hf_beta co * ln (1 + 0)) / (1 + hf_alpha co * 0) * exp (- (0 / 4 + 0 ^ 2 / 8)))).
    { replace (1 + 0) with 1 by ring. rewrite ln_1. replace (hf_beta co * 0) with 0 by ring. replace (- (0 / 4 + 0 ^ 2 / 8)) with 0 by field. rewrite exp_0. field. }
    unfold G. apply lim0_mult.
    - apply lim0_div; [ | | lra ].
      + apply (lim0_ext (fun k => exp (hf_beta co * ln (1 + k ^ 3 * P k / (2 * PI ^ 2))))).
        * intros k Hk. specialize (HP k Hk). rewrite rpow_exp; [ reflexivity | ]. assert (0 < k ^ 3 * P k / (2 * PI ^ 2)); [ | lra ].
          apply Rdiv_lt_0_compat; [ apply Rmult_lt_0_compat; [ now apply pow_lt | exact HP ] | lra ].
        * apply (lim0_comp (fun k => hf_beta co * ln (1 + k ^ 3 * P k / (2 * PI ^ 2))) exp); [ | apply continuity_pt_filterlim, derivable_continuous_pt, derivable_pt_exp ].
          apply lim0_mult; [ apply lim0_const | ]. apply lim0_ln; [ | lra ]. apply lim0_plus; [ apply lim0_const | exact D2 ].
      + apply lim0_plus; [ apply lim0_const | ]. apply lim0_mult; [ apply lim0_const | exact D2 ].
    - apply (lim0_comp (fun k => - (k / knl / 4 + (k / knl) ^ 2 / 8)) exp); [ | apply continuity_pt_filterlim, derivable_continuous_pt, derivable_pt_exp ].
      apply (lim0_ext (fun k => -1 * (k / knl / 4 + (k / knl) ^ 2 / 8))); [ intros; ring | ]. apply (lim0_eq _ (-1 * (0 / 4 + 0 ^ 2 / 8))); [ field | ].
      apply lim0_mult; [ apply lim0_const | ]. apply lim0_plus; (apply lim0_mult; [ | apply lim0_const ]); [ exact Y | now apply (lim0_pow _ 0 2) ]. }
  (* bound of the halo term *)
  set (B := fun k => hf_a co / hf_nu co * (rpow (k / knl) (3 * f1) * (k / knl) ^ 2) / (k ^ 3 * P k / (2 * PI ^ 2))).
  assert (HB : lim0 B 0).
  { apply (lim0_ext (fun k => hf_a co / hf_nu co * (2 * PI ^ 2) / (rpow knl (3 * f1) * knl ^ 2) * (rpow k (3 * f1 - 1 - ns) * / (P k / rpow k ns)))).
    - intros k Hk. specialize (HP k Hk). specialize (RP k Hk). unfold B. rewrite rpow_div by assumption.
      assert (RK : 0 < rpow knl (3 * f1)) by (rewrite rpow_exp by assumption; apply exp_pos).
      replace (3 * f1 - 1 - ns) with (3 * f1 + - (1 + ns)) by ring. rewrite rpow_add by assumption. rewrite <- (rpow_inv k (1 + ns)) by assumption. rewrite rpow_add by assumption.
      replace (rpow k 1) with k by (rewrite rpow_exp by assumption; rewrite Rmult_1_l; symmetry; now apply exp_ln).
      field. repeat split; lra.
    - match goal with |- lim0 _ 0 => apply (lim0_eq _ (hf_a co / hf_nu co * (2 * PI ^ 2) / (rpow knl (3 * f1) * knl ^ 2) * (0 * / A))); [ ring | ] end.
      apply lim0_mult; [ apply lim0_const | ]. apply lim0_mult; [ apply lim0_rpower; lra | apply lim0_inv; [ exact HL | lra ]]. }
  apply (lim0_ext (fun k => G k + (hf_assemble k (P k) knl co (f1, f2, f3) / P k - G k))); [ intros; ring | ]. apply (lim0_eq _ (1 + 0)); [ ring | ].
  apply lim0_plus; [ exact HG | ]. apply (lim0_squeeze _ B); [ | exact HB ]. intros k Hk.
  destruct (assemble_ratio k (P k) knl co f1 f2 f3 Hk (HP k Hk) Hn Ha Hb Hmu Hnu) as (h & [H1 H2] & E). rewrite E. unfold G, B.
  match goal with |- Rabs (?u + h - ?u) <= _ => replace (u + h - u) with h by ring end. rewrite Rabs_pos_eq by exact H1. exact H2.
Qed.

Lemma rpow_le_one x e : 0 < x -> x <= 1 -> e <= 0 -> 1 <= rpow x e.
Proof.
  intros Hx H1 He. rewrite rpow_exp by assumption. assert (L : ln x <= 0).
  2:{ pose proof (exp_ineq1_le (e * ln x)). nra. }
  destruct (Req_dec x 1) as [-> | Hn]; [ rewrite ln_1; lra | ]. rewrite <- ln_1. left. apply ln_increasing; lra.
Qed.

(** on large scales the default halofit power tends to the linear power *)
Lemma linear_power_form c k a T : 0 < k -> linear_matter_power c k a T / rpow k (_n_s c) = T c k ^ 2 * (D c a ^ 2 * (_sigma8 c ^ 2 / sigmasqr_default c 8.0 T)).
Proof.
  intros Hk. unfold linear_matter_power, primordial_matter_power. assert (0 < rpow k (_n_s c)) by (rewrite rpow_exp by assumption; apply exp_pos).
  generalize dependent (rpow k (_n_s c)). intros r Hr. generalize (_sigma8 c ^ 2 / sigmasqr_default c 8.0 T). intros u. field. lra.
Qed.
Lemma halofit_large_scales c a T : 0 < Omega_m_a c a <= 1 -> -3 < _n_s c < 1 -> D c a <> 0 -> _sigma8 c <> 0 -> 0 < sigmasqr_default c 8.0 T ->
  (forall k, 0 < k -> T c k <> 0) -> filterlim (T c) (at_right 0) (locally 1) ->
  filterlim (fun k => halofit_default c k a T / linear_matter_power c k a T) (at_right 0) (locally 1) /\
  (Omega_m_a c a < 1 -> 0 <= Omega_de_a c a / (1 - Omega_m_a c a) <= 1 ->
   filterlim (fun k => match halofit c k a T "smith2003" with Ok p => p | Err _ => 0 end / linear_matter_power c k a T) (at_right 0) (locally 1)).
Proof.
  intros Hom Hns HD Hs HS HT HL. set (M := D c a ^ 2 * (_sigma8 c ^ 2 / sigmasqr_default c 8.0 T)).
  assert (HM : 0 < M).
  { unfold M. apply Rmult_lt_0_compat; [ rewrite <- Rsqr_pow2; now apply Rsqr_pos_lt | ]. apply Rdiv_lt_0_compat; [ rewrite <- Rsqr_pow2; now apply Rsqr_pos_lt | exact HS ]. }
  assert (HP : forall k, 0 < k -> 0 < linear_matter_power c k a T).
  { intros k Hk. assert (0 < rpow k (_n_s c)) by (rewrite rpow_exp by assumption; apply exp_pos). pose proof (linear_power_form c k a T Hk) as E. fold M in E.
    assert (0 < linear_matter_power c k a T / rpow k (_n_s c)). { rewrite E. apply Rmult_lt_0_compat; [ rewrite <- Rsqr_pow2; now apply Rsqr_pos_lt, HT | exact HM ]. }
    apply (Rmult_lt_compat_r (rpow k (_n_s c))) in H0; [ | assumption ]. rewrite Rmult_0_l in H0. unfold Rdiv in H0. rewrite Rmult_assoc, Rinv_l, Rmult_1_r in H0 by lra. exact H0. }
  assert (LP : lim0 (fun k => linear_matter_power c k a T / rpow k (_n_s c)) M).
  { apply (lim0_ext (fun k => T c k ^ 2 * M)); [ intros k Hk; symmetry; now apply linear_power_form | ]. apply (lim0_eq _ (1 ^ 2 * M)); [ ring | ].
    apply lim0_mult; [ now apply (lim0_pow _ 1 2) | apply lim0_const ]. }
  unfold halofit_default, halofit. destruct (halofit_parameters c a T) as [[knl n] C] eqn:E.
  assert (K : 0 < knl) by (unfold halofit_parameters in E; injection E as <- _ _; apply k_nl_pos). split.
  - pose proof (rpow_le_one (Omega_m_a c a) (-0.0307) (proj1 Hom) (proj2 Hom) ltac:(lra)) as F1.
    apply (assemble_limit (fun k => linear_matter_power c k a T) knl _ _ _ _ (_n_s c) M); try assumption; unfold hf_takahashi; simpl; try apply pow10_gt0; try (left; apply pow10_gt0); lra.
  - intros H1 Hf. replace 1.0 with 1 by lra. set (fr := Omega_de_a c a / (1 - Omega_m_a c a)) in *.
    pose proof (rpow_le_one (Omega_m_a c a) (-0.0307) (proj1 Hom) (proj2 Hom) ltac:(lra)) as F1.
    pose proof (rpow_le_one (Omega_m_a c a) (-0.0732) (proj1 Hom) (proj2 Hom) ltac:(lra)) as F2.
    apply (assemble_limit (fun k => linear_matter_power c k a T) knl _ _ _ _ (_n_s c) M); try assumption; unfold hf_smith, hf_a, hf_b, hf_mu, hf_nu; try apply pow10_gt0; try (left; apply pow10_gt0); try lra. nra.
Qed.
