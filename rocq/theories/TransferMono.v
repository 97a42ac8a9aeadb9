(** * The no-wiggle transfer function decreases, and falls as ln k / k^2 on small scales *)
From Coquelicot Require Import Coquelicot.
From Verif Require Import Np NpLemmas Core Background BgSpec BgPositive Transfer BgGrowth TransferProofs Power PowerProofs PowerFinal ExPower.
Opaque chi_table growth_table_ODE growth_table_gamma logspace.

Lemma ln_le_sub1 x : 0 < x -> ln x <= x - 1.
Proof. intros H. pose proof (exp_ineq1_le (ln x)) as E. rewrite exp_ln in E by exact H. lra. Qed.

Definition ehL (q : R) : R := ln (2.0 * exp 1.0 + 1.8 * q).
Definition ehC (q : R) : R := 14.2 + 731.0 / (1.0 + 62.5 * q).
Definition ehq (c : cosmology) (k : R) : R := k * (const_tcmb / 2.7) ^ 2 / eh_gamma_eff c k.

Lemma e_pos : 2 < exp 1.0.
Proof. pose proof (exp_ineq1 1.0 ltac:(lra)). lra. Qed.
Lemma ehL_ge q : 0 <= q -> 1 <= ehL q.
Proof.
  intros H. unfold ehL. rewrite <- (ln_exp 1). pose proof e_pos as E. replace 1.0 with 1 in * by lra.
  left. apply ln_increasing; [ apply exp_pos | ]. lra.
Qed.
Lemma ehL_slow p q : 0 <= p < q -> p * ehL q < q * ehL p.
Proof.
  intros [Hp Hq]. pose proof e_pos as E. set (A := 2.0 * exp 1.0 + 1.8 * p). set (B := 2.0 * exp 1.0 + 1.8 * q).
  assert (HA : 0 < A) by (unfold A; lra). assert (HB : 0 < B) by (unfold B; lra).
  assert (H : ehL q - ehL p <= B / A - 1).
  { change (ln B - ln A <= B / A - 1). replace (ln B - ln A) with (ln (B / A)); [ apply ln_le_sub1; now apply Rdiv_lt_0_compat | ].
    unfold Rdiv. rewrite ln_mult, ln_Rinv; [ ring | exact HA | exact HB | now apply Rinv_0_lt_compat ]. }
  assert (K : p * (B / A - 1) < q - p).
  { replace (B / A - 1) with (1.8 * (q - p) / A) by (unfold A, B in *; field; lra).
    apply Rmult_lt_reg_r with A; [ exact HA | ]. replace (p * (1.8 * (q - p) / A) * A) with (p * (1.8 * (q - p))) by (field; lra). unfold A. nra. }
  pose proof (ehL_ge p Hp). nra.
Qed.
Lemma ehC_pos q : 0 <= q -> 0 < ehC q.
Proof. intros H. unfold ehC. assert (0 < 731.0 / (1.0 + 62.5 * q)) by (apply Rdiv_lt_0_compat; lra). lra. Qed.
Lemma ehC_q p q : 0 <= p < q -> ehC p * p < ehC q * q.
Proof.
  intros [Hp Hq]. unfold ehC.
  assert (731.0 / (1.0 + 62.5 * p) * p <= 731.0 / (1.0 + 62.5 * q) * q).
  { apply Rmult_le_reg_r with ((1.0 + 62.5 * p) * (1.0 + 62.5 * q)); [ apply Rmult_lt_0_compat; lra | ].
    replace (731.0 / (1.0 + 62.5 * p) * p * ((1.0 + 62.5 * p) * (1.0 + 62.5 * q))) with (731.0 * p * (1.0 + 62.5 * q)) by (field; lra).
    replace (731.0 / (1.0 + 62.5 * q) * q * ((1.0 + 62.5 * p) * (1.0 + 62.5 * q))) with (731.0 * q * (1.0 + 62.5 * p)) by (field; lra). nra. }
  lra.
Qed.
Lemma ratio_decreasing p q : 0 <= p < q -> ehL q / (ehL q + ehC q * q * q) < ehL p / (ehL p + ehC p * p * p).
Proof.
  intros H. pose proof (ehL_ge p ltac:(lra)) as LP. pose proof (ehL_ge q ltac:(lra)) as LQ. pose proof (ehL_slow p q H) as S. pose proof (ehC_q p q H) as C.
  pose proof (ehC_pos p ltac:(lra)) as CP. pose proof (ehC_pos q ltac:(lra)) as CQ.
  set (l := ehL p) in *. set (l' := ehL q) in *. set (x := ehC p * p) in *. set (y := ehC q * q) in *.
  assert (0 <= x) by (unfold x; nra). assert (0 < y) by (unfold y; nra).
  apply Rmult_lt_reg_r with ((l + x * p) * (l' + y * q)); [ apply Rmult_lt_0_compat; nra | ].
  replace (l' / (l' + y * q) * ((l + x * p) * (l' + y * q))) with (l' * (l + x * p)) by (field; nra).
  replace (l / (l + x * p) * ((l + x * p) * (l' + y * q))) with (l * (l' + y * q)) by (field; nra).
  assert (x * (p * l') < y * (q * l)); [ | nra ]. apply Rle_lt_trans with (x * (q * l)); [ apply Rmult_le_compat_l; lra | ]. apply Rmult_lt_compat_r; [ nra | exact C ].
Qed.

(** ** the effective shape parameter *)
Lemma gamma_form c k : eh_gamma_eff c k = Omega_m c * _h c * (eh_alpha_gamma c + (1 - eh_alpha_gamma c) * / (1 + (0.43 * k * eh_sh_d c) ^ 4)).
Proof. unfold eh_gamma_eff. replace 1.0 with 1 by lra. reflexivity. Qed.
Lemma pow4_nonneg x : 0 <= x ^ 4.
Proof. replace 4%nat with (2 * 2)%nat by reflexivity. rewrite pow_mult. apply pow2_ge_0. Qed.
Lemma gamma_decreasing c k k' : dense c -> eh_alpha_gamma c <= 1 -> 0 <= k <= k' -> eh_gamma_eff c k' <= eh_gamma_eff c k.
Proof.
  intros H Ha Hk. destruct (dense_pos c H) as (M & _). pose proof (sh_d_pos c H) as S. rewrite !gamma_form.
  apply Rmult_le_compat_l; [ left; apply Rmult_lt_0_compat; [ exact M | apply H ] | ]. apply Rplus_le_compat_l. apply Rmult_le_compat_l; [ lra | ].
  apply Rinv_le_contravar; [ pose proof (pow4_nonneg (0.43 * k * eh_sh_d c)); lra | ]. apply Rplus_le_compat_l. apply pow_incr.
  split; [ apply Rmult_le_pos; lra | apply Rmult_le_compat_r; lra ].
Qed.
Lemma gamma_bounds c k : dense c -> eh_alpha_gamma c <= 1 -> Omega_m c * _h c * eh_alpha_gamma c <= eh_gamma_eff c k <= Omega_m c * _h c.
Proof.
  intros H Ha. destruct (dense_pos c H) as (M & _). rewrite gamma_form. pose proof (pow4_nonneg (0.43 * k * eh_sh_d c)) as P.
  assert (G : 0 < Omega_m c * _h c) by (apply Rmult_lt_0_compat; [ exact M | apply H ]).
  assert (I : 0 < / (1 + (0.43 * k * eh_sh_d c) ^ 4) <= 1) by (split; [ apply Rinv_0_lt_compat; lra | rewrite <- Rinv_1; apply Rinv_le_contravar; lra ]).
  set (i := / (1 + (0.43 * k * eh_sh_d c) ^ 4)) in *. set (al := eh_alpha_gamma c) in *.
  split; [ apply Rmult_le_compat_l; nra | ]. rewrite <- (Rmult_1_r (Omega_m c * _h c)) at 2. apply Rmult_le_compat_l; nra.
Qed.
Lemma ehq_increasing c k k' : dense c -> 0 <= eh_alpha_gamma c <= 1 -> 0 <= k < k' -> 0 <= ehq c k < ehq c k'.
Proof.
  intros H Ha Hk. pose proof (gamma_eff_pos c k H ltac:(lra) ltac:(lra)) as G. pose proof (gamma_eff_pos c k' H ltac:(lra) ltac:(lra)) as G'.
  pose proof (gamma_decreasing c k k' H ltac:(lra) ltac:(lra)) as D. pose proof T27_pos as T. unfold eh_T27sqr in T. unfold ehq.
  split; [ apply Rmult_le_pos; [ nra | left; now apply Rinv_0_lt_compat ] | ].
  apply Rlt_le_trans with (k' * (const_tcmb / 2.7) ^ 2 / eh_gamma_eff c k).
  - apply Rmult_lt_compat_r; [ now apply Rinv_0_lt_compat | ]. apply Rmult_lt_compat_r; lra.
  - apply Rmult_le_compat_l; [ nra | now apply Rinv_le_contravar ].
Qed.
Lemma eisenhu_form c k : eisenhu c k = ehL (ehq c k) / (ehL (ehq c k) + ehC (ehq c k) * ehq c k * ehq c k).
Proof. reflexivity. Qed.
Lemma eisenhu_decreasing c k k' : dense c -> 0 <= eh_alpha_gamma c <= 1 -> 0 <= k < k' -> eisenhu c k' < eisenhu c k.
Proof. intros H Ha Hk. rewrite !eisenhu_form. apply ratio_decreasing. now apply ehq_increasing. Qed.

(** ** small scales *)
Lemma is_lim_inv_pinf : is_lim (fun k => / k) p_infty 0.
Proof. apply (is_lim_inv (fun k => k) p_infty p_infty); [ apply is_lim_id | discriminate ]. Qed.
Lemma is_lim_big (f g : R -> R) l : (forall k, 1 < k -> f k = g k) -> is_lim f p_infty l -> is_lim g p_infty l.
Proof. intros H. apply is_lim_ext_loc. exists 1. exact H. Qed.
Lemma gamma_lim c : dense c -> is_lim (eh_gamma_eff c) p_infty (Omega_m c * _h c * eh_alpha_gamma c).
Proof.
  intros H. pose proof (sh_d_pos c H) as S. set (al := eh_alpha_gamma c).
  replace (Omega_m c * _h c * al) with (Omega_m c * _h c * (al + (1 - al) * 0)) by ring.
  apply (is_lim_ext (fun k => Omega_m c * _h c * (al + (1 - al) * / (1 + (0.43 * k * eh_sh_d c) ^ 4)))); [ intros; symmetry; apply gamma_form | ].
  apply (is_lim_scal_l _ (Omega_m c * _h c) p_infty (al + (1 - al) * 0)).
  apply is_lim_plus'; [ apply is_lim_const | ]. apply (is_lim_scal_l _ (1 - al) p_infty 0).
  set (b := 0.43 * eh_sh_d c). assert (B : 0 < b) by (unfold b; lra).
  apply (is_lim_le_le_loc (fun _ => 0) (fun k => / b * / k)).
  - exists (/ b + 1). intros k Hk. pose proof (Rinv_0_lt_compat b B) as IB. assert (K : 1 < b * k).
    { replace 1 with (b * / b) by (field; lra). apply Rmult_lt_compat_l; lra. }
    replace (0.43 * k * eh_sh_d c) with (b * k) by (unfold b; ring). assert (P : 1 <= (b * k) ^ 3) by (apply pow_R1_Rle; lra).
    assert (Q : b * k <= 1 + (b * k) ^ 4) by (change ((b * k) ^ 4) with ((b * k) * (b * k) ^ 3); nra).
    split; [ left; apply Rinv_0_lt_compat; lra | ]. rewrite <- Rinv_mult by lra. apply Rinv_le_contravar; lra.
  - apply is_lim_const.
  - replace 0 with (/ b * 0) by ring. apply (is_lim_scal_l _ (/ b) p_infty 0). apply is_lim_inv_pinf.
Qed.
Lemma small_scales c : dense c -> 0 < eh_alpha_gamma c <= 1 ->
  is_lim (fun k => eisenhu c k * (k ^ 2 / ln k)) p_infty ((Omega_m c * _h c * eh_alpha_gamma c / (const_tcmb / 2.7) ^ 2) ^ 2 / 14.2).
Proof.
  intros H Ha. destruct (dense_pos c H) as (M & _). assert (G : 0 < Omega_m c * _h c * eh_alpha_gamma c) by (apply Rmult_lt_0_compat; [ apply Rmult_lt_0_compat; [ exact M | apply H ] | lra ]).
  pose proof T27_pos as T. unfold eh_T27sqr in T. set (t := (const_tcmb / 2.7) ^ 2) in *. set (g := Omega_m c * _h c * eh_alpha_gamma c) in *.
  set (q := ehq c). set (r := fun k => t / eh_gamma_eff c k).
  assert (Hr : is_lim r p_infty (t / g)) by (apply (is_lim_div (fun _ => t) (eh_gamma_eff c) p_infty t g); [ apply is_lim_const | now apply gamma_lim | intros E; injection E; lra | simpl; auto ]).
  assert (Er : forall k, q k = k * r k) by (intros k; unfold q, ehq, r; fold t; unfold Rdiv; ring).
  assert (K0 : 0 < t / g) by (now apply Rdiv_lt_0_compat).
  set (u := fun k => ln (2.0 * exp 1.0 * / k + 1.8 * r k)).
  assert (Hu : is_lim u p_infty (ln (1.8 * (t / g)))).
  { unfold u. apply (filterlim_comp _ _ _ (fun k => 2.0 * exp 1.0 * / k + 1.8 * r k) ln (Rbar_locally' p_infty) (locally (1.8 * (t / g))) (locally (ln (1.8 * (t / g))))).
    - change (is_lim (fun k => 2.0 * exp 1.0 * / k + 1.8 * r k) p_infty (1.8 * (t / g))). replace (1.8 * (t / g)) with (2.0 * exp 1.0 * 0 + 1.8 * (t / g)) by ring. apply is_lim_plus'.
      + apply (is_lim_scal_l _ (2.0 * exp 1.0) p_infty 0). apply is_lim_inv_pinf.
      + apply (is_lim_scal_l _ 1.8 p_infty (t / g)). exact Hr.
    - apply (ex_derive_continuous ln). exists (/ (1.8 * (t / g))). apply is_derive_Reals, derivable_pt_lim_ln. lra. }
  assert (EL : forall k, 1 < k -> ehL (q k) = ln k + u k).
  { intros k Hk. pose proof (gamma_eff_pos c k H ltac:(lra) ltac:(lra)) as Gk. pose proof e_pos. unfold ehL, u. rewrite <- ln_mult; [ | lra | ].
    - f_equal. rewrite Er. field. lra.
    - assert (0 < / k) by (apply Rinv_0_lt_compat; lra). assert (0 < r k) by (now apply Rdiv_lt_0_compat). nra. }
  assert (Hln : is_lim (fun k => / ln k) p_infty 0) by (apply (is_lim_inv ln p_infty p_infty); [ apply is_lim_ln_p | discriminate ]).
  assert (HL : is_lim (fun k => 1 + u k * / ln k) p_infty (1 + ln (1.8 * (t / g)) * 0)).
  { apply is_lim_plus'; [ apply is_lim_const | ]. apply (is_lim_mult u (fun k => / ln k) p_infty (ln (1.8 * (t / g))) 0); [ exact Hu | exact Hln | exact I ]. }
  assert (HLk : is_lim (fun k => (1 + u k * / ln k) * ((ln k / k) * / k)) p_infty ((1 + ln (1.8 * (t / g)) * 0) * (0 * 0))).
  { apply (is_lim_mult (fun k => 1 + u k * / ln k) (fun k => ln k / k * / k) p_infty (1 + ln (1.8 * (t / g)) * 0) (0 * 0)); [ exact HL | | exact I ].
    apply (is_lim_mult (fun k => ln k / k) (fun k => / k) p_infty 0 0); [ apply is_lim_div_ln_p | apply is_lim_inv_pinf | exact I ]. }
  set (v := fun k => 731.0 * (/ k * / (/ k + 62.5 * r k))).
  assert (Hv : is_lim v p_infty 0).
  { replace 0 with (731.0 * (0 * / (0 + 62.5 * (t / g)))) by ring. apply (is_lim_scal_l _ 731.0 p_infty (0 * / (0 + 62.5 * (t / g)))).
    apply (is_lim_mult (fun k => / k) (fun k => / (/ k + 62.5 * r k)) p_infty 0 (/ (0 + 62.5 * (t / g)))); [ apply is_lim_inv_pinf | | exact I ].
    apply (is_lim_inv _ p_infty (0 + 62.5 * (t / g))); [ | intros E; injection E; lra ].
    apply is_lim_plus'; [ apply is_lim_inv_pinf | ]. apply (is_lim_scal_l _ 62.5 p_infty (t / g)). exact Hr. }
  assert (HD : is_lim (fun k => (1 + u k * / ln k) * ((ln k / k) * / k) + (14.2 + v k) * (r k * r k)) p_infty
     ((1 + ln (1.8 * (t / g)) * 0) * (0 * 0) + (14.2 + 0) * (t / g * (t / g)))).
  { apply is_lim_plus'; [ exact HLk | ].
    apply (is_lim_mult (fun k => 14.2 + v k) (fun k => r k * r k) p_infty (14.2 + 0) (t / g * (t / g))); [ | | exact I ].
    - apply is_lim_plus'; [ apply is_lim_const | exact Hv ].
    - apply (is_lim_mult r r p_infty (t / g) (t / g)); [ exact Hr | exact Hr | exact I ]. }
  assert (ND : (1 + ln (1.8 * (t / g)) * 0) * (0 * 0) + (14.2 + 0) * (t / g * (t / g)) <> 0) by (apply Rgt_not_eq; nra).
  replace ((g / t) ^ 2 / 14.2) with ((1 + ln (1.8 * (t / g)) * 0) / ((1 + ln (1.8 * (t / g)) * 0) * (0 * 0) + (14.2 + 0) * (t / g * (t / g)))).
  2:{ rewrite !Rmult_0_r, !Rplus_0_r, Rplus_0_l. field. lra. }
  apply (is_lim_big (fun k => (1 + u k * / ln k) / ((1 + u k * / ln k) * ((ln k / k) * / k) + (14.2 + v k) * (r k * r k)))).
  - intros k Hk. assert (LK : 0 < ln k) by (rewrite <- ln_1; apply ln_increasing; lra).
    pose proof (gamma_eff_pos c k H ltac:(lra) ltac:(lra)) as Gk. assert (RK : 0 < r k) by (now apply Rdiv_lt_0_compat).
    assert (QK : 0 <= q k) by (rewrite Er; nra). pose proof (ehL_ge (q k) QK) as L1. pose proof (ehC_pos (q k) QK) as C1.
    rewrite eisenhu_form. fold q. 
    assert (EC : ehC (q k) = 14.2 + v k).
    { unfold ehC, v. rewrite Er. replace 1.0 with 1 by lra. f_equal. field. split; nra. }
    rewrite EC in *. rewrite (EL k Hk) in *. rewrite Er. set (w := u k) in *. set (x := 14.2 + v k) in *. set (y := ln k) in *. set (z := r k) in *.
    assert (KZ : 0 < k * z) by (apply Rmult_lt_0_compat; lra). assert (XZ : 0 < x * (k * z)) by (apply Rmult_lt_0_compat; [ exact C1 | exact KZ ]). assert (0 < x * (k * z) * (k * z)) by (apply Rmult_lt_0_compat; assumption).
    field. split; [ lra | split; [ | lra ]]. nra.
  - apply (is_lim_div _ _ p_infty (1 + ln (1.8 * (t / g)) * 0) ((1 + ln (1.8 * (t / g)) * 0) * (0 * 0) + (14.2 + 0) * (t / g * (t / g)))); [ exact HL | exact HD | intros E; injection E; exact ND | exact I ].
Qed.

(** ** range of the baryon correction, and the statements for the API *)
Lemma alpha_gamma_le1 : forall c, dense c -> 1 <= 22.3 * (Omega_m c * _h c ^ 2) -> Omega_m c * _h c ^ 2 <= 0.37 -> 2 * Omega_b c <= Omega_m c ->
  0 < eh_alpha_gamma c <= 1.
Proof.
  intros c H H1 H2 H3. destruct (dense_pos c H) as (M & WM & WB & _). unfold eh_alpha_gamma.
  replace (0.328 * ln (431.0 * eh_w_m c) * eh_w_b c / eh_w_m c) with (0.328 * ln (431.0 * eh_w_m c) * (Omega_b c / Omega_m c)).
  2: { unfold eh_w_b, eh_w_m. destruct H as (_ & _ & Hh). field. split; lra. }
  fold (eh_w_m c) in H1, H2.
  assert (FB : 0 < Omega_b c / Omega_m c <= 1 / 2).
  { split; [ apply Rdiv_lt_0_compat; [ apply H | exact M ] | ]. apply Rmult_le_reg_r with (Omega_m c); [ exact M | ]. unfold Rdiv at 1. rewrite Rmult_assoc, Rinv_l; lra. }
  set (fb := Omega_b c / Omega_m c) in *.
  assert (LE : forall x y, 0 < x <= y -> ln x <= ln y) by (intros x y [A [B | ->]]; [ left; now apply ln_increasing | lra ]).
  assert (L2 : 0 <= ln (22.3 * eh_w_m c)) by (rewrite <- ln_1; apply LE; lra).
  assert (L3 : ln (22.3 * eh_w_m c) <= ln (431.0 / 22.3)) by (apply LE; lra).
  assert (E : ln (431.0 * eh_w_m c) = ln (22.3 * eh_w_m c) + ln (431.0 / 22.3)) by (rewrite <- ln_mult by lra; f_equal; lra).
  assert (L6 : ln (431.0 * eh_w_m c) <= 6) by (apply ln_le_6; lra). rewrite E in L6 |- *.
  set (x := ln (22.3 * eh_w_m c)) in *. set (y := ln (431.0 / 22.3)) in *.
  split.
  - assert (0 <= fb ^ 2) by apply pow2_ge_0. assert (0.328 * (x + y) * fb <= 0.328 * 6 * (1 / 2)) by (apply Rmult_le_compat; lra).
    assert (0 <= 0.38 * x * fb ^ 2) by (apply Rmult_le_pos; lra). lra.
  - assert (0.38 * x * fb ^ 2 <= 0.328 * (x + y) * fb); [ | lra ]. replace (0.38 * x * fb ^ 2) with ((0.38 * x * fb) * fb) by ring.
    apply Rmult_le_compat_r; [ lra | ]. assert (0.38 * x * fb <= 0.38 * x * 1) by (apply Rmult_le_compat_l; lra). lra.
Qed.
Lemma no_wiggle_decreasing : forall c k k', dense c -> 0 <= eh_alpha_gamma c <= 1 -> 0 <= k < k' ->
  exists t t', Eisenstein_Hu c k "eisenhu" = Ok t /\ Eisenstein_Hu c k' "eisenhu" = Ok t' /\ 0 < t' < t /\ t <= 1.
Proof.
  intros c k k' H Ha Hk. exists (eisenhu c k), (eisenhu c k'). split; [ reflexivity | split; [ reflexivity | ]].
  pose proof (eisenhu_range c k H ltac:(lra) ltac:(lra)). pose proof (eisenhu_range c k' H ltac:(lra) ltac:(lra)).
  pose proof (eisenhu_decreasing c k k' H Ha Hk). lra.
Qed.
Lemma no_wiggle_small_scales : forall c, dense c -> 0 < eh_alpha_gamma c <= 1 ->
  is_lim (fun k => match Eisenstein_Hu c k "eisenhu" with Ok t => t | Err _ => 0 end * (k ^ 2 / ln k)) p_infty
    ((Omega_m c * _h c * eh_alpha_gamma c / (const_tcmb / 2.7) ^ 2) ^ 2 / 14.2).
Proof. exact small_scales. Qed.
Lemma power_below_tilt : forall c k k' a, reachable c -> _gamma_growth c = true \/ physical c /\ moderate c -> dense c -> 0 <= eh_alpha_gamma c <= 1 ->
  _sigma8 c <> 0 -> 0 < k < k' -> 0 < D c a ->
  linear_matter_power c k' a eisenhu / linear_matter_power c k a eisenhu < Rpower (k' / k) (_n_s c).
Proof.
  intros c k k' a HR HC HD Ha H8 Hk HDa.
  assert (S : 0 < sigmasqr_default c 8.0 eisenhu).
  { apply sigma8_positive. pose proof (eisenhu_range c (exp (-4)) HD ltac:(lra) ltac:(left; apply exp_pos)). lra. }
  pose proof (no_wiggle_power c k a HR HC HD ltac:(lra) H8 ltac:(lra) HDa) as P. pose proof (linear_tilt c eisenhu k k' a ltac:(lra) ltac:(lra) ltac:(lra)) as E.
  pose proof (eisenhu_decreasing c k k' HD Ha ltac:(lra)) as Dc. pose proof (eisenhu_range c k HD ltac:(lra) ltac:(lra)) as [T1 _]. pose proof (eisenhu_range c k' HD ltac:(lra) ltac:(lra)) as [T2 _].
  assert (Q : Rpower k' (_n_s c) = Rpower (k' / k) (_n_s c) * Rpower k (_n_s c)).
  { rewrite Rpower_mult_distr by (try apply Rdiv_lt_0_compat; lra). f_equal. field. lra. }
  rewrite Q in E. pose proof (exp_pos (_n_s c * ln k)) as X. pose proof (exp_pos (_n_s c * ln (k' / k))) as Y.
  change (exp (_n_s c * ln k)) with (Rpower k (_n_s c)) in X. change (exp (_n_s c * ln (k' / k))) with (Rpower (k' / k) (_n_s c)) in Y.
  set (p := linear_matter_power c k a eisenhu) in *. set (p' := linear_matter_power c k' a eisenhu) in *. set (x := Rpower k (_n_s c)) in *. set (y := Rpower (k' / k) (_n_s c)) in *.
  assert (E' : p' = p * y * (eisenhu c k' / eisenhu c k) ^ 2).
  { apply Rmult_eq_reg_r with (x * eisenhu c k ^ 2); [ rewrite <- E; field; lra | ]. apply Rgt_not_eq. apply Rmult_lt_0_compat; [ exact X | now apply pow_lt ]. }
  rewrite E'. replace (p * y * (eisenhu c k' / eisenhu c k) ^ 2 / p) with (y * (eisenhu c k' / eisenhu c k) ^ 2) by (field; lra).
  rewrite <- (Rmult_1_r y) at 2. apply Rmult_lt_compat_l; [ exact Y | ].
  assert (0 < eisenhu c k' / eisenhu c k < 1).
  { split; [ now apply Rdiv_lt_0_compat | ]. apply Rmult_lt_reg_r with (eisenhu c k); [ exact T1 | ]. unfold Rdiv. rewrite Rmult_assoc, Rinv_l; lra. }
  simpl. nra.
Qed.
Lemma ex_no_wiggle : dense Planck15 /\ 0 < eh_alpha_gamma Planck15 <= 1 /\ reachable Planck15 /\ physical Planck15 /\ moderate Planck15 /\ _sigma8 Planck15 <> 0 /\ D Planck15 1 = 1.
Proof.
  destruct planck_dense as (P1 & P2 & P3 & P4). split; [ exact P1 | ]. split; [ now apply alpha_gamma_le1 | ].
  destruct ex_power_planck as (R1 & R2 & R3 & _). split; [ exact R1 | split; [ exact R2 | split; [ exact R3 | ]]].
  split; [ unfold Planck15, make_cosmology; simpl; lra | ]. apply growth_one; [ exact R1 | right; split; assumption ].
Qed.
