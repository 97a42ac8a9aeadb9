(** * halofit: the parameters are logarithmic derivatives of the smoothed variance; the formula is the published fit *)
From Coquelicot Require Import Coquelicot.
From Verif Require Import Np NpLemmas Core IntegrateSpec SimpsProofs Interp Background BgSpec BgPositive BgGrowth Transfer TransferProofs Power PowerProofs PowerFinal PowerArrProofs RombProofs HfSpec ExPower BgFinal4.
Opaque chi_table growth_table_ODE growth_table_gamma logspace hf_sigma.

Lemma is_derive_simpson (f : R -> R -> R) (f' : R -> R) a b N u :
  (forall x, is_derive (fun u => f u x) u (f' x)) -> is_derive (fun u => simpson (f u) a b N) u (simpson f' a b N).
Proof.
  intros H. unfold simpson. apply (is_derive_scal (fun u => Rsum (N / 2) _)).
  apply (is_derive_Rsum (N / 2) (fun i u => f u (node a b N (2 * i)) + 4 * f u (node a b N (2 * i + 1)) + f u (node a b N (2 * i + 2)))).
  intros i _. apply (is_derive_plus (V := R_NormedModule) (fun u => f u (node a b N (2 * i)) + 4 * f u (node a b N (2 * i + 1)))); [ | apply H ].
  apply (is_derive_plus (V := R_NormedModule) (fun u => f u (node a b N (2 * i)))); [ apply H | ]. apply (is_derive_scal (fun u => f u _)). apply H.
Qed.

Lemma k_nl_pos c a T : 0 < k_nl c a T.
Proof.
  unfold k_nl. apply Rdiv_lt_0_compat; [ lra | ]. unfold R_nl, clip_lo. apply Rlt_le_trans with 1e-6; [ lra | apply Rmax_r ].
Qed.
Lemma growth1_dneff c a T : D c 1 = 1 -> forall lk,
  hf_dneff c a T lk = 2 * (exp lk * / k_nl c a T) ^ 2 * (dimensionless_power c (exp lk) a T * exp (- (exp lk * / k_nl c a T) ^ 2)).
Proof.
  intros H1 lk. unfold hf_dneff, hf_res, dimensionless_power. replace 1.0 with 1 by lra. replace (1 / k_nl c a T) with (/ k_nl c a T) by (unfold Rdiv; ring).
  rewrite (linear_growth c _ a T H1). set (y := exp lk * / k_nl c a T). replace (- (y ^ 2)) with (- y ^ 2) by ring. unfold Rdiv. replace 2.0 with 2 by lra. ring.
Qed.
Lemma growth1_dC c a T : D c 1 = 1 -> forall lk,
  hf_dC c a T lk = 4 * ((exp lk * / k_nl c a T) ^ 2 - (exp lk * / k_nl c a T) ^ 4) * (dimensionless_power c (exp lk) a T * exp (- (exp lk * / k_nl c a T) ^ 2)).
Proof.
  intros H1 lk. unfold hf_dC, hf_res, dimensionless_power. replace 1.0 with 1 by lra. replace (1 / k_nl c a T) with (/ k_nl c a T) by (unfold Rdiv; ring).
  rewrite (linear_growth c _ a T H1). set (y := exp lk * / k_nl c a T). replace (- (y ^ 2)) with (- y ^ 2) by ring. unfold Rdiv. replace 2.0 with 2 by lra. ring.
Qed.

(** first and second derivative of the smoothed variance in ln r *)
Definition var1 (c : cosmology) (a : R) (T : transfer) (u : R) : R :=
  simpson (fun lk => -2 * (exp lk * exp u) ^ 2 * (dimensionless_power c (exp lk) a T * exp (- (exp lk * exp u) ^ 2))) (ln 1e-4) (ln 1e4) 256.
Definition var2 (c : cosmology) (a : R) (T : transfer) (u : R) : R :=
  simpson (fun lk => -4 * ((exp lk * exp u) ^ 2 - (exp lk * exp u) ^ 4) * (dimensionless_power c (exp lk) a T * exp (- (exp lk * exp u) ^ 2))) (ln 1e-4) (ln 1e4) 256.
Lemma var_derive c a T u : is_derive (fun u => smoothed_variance c a T (exp u)) u (var1 c a T u).
Proof.
  unfold smoothed_variance, var1.
  apply (is_derive_simpson (fun u lk => dimensionless_power c (exp lk) a T * exp (- (exp lk * exp u) ^ 2))). intros lk.
  set (P := dimensionless_power c (exp lk) a T). set (e := exp lk). auto_derive; [ exact I | ]. simpl. ring.
Qed.
Lemma var1_derive c a T u : is_derive (var1 c a T) u (var2 c a T u).
Proof.
  unfold var1, var2.
  apply (is_derive_simpson (fun u lk => -2 * (exp lk * exp u) ^ 2 * (dimensionless_power c (exp lk) a T * exp (- (exp lk * exp u) ^ 2)))). intros lk.
  set (P := dimensionless_power c (exp lk) a T). set (e := exp lk). auto_derive; [ exact I | ]. simpl. ring.
Qed.

Lemma even256 : Nat.even 256 = true /\ (2 <= 256)%nat.
Proof. split; [ reflexivity | lia ]. Qed.
Lemma parameters_are_derivatives : forall c a T, reachable c -> _gamma_growth c = true \/ physical c /\ moderate c ->
  let '(knl, n, C) := halofit_parameters c a T in
  let S := fun u => smoothed_variance c a T (exp u) in
  0 < knl /\
  exists S', (forall u, is_derive S u (S' u)) /\ n = -3 - S' (ln (/ knl)) /\ is_derive S' (ln (/ knl)) (S' (ln (/ knl)) ^ 2 - C) /\
    (S (ln (/ knl)) = 1 -> is_derive (fun u => ln (S u)) (ln (/ knl)) (- (n + 3)) /\
       is_derive (fun u => S' u / S u) (ln (/ knl)) (- C)).
Proof.
  intros c a T HR HC. pose proof (growth_one c HR HC) as H1. unfold halofit_parameters. pose proof (k_nl_pos c a T) as HK. set (knl := k_nl c a T) in *.
  cbv zeta. split; [ exact HK | ]. exists (var1 c a T). split; [ intros; apply var_derive | ].
  assert (EU : exp (ln (/ knl)) = / knl) by (apply exp_ln, Rinv_0_lt_compat; exact HK).
  assert (E0 : simps_value (hf_dneff c a T) (ln 1e-4) (ln 1e4) 256 = - var1 c a T (ln (/ knl))).
  { rewrite (simps_val _ _ _ _ (proj1 even256) (proj2 even256)). unfold var1.
    match goal with |- _ = - ?x => replace (- x) with (-1 * x) by ring end. rewrite <- simpson_scal.
    apply simpson_ext. intros i _. rewrite (growth1_dneff c a T H1). fold knl. rewrite EU. ring. }
  assert (E1 : simps_value (hf_dC c a T) (ln 1e-4) (ln 1e4) 256 = - var2 c a T (ln (/ knl))).
  { rewrite (simps_val _ _ _ _ (proj1 even256) (proj2 even256)). unfold var2.
    match goal with |- _ = - ?x => replace (- x) with (-1 * x) by ring end. rewrite <- simpson_scal.
    apply simpson_ext. intros i _. rewrite (growth1_dC c a T H1). fold knl. rewrite EU. ring. }
  rewrite E0, E1. set (u := ln (/ knl)) in *. replace 3.0 with 3 by lra. split; [ ring | ].
  assert (D2 : var1 c a T u ^ 2 - ((- var1 c a T u) ^ 2 + - var2 c a T u) = var2 c a T u) by ring.
  split; [ rewrite D2; apply var1_derive | ]. intros S1. pose proof (var_derive c a T u) as DV. pose proof (var1_derive c a T u) as DV1.
  set (S := fun u => smoothed_variance c a T (exp u)) in *. assert (S2 : S u = 1) by exact S1. split.
  - replace (- (- var1 c a T u - 3 + 3)) with (scal (var1 c a T u) (/ S u)).
    2:{ unfold scal; simpl; unfold mult; simpl. rewrite S2. lra. }
    apply (is_derive_comp ln S u (/ S u) (var1 c a T u)); [ | exact DV ]. apply is_derive_Reals, derivable_pt_lim_ln. rewrite S2. lra.
  - replace (- ((- var1 c a T u) ^ 2 + - var2 c a T u)) with ((var2 c a T u * S u - var1 c a T u * var1 c a T u) / S u ^ 2) by (rewrite S2; field).
    apply (is_derive_div (var1 c a T) S u); [ exact DV1 | exact DV | rewrite S2; lra ].
Qed.

(** ** the fitting formula *)
Lemma ten_pow10 x : pow10 x = ten x.
Proof. reflexivity. Qed.
Lemma ten_pos x : 0 < ten x.
Proof. apply exp_pos. Qed.
Lemma assemble_fit k P knl co f1 f2 f3 : 0 < k -> 0 < knl -> 0 <= P -> 0 < hf_c co -> 0 < f3 ->
  hf_assemble k P knl co (f1, f2, f3) = 2 * PI ^ 2 / k ^ 3 *
    (quasi_linear (k ^ 3 * P / (2 * PI ^ 2)) (k / knl) (hf_alpha co) (hf_beta co) +
     one_halo (k / knl) (hf_a co) (hf_b co) (hf_c co) (hf_gamma co) (hf_mu co) (hf_nu co) f1 f2 f3).
Proof.
  intros Hk Hn HP Hc H3. unfold hf_assemble, quasi_linear, one_halo. cbv zeta. replace 2.0 with 2 by lra. replace 1.0 with 1 by lra. replace 3.0 with 3 by lra. replace 4.0 with 4 by lra. replace 8.0 with 8 by lra.
  assert (Y : 0 < k / knl) by now apply Rdiv_lt_0_compat. set (y := k / knl) in *. pose proof PI_RGT_0 as PI0.
  assert (Dn : 0 <= k ^ 3 * P / (2 * PI ^ 2)).
  { apply Rmult_le_pos; [ apply Rmult_le_pos; [ left; now apply pow_lt | exact HP ] | left; apply Rinv_0_lt_compat; pose proof (pow_lt PI 2 PI0); lra ]. }
  set (d := k ^ 3 * P / (2 * PI ^ 2)) in *. rewrite !rpow_pos; [ | | exact Y | exact Y | lra ].
  - f_equal. f_equal. f_equal. unfold Rdiv. ring.
  - apply Rmult_lt_0_compat; [ apply Rmult_lt_0_compat | ]; assumption.
Qed.
Lemma mix_pos Om Ow : 0 < Om < 1 -> 0 <= Ow <= 1 - Om ->
  0 < Ow / (1 - Om) * Rpower Om 0.0743 + (1 - Ow / (1 - Om)) * Rpower Om 0.0725.
Proof.
  intros Hm Hde. assert (F : 0 <= Ow / (1 - Om) <= 1).
  { split; [ apply Rmult_le_pos; [ lra | left; apply Rinv_0_lt_compat; lra ] | ]. apply Rmult_le_reg_r with (1 - Om); [ lra | ]. unfold Rdiv. rewrite Rmult_assoc, Rinv_l; lra. }
  set (f := Ow / (1 - Om)) in *. pose proof (exp_pos (0.0743 * ln Om)) as A. pose proof (exp_pos (0.0725 * ln Om)) as B. unfold Rpower. nra.
Qed.
Lemma takahashi_published : forall c k a T, 0 < k -> 0 <= linear_matter_power c k a T -> 0 < Omega_m_a c a ->
  let '(knl, n, C) := halofit_parameters c a T in
  halofit c k a T "takahashi2012" =
  Ok (2 * PI ^ 2 / k ^ 3 * takahashi_fit (dimensionless_power c k a T) (k / knl) n C (Omega_m_a c a) (Omega_de_a c a) (Background.w c a)).
Proof.
  intros c k a T Hk HP Hm. unfold halofit. pose proof (k_nl_pos c a T) as HK.
  assert (EK : fst (fst (halofit_parameters c a T)) = k_nl c a T) by reflexivity.
  destruct (halofit_parameters c a T) as [[knl n] C]. simpl in EK. subst knl. cbv zeta. change (String.eqb "takahashi2012" "smith2003") with false. change (String.eqb "takahashi2012" "takahashi2012") with true. cbv iota. f_equal. unfold hf_f_takahashi. rewrite assemble_fit; [ | exact Hk | exact HK | exact HP | apply ten_pos | rewrite rpow_pos by exact Hm; apply exp_pos ].
  rewrite !rpow_pos by exact Hm. unfold takahashi_fit, dimensionless_power. cbv zeta.
  assert (E0 : hf_mu (hf_takahashi n C (Omega_de_a c a) (Background.w c a)) = 0) by (simpl; lra). rewrite E0. reflexivity.
Qed.

Lemma smith_value : forall c k a T, 0 < k -> 0 <= linear_matter_power c k a T -> 0 < Omega_m_a c a < 1 -> 0 <= Omega_de_a c a <= 1 - Omega_m_a c a ->
  let '(knl, n, C) := halofit_parameters c a T in
  halofit c k a T "smith2003" =
  Ok (2 * PI ^ 2 / k ^ 3 * smith_fit_with 0.9585 (dimensionless_power c k a T) (k / knl) n C (Omega_m_a c a) (Omega_de_a c a)).
Proof.
  intros c k a T Hk HP Hm Hde. unfold halofit. pose proof (k_nl_pos c a T) as HK.
  assert (EK : fst (fst (halofit_parameters c a T)) = k_nl c a T) by reflexivity.
  destruct (halofit_parameters c a T) as [[knl n] C]. simpl in EK. subst knl. cbv zeta. change (String.eqb "smith2003" "smith2003") with true. cbv iota. f_equal. unfold hf_f_smith.
  replace 1.0 with 1 by lra. rewrite !rpow_pos by (apply Hm). rewrite assemble_fit; [ reflexivity | exact Hk | exact HK | exact HP | apply ten_pos | ].
  now apply mix_pos.
Qed.
Lemma smith_above : forall d y n C Om Ow, 0 < y -> smith_fit d y n C Om Ow < smith_fit_with 0.9585 d y n C Om Ow.
Proof.
  intros d y n C Om Ow Hy. unfold smith_fit, smith_fit_with. cbv zeta. apply Rplus_lt_compat_l. unfold one_halo.
  match goal with |- ?x / _ < _ => set (h := x) end.
  assert (Hh : 0 < h).
  { unfold h. apply Rdiv_lt_0_compat; [ apply Rmult_lt_0_compat; apply exp_pos | ].
    apply Rplus_lt_0_compat; [ | apply exp_pos ]. apply Rplus_lt_0_compat; [ lra | ]. apply Rmult_lt_0_compat; apply exp_pos. }
  clearbody h. pose proof (ten_pos (-3.5442 + 0.1908 * n)) as M. pose proof (ten_pos (0.9585 + 1.2857 * n)) as N1.
  assert (L : ten (0.9585 + 1.2857 * n) < ten (0.9589 + 1.2857 * n)) by (apply Rpower_lt; lra).
  set (m := ten (-3.5442 + 0.1908 * n)) in *. set (p := ten (0.9585 + 1.2857 * n)) in *. set (q := ten (0.9589 + 1.2857 * n)) in *.
  assert (0 < m / y) by now apply Rdiv_lt_0_compat. assert (Y2 : 0 < / y ^ 2) by (apply Rinv_0_lt_compat; now apply pow_lt).
  assert (0 < p / y ^ 2) by (now apply Rmult_lt_0_compat). assert (p / y ^ 2 < q / y ^ 2) by (now apply Rmult_lt_compat_r).
  apply Rmult_lt_compat_l; [ exact Hh | ]. apply Rinv_lt_contravar; [ apply Rmult_lt_0_compat; lra | lra ].
Qed.
Lemma planck_fr : 0 < Omega_m_a Planck15 1 < 1 /\ 0 <= Omega_de_a Planck15 1 <= 1 - Omega_m_a Planck15 1.
Proof.
  destruct (today Planck15) as (_ & _ & -> & ->). unfold Omega_de, Omega_k, Omega, Omega_m, Omega_c, Omega_b, Planck15, make_cosmology. simpl. lra.
Qed.
Lemma smith_not_published : forall c k a T, 0 < k -> 0 <= linear_matter_power c k a T -> 0 < Omega_m_a c a < 1 -> 0 <= Omega_de_a c a <= 1 - Omega_m_a c a ->
  let '(knl, n, C) := halofit_parameters c a T in
  exists v : R, halofit c k a T "smith2003" = Ok v /\
    2 * PI ^ 2 / k ^ 3 * smith_fit (dimensionless_power c k a T) (k / knl) n C (Omega_m_a c a) (Omega_de_a c a) < v.
Proof.
  intros c k a T Hk HP Hm Hde. pose proof (smith_value c k a T Hk HP Hm Hde) as V. pose proof (k_nl_pos c a T) as HK.
  assert (EK : fst (fst (halofit_parameters c a T)) = k_nl c a T) by reflexivity.
  destruct (halofit_parameters c a T) as [[knl n] C]. simpl in EK. subst knl. eexists. split; [ exact V | ].
  apply Rmult_lt_compat_l; [ | apply smith_above; now apply Rdiv_lt_0_compat ].
  apply Rdiv_lt_0_compat; [ pose proof (pow_lt PI 2 PI_RGT_0); lra | now apply pow_lt ].
Qed.

Lemma smith_refuted : exists c k a T v knl n C, reachable c /\ physical c /\ moderate c /\ 0 < k /\ 0 < linear_matter_power c k a T /\
  0 < Omega_m_a c a < 1 /\ 0 <= Omega_de_a c a <= 1 - Omega_m_a c a /\ halofit_parameters c a T = (knl, n, C) /\ halofit c k a T "smith2003" = Ok v /\
  v <> 2 * PI ^ 2 / k ^ 3 * smith_fit (dimensionless_power c k a T) (k / knl) n C (Omega_m_a c a) (Omega_de_a c a).
Proof.
  destruct ex_power_planck as (R1 & R2 & R3 & _). pose proof (ex_planck_linear 1 Rlt_0_1) as LP.
  destruct planck_fr as [F1 F2]. pose proof (smith_not_published Planck15 1 1 eisenhu Rlt_0_1 (Rlt_le _ _ LP) F1 F2) as SP.
  destruct (halofit_parameters Planck15 1 eisenhu) as [[knl n] C] eqn:E. destruct SP as (v & V & L).
  exists Planck15, 1, 1, eisenhu, v, knl, n, C. split; [ exact R1 | split; [ exact R2 | split; [ exact R3 | split; [ lra | split; [ exact LP | split; [ exact F1 | split; [ exact F2 | split; [ exact E | split; [ exact V | lra ]]]]]]]]].
Qed.
