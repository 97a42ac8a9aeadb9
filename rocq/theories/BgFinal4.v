(** * Final forms for the background properties and concrete cosmologies *)
From Coquelicot Require Import Coquelicot.
From Verif Require Import Np NpLemmas Interp Integrate IntegrateSpec Ode OdeSpec Core Background BgSpec BgProofs BgAlgebra BgTables BgGrowth BgPositive BgFinal BgFinal2 BgFinal3.
Opaque chi_table growth_table_ODE growth_table_gamma logspace.

Lemma requested_table_public c0 la n : fresh c0 -> expanding c0 -> la < 0 -> (3 <= n)%nat ->
  let node := fun i => pow10 (la + INR i * (- la / INR (n - 1))) in
  exists X : R -> R,
    (forall hist a, Forall growth_only hist -> fst (radial_comoving_distance (run hist c0) a la n) = map X (atleast_1d a)) /\
    X 1 = 0 /\ (forall a b, a <= b -> X b <= X a) /\
    forall i, (1 <= i)%nat -> (i + 1 < n)%nat ->
      X (node i) - X (node (i + 1)%nat) =
      simpson (fun x => 2997.92458 / (exp x * sqrt (Esqr c0 (exp x)))) (ln (node i)) (ln (node (i + 1)%nat)) 2.
Proof.
  intros HF HE Hla Hn node. exists (chi_of c0 la n).
  assert (EN : forall i, node i = anode la n i) by (intros i; unfold node, anode; do 4 f_equal; lra).
  split; [ intros; now apply requested_table | ].
  split; [ now apply chi_of_1 | split; [ intros; now apply chi_of_antitone | ]].
  intros i H1 H2. rewrite !EN. now apply requested_table_nodes.
Qed.

Lemma fractions c : Omega_m c + Omega_de c + Omega_k c = 1 /\
  forall a, 0 < a -> Esqr c a <> 0 -> Omega_m_a c a + Omega_de_a c a + Omega_k c * / a ^ 2 / Esqr c a = 1.
Proof. split; [ apply fractions_today | intros; now apply fractions_at ]. Qed.
Lemma today c : Esqr c 1 = 1 /\ H c 1 = 100 /\ Omega_m_a c 1 = Omega_m c /\ Omega_de_a c 1 = Omega_de c.
Proof. split; [ apply Esqr_1 | split; [ apply H_1 | apply Omega_m_a_1 ]]. Qed.
Lemma dark_energy c : f_de c 1 = 0 /\
  (forall t, is_derive (fun t => f_de c (exp t)) t (-3 * (1 + w c (exp t)))) /\
  (forall a, 0 < a -> f_de c a = -3 * RInt (fun t => 1 + w c (exp t)) 0 (ln a)) /\
  (_w0 c = -1 -> _wa c = 0 -> forall a, f_de c a = 0).
Proof.
  split; [ apply f_de_1 | ]. split; [ intros; apply f_de_log_derivative | ].
  split; [ intros; now apply f_de_integral | intros; now apply f_de_lambda ].
Qed.
Lemma positivity c a : physical c -> 0 < a ->
  0 < Esqr c a /\ 0 < H c a /\ 0 < dchioverda c a /\ 0 < Omega_m_a c a <= 1 /\ 0 <= Omega_de_a c a < 1.
Proof.
  intros HP Ha. pose proof (physical_expanding c HP) as HE.
  split; [ now apply Esqr_pos | split; [ now apply H_pos | split; [ now apply dchioverda_pos | now apply Omega_m_a_range ]]].
Qed.
Lemma hubble_rate c a : expanding c -> 0 < a -> dchioverda c a = 299792.458 / (a ^ 2 * H c a).
Proof. intros HE Ha. rewrite dchioverda_H by assumption. reflexivity. Qed.
Lemma redshift_inverse :
  (forall z, z <> -1 -> a2z (z2a z) = z) /\ (forall a, a <> 0 -> z2a (a2z a) = a) /\
  (forall z1 z2, -1 < z1 < z2 -> 0 < z2a z2 < z2a z1) /\ z2a 0 = 1.
Proof. split; [ apply a2z_z2a | split; [ apply z2a_a2z | split; [ apply z2a_decr | apply z2a_0 ]]]. Qed.

Lemma growth_at_one c : reachable c -> (_gamma_growth c = true \/ physical c /\ moderate c) ->
  D c 1 = 1 /\ (forall v, fst (growth_factor c (Array1 v)) = Ok (map (D c) v)) /\ forall a, 0 <= D c a <= 1.
Proof.
  intros HR HC. destruct (growth_normalised c HR) as (G1 & G2 & G3). split; [ | split; assumption ].
  apply G3. destruct (_gamma_growth c) eqn:E.
  - intros E'. congruence.
  - destruct HC as [HC | (HP & HM)]; [ congruence | ]. now apply ode_growth_properties.
Qed.

(** concrete cosmologies *)
Definition planck_gamma : cosmology := make_cosmology 0.2589 0.04860 0.6774 0.9667 0.8159 0.0 (-1.0) 0.0 (Some 0.55).
Definition open_w0wa : cosmology := make_cosmology 0.25 0.05 0.7 0.96 0.8 0.1 (-0.9) 0.2 None.
Definition closed_lcdm : cosmology := make_cosmology 0.3 0.05 0.7 0.96 0.8 (-0.1) (-1) 0 None.
Definition eds_ode : cosmology := make_cosmology 0.95 0.05 0.7 0.96 0.8 0 (-0.9) 0.1 None.
Definition eds_gamma : cosmology := make_cosmology 0.95 0.05 0.7 0.96 0.8 0 (-1) 0 (Some 0.6).

Lemma fresh_reachable c : fresh c -> reachable c.
Proof. intros HF. exists c, []. split; [ assumption | reflexivity ]. Qed.
Ltac fresh_ := apply fresh_reachable; split; reflexivity.
Ltac phys := unfold physical, Omega_de, Omega, Omega_m, Omega_k, make_cosmology; simpl; lra.
Lemma planck_ok : reachable Planck15 /\ physical Planck15 /\ moderate Planck15 /\ expanding Planck15 /\ _gamma_growth Planck15 = false.
Proof.
  assert (physical Planck15) by (unfold Planck15; phys).
  split; [ fresh_ | split; [ assumption | split; [ unfold moderate; simpl; lra | split; [ now apply physical_expanding | reflexivity ]]]].
Qed.
Lemma planck_gamma_ok : reachable planck_gamma /\ physical planck_gamma /\ expanding planck_gamma /\ _gamma_growth planck_gamma = true.
Proof.
  assert (physical planck_gamma) by (unfold planck_gamma; phys).
  split; [ fresh_ | split; [ assumption | split; [ now apply physical_expanding | reflexivity ]]].
Qed.
Lemma open_ok : reachable open_w0wa /\ physical open_w0wa /\ moderate open_w0wa /\ 0 < _Omega_k open_w0wa /\ _gamma_growth open_w0wa = false.
Proof.
  split; [ fresh_ | split; [ unfold open_w0wa; phys | split; [ unfold moderate; simpl; lra | split; [ simpl; lra | reflexivity ]]]].
Qed.
Lemma eds_ode_ok : reachable eds_ode /\ einstein_de_sitter eds_ode.
Proof. split; [ fresh_ | ]. unfold einstein_de_sitter, Omega_m, eds_ode, make_cosmology; simpl. split; lra. Qed.
Lemma eds_gamma_ok : reachable eds_gamma /\ einstein_de_sitter eds_gamma.
Proof. split; [ fresh_ | ]. unfold einstein_de_sitter, Omega_m, eds_gamma, make_cosmology; simpl. split; lra. Qed.
Lemma closed_ok : reachable closed_lcdm /\ _Omega_k closed_lcdm < 0 /\ expanding closed_lcdm.
Proof.
  split; [ fresh_ | split; [ simpl; lra | ]]. intros a Ha. unfold Esqr. rewrite f_de_lambda by (simpl; lra). rewrite exp_0.
  unfold Omega_de, Omega, Omega_m, Omega_k, closed_lcdm, make_cosmology; simpl _Omega_b; simpl _Omega_c; simpl _Omega_k.
  replace ((0.05 + 0.3) * / a ^ 3 + -0.1 * / a ^ 2 + (1.0 - -0.1 - (0.05 + 0.3)) * 1)
    with ((0.35 - 0.1 * a + 0.75 * a ^ 3) * / a ^ 3).
  - apply Rmult_lt_0_compat; [ | apply Rinv_0_lt_compat; now apply pow_lt ].
    destruct (Rle_dec a 3); [ assert (0 < a ^ 3) by (now apply pow_lt); lra | ].
    assert (9 < a * a) by nra. simpl. nra.
  - replace 0.35 with (35 / 100) by lra. replace 0.1 with (1 / 10) by lra. replace (-0.1) with (- (1 / 10)) by lra. replace 0.75 with (75 / 100) by lra.
    replace 0.05 with (5 / 100) by lra. replace 0.3 with (3 / 10) by lra. replace 1.0 with 1 by lra. field. lra.
Qed.
Lemma scalar_growth_raises : exists c a, reachable c /\ physical c /\ 0 < a <= 1 /\
  fst (growth_factor c (Scalar a)) = Err ValueError /\ fst (growth_rate c (Scalar a)) = Err ValueError.
Proof.
  exists Planck15, (1 / 2). destruct planck_ok as (P1 & P2 & _ & _ & P5).
  split; [ assumption | split; [ assumption | split; [ lra | split; [ apply growth_factor_scalar | now apply growth_rate_scalar ]]]].
Qed.
