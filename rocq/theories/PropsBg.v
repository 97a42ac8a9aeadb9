(** * Property theorems C33, C34, C36-C47, C81: jax_cosmo/background.py *)
From Coquelicot Require Import Coquelicot.
From Verif Require Import Np Interp Integrate IntegrateSpec OdeSpec Core Background BgSpec BgProofs BgAlgebra BgPositive BgFinal BgFinal2 BgFinal3 BgFinal4.

(** C33 *)
Theorem C33_history_independent : forall c0 hist k, fresh c0 ->
  fst (run1 k (run hist c0)) = fst (run1 k c0) /\ same_parameters (run hist c0) c0.
Proof. exact history_independent. Qed.
Print Assumptions C33_history_independent.
Example C33_case : fresh Planck15.
Proof. exact (conj eq_refl eq_refl). Qed.

(** C34: true as long as no distance was computed before; in general the first table is kept *)
Theorem C34_requested_table_partial : forall c0 la n, fresh c0 -> expanding c0 -> la < 0 -> (3 <= n)%nat ->
  let node := fun i => pow10 (la + INR i * (- la / INR (n - 1))) in
  exists X : R -> R,
    (forall hist a, Forall growth_only hist -> fst (radial_comoving_distance (run hist c0) a la n) = map X (atleast_1d a)) /\
    X 1 = 0 /\ (forall a b, a <= b -> X b <= X a) /\
    forall i, (1 <= i)%nat -> (i + 1 < n)%nat ->
      X (node i) - X (node (i + 1)%nat) =
      simpson (fun x => 2997.92458 / (exp x * sqrt (Esqr c0 (exp x)))) (ln (node i)) (ln (node (i + 1)%nat)) 2.
Proof. exact requested_table_public. Qed.
Print Assumptions C34_requested_table_partial.
Example C34_case : fresh milne /\ expanding milne.
Proof. exact (conj milne_fresh milne_expanding). Qed.
Theorem C34_table_parameters_refuted : exists c hist a la n, fresh c /\ la < 0 /\ (3 <= n)%nat /\
  fst (radial_comoving_distance (run hist c) a la n) <> fst (radial_comoving_distance c a la n).
Proof. exact table_parameters_ignored. Qed.
Print Assumptions C34_table_parameters_refuted.

(** C36 *)
Theorem C36_fractions : forall c, Omega_m c + Omega_de c + Omega_k c = 1 /\
  forall a, 0 < a -> Esqr c a <> 0 -> Omega_m_a c a + Omega_de_a c a + Omega_k c * / a ^ 2 / Esqr c a = 1.
Proof. exact fractions. Qed.
Print Assumptions C36_fractions.
Example C36_case : reachable closed_lcdm /\ _Omega_k closed_lcdm < 0 /\ expanding closed_lcdm.
Proof. exact closed_ok. Qed.

(** C37 *)
Theorem C37_today : forall c, Esqr c 1 = 1 /\ H c 1 = 100 /\ Omega_m_a c 1 = Omega_m c /\ Omega_de_a c 1 = Omega_de c.
Proof. exact today. Qed.
Print Assumptions C37_today.
Example C37_case : H open_w0wa 1 = 100 /\ 0 < _Omega_k open_w0wa.
Proof. exact (conj (proj1 (proj2 (today open_w0wa))) (proj1 (proj2 (proj2 (proj2 open_ok))))). Qed.

(** C38 *)
Theorem C38_dark_energy : forall c, f_de c 1 = 0 /\
  (forall t, is_derive (fun t => f_de c (exp t)) t (-3 * (1 + w c (exp t)))) /\
  (forall a, 0 < a -> f_de c a = -3 * RInt (fun t => 1 + w c (exp t)) 0 (ln a)) /\
  (_w0 c = -1 -> _wa c = 0 -> forall a, f_de c a = 0).
Proof. exact dark_energy. Qed.
Print Assumptions C38_dark_energy.
Example C38_case : _w0 Planck15 = -1 /\ _wa Planck15 = 0.
Proof. unfold Planck15, make_cosmology; cbn [_w0 _wa]; split; lra. Qed.

(** C39 *)
Theorem C39_positivity : forall c a, physical c -> 0 < a ->
  0 < Esqr c a /\ 0 < H c a /\ 0 < dchioverda c a /\ 0 < Omega_m_a c a <= 1 /\ 0 <= Omega_de_a c a < 1.
Proof. exact positivity. Qed.
Print Assumptions C39_positivity.
Example C39_case : reachable open_w0wa /\ physical open_w0wa /\ moderate open_w0wa /\ 0 < _Omega_k open_w0wa /\ _gamma_growth open_w0wa = false.
Proof. exact open_ok. Qed.

(** C40 *)
Theorem C40_distance : forall c, reachable c -> expanding c ->
  (forall v, fst (rcd_default c (Array1 v)) = map (chi c) v) /\
  chi c 1 = 0 /\ (forall a, 0 <= chi c a) /\ (forall a b, a <= b -> chi c b <= chi c a) /\ (forall a, a < 1 -> 0 < chi c a).
Proof. exact distance_properties. Qed.
Print Assumptions C40_distance.
Theorem C40_simpson : forall c i, reachable c -> expanding c -> (1 <= i)%nat -> (i + 1 < 256)%nat ->
  let a := table_node 256 i in let b := table_node 256 (i + 1) in
  chi c a - chi c b =
  simpson (fun x => 2997.92458 / (exp x * sqrt (Esqr c (exp x)))) (ln a) (ln b) 2.
Proof. exact distance_simpson. Qed.
Print Assumptions C40_simpson.
Theorem C40_hubble : forall c a, expanding c -> 0 < a -> dchioverda c a = 299792.458 / (a ^ 2 * H c a).
Proof. exact hubble_rate. Qed.
Print Assumptions C40_hubble.
Example C40_case : reachable Planck15 /\ physical Planck15 /\ moderate Planck15 /\ expanding Planck15 /\ _gamma_growth Planck15 = false.
Proof. exact planck_ok. Qed.

(** C41 *)
Theorem C41_transverse : forall c, reachable c ->
  let K := 2997.92458 / sqrt (Rabs (_Omega_k c)) in
  (forall v, fst (transverse_comoving_distance c (Array1 v)) = map (f_k c) v) /\
  (forall v, fst (angular_diameter_distance c (Array1 v)) = map (fun a => a * f_k c a) v) /\
  (_Omega_k c = 0 -> forall a, f_k c a = chi c a) /\
  (0 < _Omega_k c -> forall a, f_k c a = K * sinh (chi c a / K) /\ chi c a <= f_k c a) /\
  (_Omega_k c < 0 -> forall a, f_k c a = K * sin (chi c a / K) /\ f_k c a <= chi c a) /\
  (expanding c -> f_k c 1 = 0).
Proof. exact transverse_properties. Qed.
Print Assumptions C41_transverse.
Example C41_case_closed : reachable closed_lcdm /\ _Omega_k closed_lcdm < 0 /\ expanding closed_lcdm.
Proof. exact closed_ok. Qed.

(** C42: normalised whenever the integrated growth is not zero today (first statement), which the second and
    C81 establish for the gamma parametrisation and for physical cosmologies of moderate dark energy *)
Theorem C42_normalised : forall c, reachable c ->
  (forall v, fst (growth_factor c (Array1 v)) = Ok (map (D c) v)) /\
  (forall a, 0 <= D c a <= 1) /\ (growth_nonzero c -> D c 1 = 1).
Proof. exact growth_normalised. Qed.
Print Assumptions C42_normalised.
Theorem C42_at_one : forall c, reachable c -> (_gamma_growth c = true \/ physical c /\ moderate c) ->
  D c 1 = 1 /\ (forall v, fst (growth_factor c (Array1 v)) = Ok (map (D c) v)) /\ forall a, 0 <= D c a <= 1.
Proof. exact growth_at_one. Qed.
Print Assumptions C42_at_one.
Example C42_case_ode : reachable Planck15 /\ physical Planck15 /\ moderate Planck15 /\ expanding Planck15 /\ _gamma_growth Planck15 = false.
Proof. exact planck_ok. Qed.
Example C42_case_gamma : reachable planck_gamma /\ physical planck_gamma /\ expanding planck_gamma /\ _gamma_growth planck_gamma = true.
Proof. exact planck_gamma_ok. Qed.

(** C43 *)
Theorem C43_eds : forall c, reachable c -> einstein_de_sitter c ->
  (forall a, 0 <= a <= 1 -> D c a = a) /\ (forall a, 0 < a -> f_growth c a = 1).
Proof. exact eds_exact. Qed.
Print Assumptions C43_eds.
Example C43_case_ode : reachable eds_ode /\ einstein_de_sitter eds_ode.
Proof. exact eds_ode_ok. Qed.
Example C43_case_gamma : reachable eds_gamma /\ einstein_de_sitter eds_gamma.
Proof. exact eds_gamma_ok. Qed.

(** C44 *)
Theorem C44_gamma : forall c, reachable c -> _gamma_growth c = true ->
  (forall a b, a <= b -> D c a <= D c b) /\ D c 1 = 1 /\
  (forall i, (1 <= i < 128)%nat -> 0 < D c (table_node 128 i)) /\
  (physical c -> forall a, 0 < a -> f_growth c a = Rpower (Omega_m_a c a) (gamma_of c) /\ 0 < f_growth c a).
Proof. exact gamma_growth_properties. Qed.
Print Assumptions C44_gamma.
Example C44_case : reachable planck_gamma /\ physical planck_gamma /\ expanding planck_gamma /\ _gamma_growth planck_gamma = true.
Proof. exact planck_gamma_ok. Qed.

(** C45: distances accept scalars (they return one-element arrays); the growth functions do not *)
Theorem C45_scalar_partial : forall c a, reachable c ->
  fst (rcd_default c (Scalar a)) = [chi c a] /\ fst (transverse_comoving_distance c (Scalar a)) = [f_k c a] /\
  fst (angular_diameter_distance c (Scalar a)) = [a * f_k c a] /\
  (_gamma_growth c = true -> fst (growth_rate c (Scalar a)) = Ok [f_growth c a]).
Proof. exact scalar_distances. Qed.
Print Assumptions C45_scalar_partial.
Theorem C45_growth_raises : forall c a, fst (growth_factor c (Scalar a)) = Err ValueError.
Proof. exact growth_factor_scalar. Qed.
Print Assumptions C45_growth_raises.
Theorem C45_rate_raises : forall c a, reachable c -> _gamma_growth c = false -> fst (growth_rate c (Scalar a)) = Err ValueError.
Proof. exact growth_rate_scalar. Qed.
Print Assumptions C45_rate_raises.
Theorem C45_scalar_refuted : exists c a, reachable c /\ physical c /\ 0 < a <= 1 /\
  fst (growth_factor c (Scalar a)) = Err ValueError /\ fst (growth_rate c (Scalar a)) = Err ValueError.
Proof. exact scalar_growth_raises. Qed.
Print Assumptions C45_scalar_refuted.
Example C45_case : reachable Planck15 /\ physical Planck15 /\ moderate Planck15 /\ expanding Planck15 /\ _gamma_growth Planck15 = false.
Proof. exact planck_ok. Qed.

(** C46 *)
Theorem C46_inverse :
  (forall z, z <> -1 -> a2z (z2a z) = z) /\ (forall a, a <> 0 -> z2a (a2z a) = a) /\
  (forall z1 z2, -1 < z1 < z2 -> 0 < z2a z2 < z2a z1) /\ z2a 0 = 1.
Proof. exact redshift_inverse. Qed.
Print Assumptions C46_inverse.
Example C46_case : 1 <> -1 /\ 0 < z2a 1 < z2a 0.
Proof. split; [ intros E; lra | apply redshift_inverse; lra ]. Qed.

(** C47: exact at table nodes; between nodes the line of this or an adjacent cell, with the resulting error *)
Theorem C47_nodes_partial : forall c i, reachable c -> expanding c -> (1 <= i < 256)%nat ->
  fst (a_of_chi c (Scalar (chi c (table_node 256 i)))) = [table_node 256 i].
Proof. exact inverse_at_nodes. Qed.
Print Assumptions C47_nodes_partial.
Theorem C47_error_partial : forall c i x, reachable c -> expanding c -> (2 <= i)%nat -> (i + 1 < 256)%nat ->
  let a := table_node 256 in let X := fun k => chi c (a k) in
  let slope := fun k => (a (k + 1)%nat - a k) / (X (k + 1)%nat - X k) in
  X (i + 1)%nat <= x <= X i ->
  exists y k, fst (a_of_chi c (Scalar x)) = [y] /\ (i - 1 <= k <= i + 1)%nat /\ (k + 1 < 256)%nat /\
    y = line (X k) (a k) (X (k + 1)%nat) (a (k + 1)%nat) x /\
    Rabs (y - line (X i) (a i) (X (i + 1)%nat) (a (i + 1)%nat) x) <= Rabs (slope k - slope i) * ((X i - X (i + 1)%nat) / 2).
Proof. exact inverse_error. Qed.
Print Assumptions C47_error_partial.
Theorem C47_interpolant_refuted : exists c i x, fresh c /\ expanding c /\ (2 <= i)%nat /\ (i + 1 < 256)%nat /\
  let a := table_node 256 in let X := fun k => chi c (a k) in
  X (i + 1)%nat <= x <= X i /\
  fst (a_of_chi c (Scalar x)) <> [line (X i) (a i) (X (i + 1)%nat) (a (i + 1)%nat) x].
Proof. exact inverse_not_interpolant. Qed.
Print Assumptions C47_interpolant_refuted.
Example C47_case : reachable Planck15 /\ physical Planck15 /\ moderate Planck15 /\ expanding Planck15 /\ _gamma_growth Planck15 = false.
Proof. exact planck_ok. Qed.

(** C81 *)
Theorem C81_ode_growth : forall c, reachable c -> _gamma_growth c = false -> physical c -> moderate c ->
  growth_nonzero c /\ (forall a b, a <= b -> D c a <= D c b) /\
  (forall i, (1 <= i < 128)%nat -> 0 < D c (table_node 128 i) /\ 0 < f_growth c (table_node 128 i)) /\
  (forall i, (1 <= i)%nat -> (i + 1 < 128)%nat -> D c (table_node 128 i) < D c (table_node 128 (i + 1))).
Proof. exact ode_growth_properties. Qed.
Print Assumptions C81_ode_growth.
Example C81_case : reachable open_w0wa /\ physical open_w0wa /\ moderate open_w0wa /\ 0 < _Omega_k open_w0wa /\ _gamma_growth open_w0wa = false.
Proof. exact open_ok. Qed.
