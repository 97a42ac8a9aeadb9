(** * Property theorems C118, C119: halofit against its definition and the published fit *)
From Coq Require Import Reals List String.
From Coquelicot Require Import Coquelicot.
From Verif Require Import Np Core Background BgSpec BgPositive Transfer TransferProofs Power PowerProofs ExPower HfSpec HfProofs.
Import ListNotations.
Local Open Scope R_scope.
Local Open Scope string_scope.


(** C118  effective index and curvature are logarithmic derivatives of the smoothed variance *)
Theorem C118_derivatives : forall c a T, reachable c -> _gamma_growth c = true \/ physical c /\ moderate c ->
  let '(knl, n, C) := halofit_parameters c a T in
  let S := fun u => smoothed_variance c a T (exp u) in
  0 < knl /\
  exists S', (forall u, is_derive S u (S' u)) /\ n = -3 - S' (ln (/ knl)) /\ is_derive S' (ln (/ knl)) (S' (ln (/ knl)) ^ 2 - C) /\
    (S (ln (/ knl)) = 1 -> is_derive (fun u => ln (S u)) (ln (/ knl)) (- (n + 3)) /\
       is_derive (fun u => S' u / S u) (ln (/ knl)) (- C)).
Proof. exact parameters_are_derivatives. Qed.
Print Assumptions C118_derivatives.


(** C119  halofit is the published fit *)
Theorem C119_takahashi : forall c k a T, 0 < k -> 0 <= linear_matter_power c k a T -> 0 < Omega_m_a c a ->
  let '(knl, n, C) := halofit_parameters c a T in
  halofit c k a T "takahashi2012" =
  Ok (2 * PI ^ 2 / k ^ 3 * takahashi_fit (dimensionless_power c k a T) (k / knl) n C (Omega_m_a c a) (Omega_de_a c a) (Background.w c a)).
Proof. exact takahashi_published. Qed.
Print Assumptions C119_takahashi.
Theorem C119_smith_partial : forall c k a T, 0 < k -> 0 <= linear_matter_power c k a T -> 0 < Omega_m_a c a < 1 -> 0 <= Omega_de_a c a <= 1 - Omega_m_a c a ->
  let '(knl, n, C) := halofit_parameters c a T in
  halofit c k a T "smith2003" =
  Ok (2 * PI ^ 2 / k ^ 3 * smith_fit_with 0.9585 (dimensionless_power c k a T) (k / knl) n C (Omega_m_a c a) (Omega_de_a c a)).
Proof. exact smith_value. Qed.
Print Assumptions C119_smith_partial.
Theorem C119_smith_above : forall c k a T, 0 < k -> 0 <= linear_matter_power c k a T -> 0 < Omega_m_a c a < 1 -> 0 <= Omega_de_a c a <= 1 - Omega_m_a c a ->
  let '(knl, n, C) := halofit_parameters c a T in
  exists v : R, halofit c k a T "smith2003" = Ok v /\
    2 * PI ^ 2 / k ^ 3 * smith_fit (dimensionless_power c k a T) (k / knl) n C (Omega_m_a c a) (Omega_de_a c a) < v.
Proof. exact smith_not_published. Qed.
Print Assumptions C119_smith_above.
Theorem C119_smith_refuted : exists c k a T v knl n C, reachable c /\ physical c /\ moderate c /\ 0 < k /\ 0 < linear_matter_power c k a T /\
  0 < Omega_m_a c a < 1 /\ 0 <= Omega_de_a c a <= 1 - Omega_m_a c a /\ halofit_parameters c a T = (knl, n, C) /\ halofit c k a T "smith2003" = Ok v /\
  v <> 2 * PI ^ 2 / k ^ 3 * smith_fit (dimensionless_power c k a T) (k / knl) n C (Omega_m_a c a) (Omega_de_a c a).
Proof. exact smith_refuted. Qed.
Print Assumptions C119_smith_refuted.
Example C119_case : 0 < linear_matter_power Planck15 1 1 eisenhu /\ 0 < Omega_m_a Planck15 1 < 1 /\ 0 <= Omega_de_a Planck15 1 <= 1 - Omega_m_a Planck15 1.
Proof. exact (conj (ex_planck_linear 1 Rlt_0_1) planck_fr). Qed.
Example C118_case : reachable Planck15 /\ physical Planck15 /\ moderate Planck15 /\ sigmasqr_default Planck15 8.0 eisenhu <> 0.
Proof. exact ex_power_planck. Qed.
