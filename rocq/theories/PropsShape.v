(** * Property theorems C116: shape of the no-wiggle transfer function *)
From Coq Require Import Reals List String.
From Coquelicot Require Import Coquelicot.
From Verif Require Import Np Core Background BgSpec BgPositive Transfer TransferProofs Power TransferMono.
Import ListNotations.
Local Open Scope R_scope.


(** C116  the no-wiggle transfer function decreases from 1 and falls as ln k / k^2 *)
Theorem C116_decreasing : forall c k k', dense c -> 0 <= eh_alpha_gamma c <= 1 -> 0 <= k < k' ->
  exists t t', Eisenstein_Hu c k "eisenhu" = Ok t /\ Eisenstein_Hu c k' "eisenhu" = Ok t' /\ 0 < t' < t /\ t <= 1.
Proof. exact no_wiggle_decreasing. Qed.
Print Assumptions C116_decreasing.
Theorem C116_small_scales : forall c, dense c -> 0 < eh_alpha_gamma c <= 1 ->
  is_lim (fun k => match Eisenstein_Hu c k "eisenhu" with Ok t => t | Err _ => 0 end * (k ^ 2 / ln k)) p_infty
    ((Omega_m c * _h c * eh_alpha_gamma c / (const_tcmb / 2.7) ^ 2) ^ 2 / 14.2).
Proof. exact no_wiggle_small_scales. Qed.
Print Assumptions C116_small_scales.
Theorem C116_power : forall c k k' a, reachable c -> _gamma_growth c = true \/ physical c /\ moderate c -> dense c -> 0 <= eh_alpha_gamma c <= 1 ->
  _sigma8 c <> 0 -> 0 < k < k' -> 0 < D c a ->
  linear_matter_power c k' a eisenhu / linear_matter_power c k a eisenhu < Rpower (k' / k) (_n_s c).
Proof. exact power_below_tilt. Qed.
Print Assumptions C116_power.
Theorem C116_realistic : forall c, dense c -> 1 <= 22.3 * (Omega_m c * _h c ^ 2) -> Omega_m c * _h c ^ 2 <= 0.37 -> 2 * Omega_b c <= Omega_m c ->
  0 < eh_alpha_gamma c <= 1.
Proof. exact alpha_gamma_le1. Qed.
Print Assumptions C116_realistic.
Example C116_case : dense Planck15 /\ 0 < eh_alpha_gamma Planck15 <= 1 /\ reachable Planck15 /\ physical Planck15 /\ moderate Planck15 /\ _sigma8 Planck15 <> 0 /\ D Planck15 1 = 1.
Proof. exact ex_no_wiggle. Qed.
