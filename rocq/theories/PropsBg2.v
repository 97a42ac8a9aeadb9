(** * Property theorems C87 and C88 (background.py) *)
From Coquelicot Require Import Coquelicot.
From Verif Require Import Np Core Background BgSpec BgPositive BgFinal4 BgCompare BgAccuracy.

(** C87  comparison principles for the expansion history and the distances *)
Theorem C87_hubble_decreasing : forall c a b,
  physical c -> 0 < a < b -> b <= 1 -> (forall x, 0 < x <= 1 -> -1 <= w c x) ->
  H c b < H c a /\ (a < 1 -> 100 < H c a).
Proof. exact hubble_decreasing. Qed.
Print Assumptions C87_hubble_decreasing.
Theorem C87_matter_fraction : forall c a b,
  physical c -> 0 < a <= b -> b <= 1 -> (forall x, 0 < x <= 1 -> w c x <= 0) -> Omega_m_a c b <= Omega_m_a c a.
Proof. exact Omega_m_a_order. Qed.
Print Assumptions C87_matter_fraction.
Theorem C87_distance_order : forall c d,
  reachable c -> reachable d -> expanding c -> expanding d ->
  (forall a, 1 / 1000 <= a <= 1 -> H d a <= H c a) -> forall a, a <= 1 -> chi c a <= chi d a.
Proof. exact distance_order. Qed.
Print Assumptions C87_distance_order.
Theorem C87_more_matter_closer : forall c d,
  reachable c -> reachable d -> flat_lcdm c -> flat_lcdm d -> Omega_m d <= Omega_m c ->
  forall a, a <= 1 -> chi c a <= chi d a /\ f_k c a <= f_k d a.
Proof. exact more_matter_closer. Qed.
Print Assumptions C87_more_matter_closer.
Example C87_case : (reachable Planck15 /\ flat_lcdm Planck15 /\ (forall x, 0 < x <= 1 -> -1 <= w Planck15 x <= 0)) /\
  (reachable denser_planck /\ flat_lcdm denser_planck /\ Omega_m Planck15 < Omega_m denser_planck) /\
  (expanding Planck15 /\ expanding denser_planck /\ forall a, 1 / 1000 <= a <= 1 -> H Planck15 a <= H denser_planck a).
Proof. exact (conj planck_flat (conj denser_planck_flat denser_planck_order)). Qed.


(** C88  accuracy of the tabulated distance against the exact integral *)
Theorem C88_accuracy : forall c a,
  reachable c -> physical c -> moderate c -> table_node 256 1 <= a <= 1 ->
  Rabs (chi c a - RInt (fun x => 299792.458 / (x ^ 2 * H c x)) a 1) <= 1.5 / sqrt (Omega_m c).
Proof. exact distance_accuracy. Qed.
Print Assumptions C88_accuracy.
Theorem C88_accuracy_lambda : forall c a,
  reachable c -> physical c -> _w0 c = -1 -> _wa c = 0 -> table_node 256 1 <= a <= 1 ->
  Rabs (chi c a - RInt (fun x => 299792.458 / (x ^ 2 * H c x)) a 1) <= 0.6 / sqrt (Omega_m c).
Proof. exact distance_accuracy_lambda. Qed.
Print Assumptions C88_accuracy_lambda.
Theorem C88_accuracy_node : forall c i,
  reachable c -> physical c -> _w0 c = -1 -> _wa c = 0 -> (1 <= i < 256)%nat ->
  Rabs (chi c (table_node 256 i) - RInt (fun x => 299792.458 / (x ^ 2 * H c x)) (table_node 256 i) 1) <= 0.01 / sqrt (Omega_m c).
Proof. exact distance_accuracy_node. Qed.
Print Assumptions C88_accuracy_node.
Example C88_case : reachable Planck15 /\ physical Planck15 /\ moderate Planck15 /\ _w0 Planck15 = -1 /\ _wa Planck15 = 0 /\ table_node 256 1 <= 1 / 2 <= 1.
Proof. exact planck_accuracy_case. Qed.
