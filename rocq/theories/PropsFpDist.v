(** * C143: rounding errors of the table lookup and of the comoving distance *)
From Coq Require Import Reals Lra Lia ZArith List.
From Coquelicot Require Import Coquelicot.
From Verif Require Import Np Core OdeSpec Interp Background BgSpec BgPositive Ad AdSpec Fp FpSpec.
From Verif Require Import FpInterp FpDist ExFp ExFpDist.
Import ListNotations.
Local Open Scope R_scope.
Opaque chi_table logspace.


(** C143  the lookup, and radial_comoving_distance at any scale factor of the table, in rounded arithmetic *)
Theorem C143_lookup : forall N u x xp fp rho F,
  rounding N u -> u <= 0.1 -> (3 <= length xp)%nat -> length fp = length xp -> even_grid xp ->
  el xp 1 <= x <= el xp (length xp - 1) -> 0 < el xp 1 ->
  (forall k, (1 <= k)%nat -> (k + 1 < length xp)%nat -> el xp (k + 1) <= rho * (el xp (k + 1) - el xp k)) ->
  (forall k, (1 <= k < length xp)%nat -> Rabs (el fp k) <= F) ->
  (forall k, (1 <= k)%nat -> (k + 1 < length xp)%nat -> Rabs (el fp (k + 1) - el fp k) <= F) ->
  Rabs (finterp1 N x xp fp - interp1 x xp fp) <= lookup_loss u * ((2 * rho + 1) * F).
Proof. exact lookup_rounded. Qed.
Print Assumptions C143_lookup.
Theorem C143_table : forall xp fp xq fq x M e E,
  (3 <= length xp)%nat -> length fp = length xp -> length xq = length xp -> length fq = length xp ->
  incr xp -> incr xq -> 0 < el xp 1 -> 0 <= e < 1 ->
  (forall k, (1 <= k)%nat -> (k + 1 < length xp)%nat -> Rabs (el fp (k + 1) - el fp k) * el xp (k + 1) <= M * (el xp (k + 1) - el xp k)) ->
  (forall k, (1 <= k < length xp)%nat -> Rabs (el xq k - el xp k) <= e * el xp k) ->
  (forall k, (1 <= k < length xp)%nat -> Rabs (el fq k - el fp k) <= E) ->
  el xq 1 <= x <= el xq (length xp - 1) ->
  Rabs (interp1 x xq fq - interp1 x xp fp) <= E + M * (e / (1 - e)).
Proof. exact table_change. Qed.
Print Assumptions C143_table.
Theorem C143_distance : forall N u c tau d e xt t a,
  rounding N u -> u <= 0.1 -> reachable c -> physical c -> 0 < Omega_de c -> de_part u c < 1 ->
  let T := 3 * ln 10 in let h := T / 255 in let q := exp h in
  length xt = 256%nat -> length t = 256%nat -> 0 <= e < 1 -> q * (1 + skew e q) <= 2 * (1 - skew e q) -> 2 * tau < h ->
  (forall i, (i < 256)%nat -> Rabs (el xt i - el (logspace (-3) 0.0 256) i) <= e * el (logspace (-3) 0.0 256) i) ->
  (forall i, (i < 256)%nat -> Rabs (el t i - ln (el (logspace (-3) 0.0 256) i)) <= tau) ->
  exponent_error u (node_loss u tau h T) T d c ->
  el xt 1 <= a <= el xt 255 ->
  Rabs (fdistance N a xt (fchitab N (lift_cosmo c) t) - chi c a) <=
    distance_loss u e q (2 * (exp (table_loss u tau h T d c 256) - 1)) * el (snd (chi_table c (-3) 256)) 0.
Proof. exact chi_default_rounded. Qed.
Print Assumptions C143_distance.
Theorem C143_integral : forall N u c tau d e xt t a,
  rounding N u -> u <= 0.1 -> reachable c -> physical c -> moderate c -> 0 < Omega_de c -> de_part u c < 1 ->
  let T := 3 * ln 10 in let h := T / 255 in let q := exp h in
  length xt = 256%nat -> length t = 256%nat -> 0 <= e < 1 -> q * (1 + skew e q) <= 2 * (1 - skew e q) -> 2 * tau < h ->
  (forall i, (i < 256)%nat -> Rabs (el xt i - el (logspace (-3) 0.0 256) i) <= e * el (logspace (-3) 0.0 256) i) ->
  (forall i, (i < 256)%nat -> Rabs (el t i - ln (el (logspace (-3) 0.0 256) i)) <= tau) ->
  exponent_error u (node_loss u tau h T) T d c ->
  el xt 1 <= a <= el xt 255 -> table_node 256 1 <= a <= 1 ->
  Rabs (fdistance N a xt (fchitab N (lift_cosmo c) t) - RInt (fun x => 299792.458 / (x ^ 2 * H c x)) a 1) <=
    distance_loss u e q (2 * (exp (table_loss u tau h T d c 256) - 1)) * el (snd (chi_table c (-3) 256)) 0 + 1.5 / sqrt (Omega_m c).
Proof. exact chi_integral_rounded. Qed.
Print Assumptions C143_integral.
Theorem C143_planck : forall N u xt t a,
  rounding N u -> u <= 1e-6 -> length xt = 256%nat -> length t = 256%nat ->
  (forall i, (i < 256)%nat -> Rabs (el xt i - el (logspace (-3) 0.0 256) i) <= 20 * u * el (logspace (-3) 0.0 256) i) ->
  (forall i, (i < 256)%nat -> Rabs (el t i - ln (el (logspace (-3) 0.0 256) i)) <= 20 * u) ->
  el xt 1 <= a <= el xt 255 ->
  Rabs (fdistance N a xt (fchitab N (lift_cosmo Planck15) t) - chi Planck15 a) <= 5400 * u * el (snd (chi_table Planck15 (-3) 256)) 0.
Proof. exact planck_chi_rounded. Qed.
Print Assumptions C143_planck.
Example C143_case : let xp := [1; 2; 3; 4.5; 6] in let fp := [5; 3; 2; 1; 0] in
  (3 <= length xp)%nat /\ length fp = length xp /\ even_grid xp /\ el xp 1 <= 2.5 <= el xp (length xp - 1) /\ 0 < el xp 1 /\
  (forall k, (1 <= k)%nat -> (k + 1 < length xp)%nat -> el xp (k + 1) <= 4 * (el xp (k + 1) - el xp k)) /\
  (forall k, (1 <= k < length xp)%nat -> Rabs (el fp k) <= 3) /\
  (forall k, (1 <= k)%nat -> (k + 1 < length xp)%nat -> Rabs (el fp (k + 1) - el fp k) <= 3) /\
  interp1 2.5 xp fp = 2.5.
Proof. exact lookup_case. Qed.
Example C143_case_nodes : length planck_nodes = 256%nat /\
  (forall i, (i < 256)%nat -> Rabs (el planck_nodes i - el (logspace (-3) 0.0 256) i) <= 20 * powerRZ 2 (-24) * el (logspace (-3) 0.0 256) i) /\
  el planck_nodes 1 <= 1 / 2 <= el planck_nodes 255 /\ table_node 256 1 <= 1 / 2 <= 1.
Proof. exact nodes_case. Qed.
Example C143_case_planck : let u := powerRZ 2 (-24) in let q := exp (3 * ln 10 / 255) in
  reachable Planck15 /\ physical Planck15 /\ moderate Planck15 /\ 0 < Omega_de Planck15 /\ de_part u Planck15 < 1 /\
  q * (1 + skew (20 * u) q) <= 2 * (1 - skew (20 * u) q) /\ 2 * (20 * u) < 3 * ln 10 / 255 /\
  exponent_error u (node_loss u (20 * u) (3 * ln 10 / 255) (3 * ln 10)) (3 * ln 10) 0 Planck15.
Proof. exact distance_case. Qed.
(** the programs are the model when the arithmetic is exact *)
Example C143_case_model : forall c lamin n a, fdistance num_R a (logspace lamin 0.0 n) (fchitab num_R (lift_cosmo c) (map ln (logspace lamin 0.0 n))) = clip_lo (interp1 a (fst (chi_table c lamin n)) (snd (chi_table c lamin n))) 0.
Proof. exact fdistance_R. Qed.
