(** * C141, C142: rounding errors of sums, Simpson integrals, expansion rate and tabulated distances *)
From Coq Require Import Reals Lra Lia ZArith List.
From Coquelicot Require Import Coquelicot.
From Verif Require Import Np Core Integrate IntegrateSpec Background BgSpec Redshift Ad AdSpec Fp FpSpec.
From Verif Require Import FpSums FpTable FpFinal ExFp.
Import ListNotations.
Local Open Scope R_scope.
Opaque chi_table logspace.


(** C141  sums, Simpson integrals and normalised redshift distributions in rounded arithmetic, whatever the order of the additions *)
Theorem C141_sum : forall N u,
  rounding N u -> forall k l x, summed N k l x -> Rabs (x - vsum l) <= ((1 + u) ^ k - 1) * vsum (map Rabs l).
Proof. exact sum_rounded. Qed.
Print Assumptions C141_sum.
Theorem C141_simps : forall N u f a b n k y s v m g,
  rounding N u -> a < b -> (2 <= n)%nat -> length y = (n + 1)%nat -> fsimps N k y a b n s ->
  simps f a b n = Ok v -> simps (fun x => Rabs (f x)) a b n = Ok m -> 1 <= g ->
  (forall i, (i <= n)%nat -> Rabs (el y i - f (el (linspace a b (n + 1)) i)) <= (g - 1) * Rabs (f (el (linspace a b (n + 1)) i))) ->
  Rabs (s - v) <= (g * (/ (1 - u)) ^ (k + 8) - 1) * m.
Proof. exact simps_rounded_code. Qed.
Print Assumptions C141_simps.
Theorem C141_density : forall N u d k y s z p r,
  rounding N u -> 0 < nz_zmax d -> nz_norm d = None ->
  (forall x, 0 <= pz_fn d x) -> 0 < nz_simps_norm d -> length y = 257%nat -> fsimps N k y 0 (nz_zmax d) 256 s -> 0 <= r < 1 ->
  (forall i, (i <= 256)%nat -> Rabs (el y i - pz_fn d (el (linspace 0 (nz_zmax d) 257) i)) <= r * pz_fn d (el (linspace 0 (nz_zmax d) 257) i)) ->
  Rabs (p - pz_fn d z) <= r * pz_fn d z ->
  Rabs (ndiv N p s - pz d z) <= ((/ (1 - r)) ^ 2 * (/ (1 - u)) ^ (k + 9) - 1) * pz d z.
Proof. exact density_rounded. Qed.
Print Assumptions C141_density.
Example C141_case : rounding (num_bin 24) (powerRZ 2 (-24)) /\ 0 < powerRZ 2 (-24) <= 1e-6.
Proof. exact single. Qed.
Example C141_case_inexact : nadd (num_bin 24) 1 (powerRZ 2 (-25)) <> 1 + powerRZ 2 (-25).
Proof. exact single_rounds. Qed.
Example C141_case_sum : forall N : num R, summed N 2 [1; 2; 3; 4] (nadd N (nadd N 1 2) (nadd N 3 4)).
Proof. exact pairwise. Qed.
Example C141_case_simps : let N := num_bin 24 in exists s, fsimps N 1 [0; 1; 4] 0 2 2 s /\ simps (fun x => x ^ 2) 0 2 2 = Ok (8 / 3) /\
  (forall i, (i <= 2)%nat -> el [0; 1; 4] i = (fun x => x ^ 2) (el (linspace 0 2 3) i)).
Proof. exact simps_case. Qed.
Example C141_case_density : let d := survey_bin in 0 < nz_zmax d /\ nz_norm d = None /\ (forall x, 0 <= pz_fn d x) /\ 0 < nz_simps_norm d /\ length bin_samples = 257%nat /\
  (exists k s, fsimps (num_bin 24) k bin_samples 0 (nz_zmax d) 256 s) /\ 0 <= powerRZ 2 (-24) < 1 /\
  (forall i, (i <= 256)%nat -> Rabs (el bin_samples i - pz_fn d (el (linspace 0 (nz_zmax d) 257) i)) <= powerRZ 2 (-24) * pz_fn d (el (linspace 0 (nz_zmax d) 257) i)) /\
  0 < pz_fn d 1.
Proof. exact density_case. Qed.


(** C142  expansion rate and tabulated distances in rounded arithmetic *)
Theorem C142_Esqr : forall N u c T d a,
  rounding N u -> 0 < Omega_m c -> 0 <= Omega_k c -> 0 < Omega_de c -> de_part u c < 1 ->
  exponent_error u 0 T d c -> exp (- T) <= a <= 1 ->
  Rabs (gEsqr N (lift_cosmo c) a - Esqr c a) <= (exp (Esqr_loss u 0 d c) - 1) * Esqr c a.
Proof. exact Esqr_rounded. Qed.
Print Assumptions C142_Esqr.
Theorem C142_H : forall N u c T d a,
  rounding N u -> 0 < Omega_m c -> 0 <= Omega_k c -> 0 < Omega_de c -> de_part u c < 1 ->
  exponent_error u 0 T d c -> exp (- T) <= a <= 1 ->
  Rabs (gH N (lift_cosmo c) a - H c a) <= (exp (Esqr_loss u 0 d c / 2 + 3 * loss u) - 1) * H c a.
Proof. exact H_rounded. Qed.
Print Assumptions C142_H.
Theorem C142_table : forall N u c lamin tau d n t,
  rounding N u -> 0 < Omega_m c -> 0 <= Omega_k c -> 0 < Omega_de c -> de_part u c < 1 ->
  lamin < 0 -> (2 <= n)%nat -> length t = n ->
  let T := - lamin * ln 10 in let h := T / INR (n - 1) in
  2 * tau < h -> (forall i, (i < n)%nat -> Rabs (el t i - ln (el (logspace lamin 0.0 n) i)) <= tau) ->
  exponent_error u (node_loss u tau h T) T d c ->
  forall i, (i < n)%nat ->
  Rabs (el (fchitab N (lift_cosmo c) t) i - el (snd (chi_table c lamin n)) i) <= 2 * (exp (table_loss u tau h T d c n) - 1) * el (snd (chi_table c lamin n)) 0.
Proof. exact chitab_rounded. Qed.
Print Assumptions C142_table.
Theorem C142_planck : forall N u t,
  rounding N u -> u <= 1e-6 -> length t = 256%nat ->
  (forall i, (i < 256)%nat -> Rabs (el t i - ln (el (logspace (-3) 0.0 256) i)) <= 20 * u) ->
  forall i, (i < 256)%nat ->
  Rabs (el (fchitab N (lift_cosmo Planck15) t) i - el (snd (chi_table Planck15 (-3) 256)) i) <= 4100 * u * el (snd (chi_table Planck15 (-3) 256)) 0.
Proof. exact planck_rounded. Qed.
Print Assumptions C142_planck.
Theorem C142_integral : forall N u c tau t,
  rounding N u -> reachable c -> physical c -> 0 < Omega_de c -> constant_de c -> de_part u c < 1 -> length t = 256%nat ->
  let T := 3 * ln 10 in let h := T / 255 in
  2 * tau < h -> (forall i, (i < 256)%nat -> Rabs (el t i - ln (el (logspace (-3) 0.0 256) i)) <= tau) ->
  forall i, (1 <= i < 256)%nat ->
  Rabs (el (fchitab N (lift_cosmo c) t) i - RInt (fun x => 299792.458 / (x ^ 2 * H c x)) (table_node 256 i) 1) <=
    2 * (exp (table_loss u tau h T 0 c 256) - 1) * el (snd (chi_table c (-3) 256)) 0 + 0.01 / sqrt (Omega_m c).
Proof. exact distance_rounded. Qed.
Print Assumptions C142_integral.
Example C142_case : let u := powerRZ 2 (-24) in
  (0 < Omega_m w_universe /\ 0 < Omega_k w_universe /\ 0 < Omega_de w_universe /\ de_part u w_universe < 1 /\ ~ constant_de w_universe /\ exponent_error u 0 7 (de_exponent u 0 7 w_universe) w_universe) /\
  (reachable Planck15 /\ physical Planck15 /\ 0 < Omega_de Planck15 /\ constant_de Planck15 /\ de_part u Planck15 < 1 /\ 2 * (20 * u) < 3 * ln 10 / 255 /\ exp (-7) <= 1 / 2 <= 1).
Proof. exact expansion_case. Qed.
Example C142_case_times : length planck_times = 256%nat /\ forall i, (i < 256)%nat -> Rabs (el planck_times i - ln (el (logspace (-3) 0.0 256) i)) <= 20 * powerRZ 2 (-24).
Proof. exact times_case. Qed.

(** the programs of these theorems are the model when the arithmetic is exact *)
Example C142_case_model : forall c lamin n, fchitab num_R (lift_cosmo c) (map ln (logspace lamin 0.0 n)) = snd (chi_table c lamin n).
Proof. exact fchitab_R. Qed.
