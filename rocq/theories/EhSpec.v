(** * Specification: the fitting formulae of Eisenstein & Hu (1998) in physical units

    Wavenumbers in 1/Mpc, lengths in Mpc; [om] = Omega_m h^2, [ob] = Omega_b h^2, [th] = T_cmb / 2.7 K.  Equation numbers
    are those of the paper. *)
From Verif Require Import Np.

Section EisensteinHu98.
Variables om ob th : R.
Let pow := Rpower.

Definition EH_k_eq : R := 0.0746 * om / th ^ 2.                                          (* (3) *)
Definition EH_z_eq : R := 25000 * om / th ^ 4.                                           (* (2) *)
Definition EH_z_d : R :=                                                                 (* (4) *)
  let b1 := 0.313 * pow om (-0.419) * (1 + 0.607 * pow om 0.674) in
  let b2 := 0.238 * pow om 0.223 in
  1291 * pow om 0.251 / (1 + 0.659 * pow om 0.828) * (1 + b1 * pow ob b2).
Definition EH_R (z : R) : R := 31.5 * ob / th ^ 4 * (1000 / z).                          (* (5) *)
Definition EH_s : R :=                                                                   (* (6) *)
  2 / (3 * EH_k_eq) * sqrt (6 / EH_R EH_z_eq) *
  ln ((sqrt (1 + EH_R EH_z_d) + sqrt (EH_R EH_z_d + EH_R EH_z_eq)) / (1 + sqrt (EH_R EH_z_eq))).
Definition EH_k_silk : R := 1.6 * pow ob 0.52 * pow om 0.73 * (1 + pow (10.4 * om) (-0.95)).   (* (7) *)

(** cold dark matter: (10)-(12), (17)-(20) *)
Definition EH_q (k : R) : R := k / (13.41 * EH_k_eq).
Definition EH_T0 (k al be : R) : R :=
  let q := EH_q k in
  let l := ln (exp 1 + 1.8 * be * q) in
  l / (l + (14.2 / al + 386 / (1 + 69.9 * pow q 1.08)) * q ^ 2).
Definition EH_alpha_c : R :=
  let a1 := pow (46.9 * om) 0.670 * (1 + pow (32.1 * om) (-0.532)) in
  let a2 := pow (12.0 * om) 0.424 * (1 + pow (45.0 * om) (-0.582)) in
  pow a1 (- (ob / om)) * pow a2 (- ((ob / om) ^ 3)).
Definition EH_beta_c : R :=
  let b1 := 0.944 / (1 + pow (458 * om) (-0.708)) in
  let b2 := pow (0.395 * om) (-0.0266) in
  / (1 + b1 * (pow ((om - ob) / om) b2 - 1)).
Definition EH_Tc (k : R) : R :=
  let f := / (1 + (k * EH_s / 5.4) ^ 4) in
  f * EH_T0 k 1 EH_beta_c + (1 - f) * EH_T0 k EH_alpha_c EH_beta_c.

(** baryons: (13)-(15), (21)-(24) *)
Definition EH_G (y : R) : R := y * (-6 * sqrt (1 + y) + (2 + 3 * y) * ln ((sqrt (1 + y) + 1) / (sqrt (1 + y) - 1))).
Definition EH_alpha_b : R := 2.07 * EH_k_eq * EH_s * pow (1 + EH_R EH_z_d) (-0.75) * EH_G ((1 + EH_z_eq) / (1 + EH_z_d)).
Definition EH_beta_b : R := 0.5 + ob / om + (3 - 2 * (ob / om)) * sqrt ((17.2 * om) ^ 2 + 1).
Definition EH_beta_node : R := 8.41 * pow om 0.435.
Definition EH_s_tilde (k : R) : R := EH_s / pow (1 + (EH_beta_node / (k * EH_s)) ^ 3) (1 / 3).
(** spherical Bessel function j_0 *)
Definition j0 (x : R) : R := sin x / x.
Definition EH_Tb (k : R) : R :=
  (EH_T0 k 1 1 / (1 + (k * EH_s / 5.2) ^ 2) +
   EH_alpha_b / (1 + (EH_beta_b / (k * EH_s)) ^ 3) * exp (- pow (k / EH_k_silk) 1.4)) * j0 (k * EH_s_tilde k).
(** (8), (16) *)
Definition EH_T (k : R) : R := ob / om * EH_Tb k + (om - ob) / om * EH_Tc k.

(** without oscillations: (28)-(31); Gamma_eff times h *)
Definition EH_alpha_Gamma : R := 1 - 0.328 * ln (431 * om) * (ob / om) + 0.38 * ln (22.3 * om) * (ob / om) ^ 2.
Definition EH_Gamma_h (k : R) : R := om * (EH_alpha_Gamma + (1 - EH_alpha_Gamma) / (1 + (0.43 * k * EH_s) ^ 4)).
Definition EH_T_nowiggle (k : R) : R :=
  let q := k * th ^ 2 / EH_Gamma_h k in
  let l := ln (2 * exp 1 + 1.8 * q) in
  l / (l + (14.2 + 731 / (1 + 62.5 * q)) * q ^ 2).
End EisensteinHu98.
