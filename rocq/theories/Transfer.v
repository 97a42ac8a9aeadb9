(** * Model of jax_cosmo/transfer.py: the Eisenstein & Hu transfer function, pointwise in k *)
From Verif Require Import Np Core.

(** np.sinc(x) = sin(pi x)/(pi x), 1 at 0 *)
Definition sinc (x : R) : R := if Req_EM_T x 0 then 1 else sin (PI * x) / (PI * x).

(** transfer.py 47-55 *)
Definition eh_T27sqr : R := (const_tcmb / 2.7) ^ 2.
Definition eh_w_m (c : cosmology) : R := Omega_m c * (_h c) ^ 2.
Definition eh_w_b (c : cosmology) : R := Omega_b c * (_h c) ^ 2.
Definition eh_fb (c : cosmology) : R := Omega_b c / Omega_m c.
Definition eh_fc (c : cosmology) : R := (Omega_m c - Omega_b c) / Omega_m c.
Definition eh_k_eq (c : cosmology) : R := 7.46e-2 * eh_w_m c / eh_T27sqr / _h c.
Definition eh_z_eq (c : cosmology) : R := 2.50e4 * eh_w_m c / eh_T27sqr ^ 2.

(** transfer.py 58-65 *)
Definition eh_z_d (c : cosmology) : R :=
  let w_m := eh_w_m c in
  let b1 := 0.313 * rpow w_m (-0.419) * (1.0 + 0.607 * rpow w_m 0.674) in
  let b2 := 0.238 * rpow w_m 0.223 in
  1291.0 * rpow w_m 0.251 / (1.0 + 0.659 * rpow w_m 0.828) * (1.0 + b1 * rpow (eh_w_b c) b2).

(** transfer.py 68-85 *)
Definition eh_R_d (c : cosmology) : R := 31.5 * eh_w_b c / eh_T27sqr ^ 2 * (1.0e3 / eh_z_d c).
Definition eh_R_eq (c : cosmology) : R := 31.5 * eh_w_b c / eh_T27sqr ^ 2 * (1.0e3 / eh_z_eq c).
Definition eh_sh_d (c : cosmology) : R :=
  2.0 / (3.0 * eh_k_eq c) * sqrt (6.0 / eh_R_eq c)
  * ln ((sqrt (1.0 + eh_R_d c) + sqrt (eh_R_eq c + eh_R_d c)) / (1.0 + sqrt (eh_R_eq c))).
Definition eh_k_silk (c : cosmology) : R :=
  1.6 * rpow (eh_w_b c) 0.52 * rpow (eh_w_m c) 0.73 * (1.0 + rpow (10.4 * eh_w_m c) (-0.95)) / _h c.

(** transfer.py 88-97 *)
Definition eh_alpha_gamma (c : cosmology) : R :=
  1.0 - 0.328 * ln (431.0 * eh_w_m c) * eh_w_b c / eh_w_m c
  + 0.38 * ln (22.3 * eh_w_m c) * (Omega_b c / Omega_m c) ^ 2.
Definition eh_gamma_eff (c : cosmology) (k : R) : R :=
  Omega_m c * _h c *
  (eh_alpha_gamma c + (1.0 - eh_alpha_gamma c) / (1.0 + (0.43 * k * eh_sh_d c) ^ 4)).

(** transfer.py 99-105 (type "eisenhu") *)
Definition eisenhu (c : cosmology) (k : R) : R :=
  let q := k * (const_tcmb / 2.7) ^ 2 / eh_gamma_eff c k in
  let L := ln (2.0 * exp 1.0 + 1.8 * q) in
  let C := 14.2 + 731.0 / (1.0 + 62.5 * q) in
  L / (L + C * q * q).

(** transfer.py 120-126 (T_tilde) *)
Definition eh_T_tilde (c : cosmology) (k1 alpha beta : R) : R :=
  let q := k1 / (13.41 * eh_k_eq c) in
  let L := ln (exp 1.0 + 1.8 * beta * q) in
  let C := 14.2 / alpha + 386.0 / (1.0 + 69.9 * rpow q 1.08) in
  L / (L + C * q * q).

(** transfer.py 111-117 *)
Definition eh_alpha_c (c : cosmology) : R :=
  let w_m := eh_w_m c in
  let a1 := rpow (46.9 * w_m) 0.670 * (1.0 + rpow (32.1 * w_m) (-0.532)) in
  let a2 := rpow (12.0 * w_m) 0.424 * (1.0 + rpow (45.0 * w_m) (-0.582)) in
  rpow a1 (- eh_fb c) * rpow a2 (- (eh_fb c ^ 3)).
Definition eh_beta_c (c : cosmology) : R :=
  let w_m := eh_w_m c in
  let b1 := 0.944 / (1.0 + rpow (458.0 * w_m) (-0.708)) in
  let b2 := rpow (0.395 * w_m) (-0.0266) in
  1.0 / (1.0 + b1 * (rpow (eh_fc c) b2 - 1.0)).

(** transfer.py 129-130 *)
Definition eh_Tc (c : cosmology) (k : R) : R :=
  let f := 1.0 / (1.0 + (k * eh_sh_d c / 5.4) ^ 4) in
  f * eh_T_tilde c k 1.0 (eh_beta_c c) + (1.0 - f) * eh_T_tilde c k (eh_alpha_c c) (eh_beta_c c).

(** transfer.py 134-137, 142 *)
Definition eh_alpha_b (c : cosmology) : R :=
  let y := (1.0 + eh_z_eq c) / (1.0 + eh_z_d c) in
  let x := sqrt (1.0 + y) in
  let G := y * (-6.0 * x + (2.0 + 3.0 * y) * ln ((x + 1.0) / (x - 1.0))) in
  2.07 * eh_k_eq c * eh_sh_d c * rpow (1.0 + eh_R_d c) (-0.75) * G.
Definition eh_beta_b (c : cosmology) : R :=
  0.5 + eh_fb c + (3.0 - 2.0 * eh_fb c) * sqrt ((17.2 * eh_w_m c) ^ 2 + 1.0).

(** transfer.py 139-140 *)
Definition eh_tilde_s (c : cosmology) (k : R) : R :=
  let beta_node := 8.41 * rpow (eh_w_m c) 0.435 in
  eh_sh_d c / rpow (1.0 + (beta_node / (k * eh_sh_d c)) ^ 3) (1.0 / 3.0).

(** transfer.py 145-150 *)
Definition eh_Tb (c : cosmology) (k : R) : R :=
  (eh_T_tilde c k 1.0 1.0 / (1.0 + (k * eh_sh_d c / 5.2) ^ 2)
   + eh_alpha_b c / (1.0 + (eh_beta_b c / (k * eh_sh_d c)) ^ 3) * exp (- rpow (k / eh_k_silk c) 1.4))
  * sinc (k * eh_tilde_s c k / PI).

(** transfer.py 107-153 (type "eisenhu_osc", the default) *)
Definition eisenhu_osc (c : cosmology) (k : R) : R := eh_fb c * eh_Tb c k + eh_fc c * eh_Tc c k.

(** transfer.py 10-156 *)
Definition Eisenstein_Hu (c : cosmology) (k : R) (type : string) : res R :=
  if String.eqb type "eisenhu" then Ok (eisenhu c k)
  else if String.eqb type "eisenhu_osc" then Ok (eisenhu_osc c k)
  else Err NotImplementedError.
