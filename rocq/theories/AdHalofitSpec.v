(** * Specification: where halofit is differentiable *)
From Coq Require Import String.
From Verif Require Import Np Core Background Transfer Power IntegrateSpec HalofitScaleSpec GradSpec Ad AdSpec.
Local Open Scope R_scope.

(** jax.jvp of a function of the line parameter that returns a number: [G], run on dual numbers, returns its value and its derivative *)
Definition jvp_number (F : R -> res R) (G : res dual) : Prop :=
  exists f y, (forall t, F t = Ok (f t)) /\ G = Ok y /\ tangent_of f 0 y.

(** i is the one index whose variance is nearest to 1 *)
Definition nearest_one (v : nat -> R) (i : nat) : Prop :=
  (i < 256)%nat /\ forall j, (j < 256)%nat -> j <> i -> Rabs (1 - v i) < Rabs (1 - v j).
(** the cell of the search table that answers: the one before the nearest index, except at the ends *)
Definition search_cell (i : nat) : nat := if Nat.ltb 253 i then 254%nat else (i - 1)%nat.
(** the radius where the straight line through that cell (in ln r) reaches variance 1 *)
Definition found_radius (v : nat -> R) (i : nat) : R :=
  let m := search_cell i in
  let x0 := ln (search_radius m) in let x1 := ln (search_radius (m + 1)) in
  exp (x0 + (x1 - x0) / (v (m + 1)%nat - v m) * (1 - v m)).
(** the search of the non-linear scale: one nearest table entry, and the radius found is not exactly at the floor of 1e-6 Mpc/h *)
Definition scale_found (c : cosmology) (a : R) (T : transfer) : Prop :=
  let v := fun i => smoothed_variance (fun k => linear_matter_power c k 1 T) (D c a) (search_radius i) in
  exists i, nearest_one v i /\ found_radius v i <> 1e-6.
(** no kink and no vanishing denominator in the fitting formulae *)
Definition formula_smooth (c : cosmology) (k a : R) (T : transfer) (prescription : string) : Prop :=
  let '(knl, n, C) := halofit_parameters c a T in
  (prescription = "takahashi2012"%string /\ 6.0835 + 1.3373 * n - 0.1959 * n ^ 2 - 5.5274 * C <> 0) \/
  (prescription = "smith2003"%string /\ Omega_m_a c a <> 1 /\
   1 + (1.3884 + 0.37 * n - 0.1452 * n ^ 2) * (k ^ 3 * linear_matter_power c k a T / (2 * PI ^ 2)) <> 0).
