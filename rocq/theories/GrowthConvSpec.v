(** * Specification of the linear growth equation and of its closed solution for a cosmological constant *)
From Coquelicot Require Import Coquelicot.
From Verif Require Import Np Core Background.

(** D'' + (3/a + E'/E) D' = (3/2) Omega_m(a) D / a^2, written with E^2; D and its derivative at the first scale factor
    are those of a matter-dominated universe *)
Definition growth_solution (c : cosmology) (a0 : R) (u v : R -> R) : Prop :=
  u a0 = a0 /\ v a0 = 1 /\ forall a, a0 <= a <= 1 ->
    is_derive u a (v a) /\
    is_derive v a (- (3 / a + Derive (Esqr c) a / (2 * Esqr c a)) * v a + 3 / 2 * Omega_m_a c a / a ^ 2 * u a).

(** Heath's integral: E(a) and E(a) times the integral of 1/(a E)^3 solve the equation when w = -1 *)
Definition E_of (c : cosmology) (a : R) : R := sqrt (Esqr c a).
Definition heath_integral (c : cosmology) (a0 a : R) : R := RInt (fun x => / (x * E_of c x) ^ 3) a0 a.
Definition heath (c : cosmology) (a0 a : R) : R :=
  E_of c a * (a0 / E_of c a0 + (1 - a0 * Derive (E_of c) a0 / E_of c a0) * (a0 ^ 3 * Esqr c a0) * heath_integral c a0 a).
