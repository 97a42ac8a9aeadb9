(** * Rounded arithmetic

    Every elementary operation returns its exact result up to a relative error u: the standard model of floating-point
    arithmetic, without underflow and overflow.  Nothing else is assumed of the operations: they need not be
    monotone, commutative or deterministic functions of the exact result. *)
From Coq Require Import Reals List.
From Verif Require Import Np Core OdeSpec Background BgSpec Ad Fp.
Local Open Scope R_scope.

Definition near (u x' x : R) : Prop := Rabs (x' - x) <= u * Rabs x.

Class rounding (N : num R) (u : R) : Prop := {
  r_u : 0 <= u < 1;
  r_cst x : near u (cst N x) x;
  r_int z : (Z.abs z <= 256)%Z -> cst N (IZR z) = IZR z;       (* small integers are represented *)
  r_add x y : near u (nadd N x y) (x + y);
  r_sub x y : near u (nsub N x y) (x - y);
  r_mul x y : near u (nmul N x y) (x * y);
  r_div x y : y <> 0 -> near u (ndiv N x y) (x / y);
  r_exp x : near u (nexp N x) (exp x);
  r_ln x : 0 < x -> near u (nln N x) (ln x);
  r_sqrt x : 0 <= x -> near u (nsqrt N x) (sqrt x);
  r_ipow x z : x <> 0 -> near u (nipow N x z) (ipow x z) }.

(** a relative error in logarithms: a factor at least 1 - r is one of at least exp (- loss r) *)
Definition loss (r : R) : R := - ln (1 - r).

(** dark energy is what is left of 1: the subtractions lose accuracy if little is left *)
Definition de_part (u : R) (c : cosmology) : R := ((1 + u) ^ 3 - 1) * (1 + Rabs (Omega_k c) + Rabs (Omega_m c)) / Omega_de c.
(** error of the exponent f_de of the dark-energy density, for a scale factor between exp (-T) and 1 known up to a factor
    exp k; none for a cosmological constant *)
Definition constant_de (c : cosmology) : Prop := _w0 c = -1 /\ _wa c = 0.
Definition de_exponent (u k T : R) (c : cosmology) : R :=
  ((1 + u) ^ 6 * exp k - 1) * (3 * (1 + Rabs (_w0 c) + Rabs (_wa c)) * (T + 1) + 3 * Rabs (_wa c) * 2).
Definition exponent_error (u k T d : R) (c : cosmology) : Prop := d = de_exponent u k T c \/ (constant_de c /\ d = 0).
(** E^2 at a scale factor known up to a factor exp k, when the exponent f_de has the error d *)
Definition Esqr_loss (u k d : R) (c : cosmology) : R := 3 * k + loss (de_part u c) + d + 5 * loss u.

(** the logarithmic grid of the distance table: spacing h, largest entry T; tau bounds the error of each time *)
Definition step_loss (u tau h : R) : R := loss (2 * tau / h) + loss u.
Definition mid_error (u tau h T : R) : R := (1 + u) * (tau + (exp (step_loss u tau h + loss u) - 1) * (h / 2)) + u * T.
Definition node_loss (u tau h T : R) : R := mid_error u tau h T + loss u.
Definition table_loss (u tau h T d : R) (c : cosmology) (steps : nat) : R :=
  let k := node_loss u tau h T in
  3 * k + Esqr_loss u k d c / 2 + step_loss u tau h + (INR steps + 15) * loss u.

(** ** table lookup *)
(** neighbouring gaps of the grid are within a factor 2 of each other *)
Definition even_grid (xp : list R) : Prop := incr xp /\
  forall k, (k + 2 < length xp)%nat ->
    let g0 := el xp (k + 1) - el xp k in let g1 := el xp (k + 2) - el xp (k + 1) in g0 <= 2 * g1 /\ g1 <= 2 * g0.
Definition lookup_loss (u : R) : R := (1 + u) ^ 5 / (1 - u) - 1.
(** a grid whose nodes grow by the factor q and are known up to a relative error e: the relative error of its gaps, and
    how many gaps a node is at most *)
Definition skew (e q : R) : R := e * (q + 1) / (q - 1).
Definition span (e q : R) : R := q * (1 + e) / ((q - 1) * (1 - skew e q)).
(** distance looked up in a table of relative error E *)
Definition distance_loss (u e q E : R) : R := E + lookup_loss u * ((2 * span e q + 1) * (1 + 2 * E)) + q / (q - 1) * (e / (1 - e)).
