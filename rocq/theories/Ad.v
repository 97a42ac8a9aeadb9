(** * Forward-mode differentiation of background.py, transfer.py and power.py

    jax.jvp runs a program on pairs (value, tangent); reverse mode (jax.grad) transposes the same linear maps and gives the
    same numbers.  The programs below transcribe the code once more, over an arbitrary type of numbers; at [num_R] they are
    the model used everywhere else (proved in AdProofs.v), at [num_dual] they are what jax.jvp computes.

    Trusted (JAX, not in /repo): the rules of [num_dual], from jax/_src/lax/lax.py and jax/numpy; comparisons, argmin, sign
    and integer conversions see values only; lax.scan and lax.switch differentiate their bodies, lax.switch with the index
    held fixed.  The object is one that jax built for the occasion (Cosmology(...) or tree_unflatten inside the
    differentiated function), so its caches start empty. *)
From Verif Require Import Np Core Ode Interp Integrate Background Transfer Power GradSpec.

Record num (A : Type) := Num {
  cst : R -> A;                   (* an array that does not depend on the parameters *)
  val : A -> R;                   (* what comparisons see *)
  nadd : A -> A -> A; nsub : A -> A -> A; nmul : A -> A -> A; ndiv : A -> A -> A; nneg : A -> A;
  nexp : A -> A; nln : A -> A; nsqrt : A -> A; nsin : A -> A; ncos : A -> A; nsinh : A -> A; nabs : A -> A;
  nipow : A -> Z -> A;            (* lax.integer_pow *)
  npow : A -> A -> A;             (* lax.pow *)
  nmax : A -> A -> A; nmin : A -> A -> A }.
Arguments cst {A}. Arguments val {A}. Arguments nadd {A}. Arguments nsub {A}. Arguments nmul {A}. Arguments ndiv {A}. Arguments nneg {A}.
Arguments nexp {A}. Arguments nln {A}. Arguments nsqrt {A}. Arguments nsin {A}. Arguments ncos {A}. Arguments nsinh {A}. Arguments nabs {A}.
Arguments nipow {A}. Arguments npow {A}. Arguments nmax {A}. Arguments nmin {A}.

Definition ipow (x : R) (z : Z) : R :=
  match z with Z0 => 1 | Zpos p => x ^ Pos.to_nat p | Zneg p => / x ^ Pos.to_nat p end.
Definition num_R : num R :=
  Num R (fun x => x) (fun x => x) Rplus Rminus Rmult Rdiv Ropp exp ln sqrt sin cos sinh Rabs ipow rpow Rmax Rmin.

(** (value, tangent) *)
Definition dual : Type := R * R.
(** jvp of max and min: the tangent of the larger (smaller) argument, the average at a tie *)
Definition sel3 (x y tx ty : R) : R := if Rlt_dec y x then tx else if Rlt_dec x y then ty else (tx + ty) / 2.
Definition num_dual : num dual :=
  Num dual (fun x => (x, 0)) fst
    (fun x y => (fst x + fst y, snd x + snd y))
    (fun x y => (fst x - fst y, snd x - snd y))
    (fun x y => (fst x * fst y, snd x * fst y + fst x * snd y))
    (fun x y => (fst x / fst y, snd x / fst y - snd y * fst x / fst y ^ 2))
    (fun x => (- fst x, - snd x))
    (fun x => (exp (fst x), snd x * exp (fst x)))
    (fun x => (ln (fst x), snd x / fst x))
    (fun x => (sqrt (fst x), snd x * (0.5 / sqrt (fst x))))
    (fun x => (sin (fst x), snd x * cos (fst x)))
    (fun x => (cos (fst x), - (snd x * sin (fst x))))
    (fun x => (sinh (fst x), snd x * cosh (fst x)))
    (fun x => (Rabs (fst x), snd x * Rsgn (fst x)))
    (fun x z => (ipow (fst x) z, snd x * (IZR z * ipow (fst x) (z - 1))))
    (fun x y => (rpow (fst x) (fst y), snd x * (fst y * rpow (fst x) (fst y - 1)) + snd y * (ln (fst x) * rpow (fst x) (fst y))))
    (fun x y => (Rmax (fst x) (fst y), sel3 (fst x) (fst y) (snd x) (snd y)))
    (fun x y => (Rmin (fst x) (fst y), sel3 (- fst x) (- fst y) (snd x) (snd y))).

(** core.py 14-65: a Cosmology whose parameters are numbers of type A *)
Record gcosmo (A : Type) := GCosmo {
  gOmega_c : A; gOmega_b : A; gh : A; gn_s : A; gsigma8 : A; gOmega_k : A; gw0 : A; gwa : A; ggamma : option A }.
Arguments gOmega_c {A}. Arguments gOmega_b {A}. Arguments gh {A}. Arguments gn_s {A}. Arguments gsigma8 {A}. Arguments gOmega_k {A}.
Arguments gw0 {A}. Arguments gwa {A}. Arguments ggamma {A}. Arguments GCosmo {A}.

Declare Scope ad_scope.
Delimit Scope ad_scope with ad.
Section Programs.
Context {A : Type} (N : num A).
Local Infix "+" := (nadd N) : ad_scope.
Local Infix "-" := (nsub N) : ad_scope.
Local Infix "*" := (nmul N) : ad_scope.
Local Infix "/" := (ndiv N) : ad_scope.
Local Notation "- x" := (nneg N x) : ad_scope.
Local Notation "x ^ z" := (nipow N x z) : ad_scope.
Local Notation "' x" := (cst N x%R) (at level 1, format "' x") : ad_scope.
Local Open Scope ad_scope.

(** core.py 146-175 *)
Definition gOmega_m (c : gcosmo A) : A := gOmega_b c + gOmega_c c.
Definition gOmega (c : gcosmo A) : A := '1.0 - gOmega_k c.
Definition gOmega_de (c : gcosmo A) : A := gOmega c - gOmega_m c.
Definition gcurv (c : gcosmo A) : Z := (- isign (val N (gOmega_k c)))%Z.
Definition gsqrtk (c : gcosmo A) : A := nsqrt N (nabs N (gOmega_k c)).

(** background.py 25-196 *)
Definition gw (c : gcosmo A) (a : A) : A := gw0 c + ('1.0 - a) * gwa c.
Definition gf_de (c : gcosmo A) (a : A) : A := '(-3.0) * ('1.0 + gw0 c + gwa c) * nln N a + '3.0 * gwa c * (a - '1.0).
Definition gEsqr (c : gcosmo A) (a : A) : A :=
  gOmega_m c * (a ^ (-3)) + gOmega_k c * (a ^ (-2)) + gOmega_de c * nexp N (gf_de c a).
Definition gH (c : gcosmo A) (a : A) : A := 'const_H0 * nsqrt N (gEsqr c a).
Definition gOmega_m_a (c : gcosmo A) (a : A) : A := gOmega_m c * (a ^ (-3)) / gEsqr c a.
Definition gOmega_de_a (c : gcosmo A) (a : A) : A := gOmega_de c * nexp N (gf_de c a) / gEsqr c a.
(** background.py 270-294 *)
Definition gdchioverda (c : gcosmo A) (a : A) : A := 'const_rh / ((a ^ 2) * nsqrt N (gEsqr c a)).

(** interpolate.py 15-40 *)
Definition ginterp1 (x : A) (xp fp : list A) : A :=
  let ind := Z.of_nat (argmin (map (fun p => ((val N x - val N p) ^ 2)%R) xp)) in
  let ind := clipZ ind 1 (Z.of_nat (length xp) - 2) in
  let xi := getZ '0 xp ind in
  let s := isign (clip (val N x) (val N (getZ '0 xp 1)) (val N (getZ '0 xp (-2))) - val N xi)%R in
  let j := (ind + copysign1 s)%Z in
  let a := (getZ '0 fp j - getZ '0 fp ind) / (getZ '0 xp j - getZ '0 xp ind) in
  let b := getZ '0 fp ind - a * getZ '0 xp ind in
  a * x + b.

(** background.py 199-242 *)
Definition glast (v : list A) : A := getZ '0 v (-1).
Definition gchi_table (c : gcosmo A) (log10_amin : R) (steps : nat) : list A * list A :=
  let atab := logspace log10_amin 0.0 steps in
  let dchioverdlna := fun (y : A) (x : R) => let xa := nexp N 'x in gdchioverda c xa * xa in
  let chitab := odeint (nadd N) (fun h y => 'h * y) dchioverdlna '0.0 (map ln atab) in
  (map (cst N) atab, map (fun x => glast chitab - x) chitab).
Definition gchi (c : gcosmo A) (a : A) : A :=
  let '(atab, chitab) := gchi_table c (-3) 256 in nmax N (ginterp1 a atab chitab) '0.0.
(** background.py 245-267 *)
Definition ga_of_chi (c : gcosmo A) (x : A) : A :=
  let '(atab, chitab) := gchi_table c (-3) 256 in ginterp1 x chitab atab.
(** background.py 297-344 *)
Definition gf_k (c : gcosmo A) (a : A) : A :=
  let x := gchi c a in
  match clipZ (gcurv c + 1) 0 2 with
  | 0%Z => 'const_rh / gsqrtk c * nsinh N (gsqrtk c * x / 'const_rh)
  | 1%Z => x
  | _ => 'const_rh / gsqrtk c * nsin N (gsqrtk c * x / 'const_rh)
  end.
(** background.py 347-368 *)
Definition gd_A (c : gcosmo A) (a : A) : A := a * gf_k c a.

(** background.py 463-484 *)
Definition gD_derivs (c : gcosmo A) (y : A * A) (x : R) : A * A :=
  let q := ('2.0 - '0.5 * (gOmega_m_a c 'x + ('1.0 + '3.0 * gw c 'x) * gOmega_de_a c 'x)) / 'x in
  let r := '1.5 * gOmega_m_a c 'x / 'x / 'x in
  (snd y, (- q) * snd y + r * fst y).
Definition ggrowth_ODE (c : gcosmo A) (log10_amin : R) (steps : nat) : list A * list A * list A :=
  let atab := logspace log10_amin 0.0 steps in
  let padd := fun u v : A * A => (fst u + fst v, snd u + snd v) in
  let pscl := fun (h : R) (u : A * A) => ('h * fst u, 'h * snd u) in
  let y := odeint padd pscl (gD_derivs c) ('(el atab 0), '1.0) atab in
  let y1 := map fst y in
  let gtab := map (fun v => v / glast y1) y1 in
  let ftab := map2 (ndiv N) (map2 (nmul N) (map (fun v => v / glast y1) (map snd y)) (map (cst N) atab)) gtab in
  (map (cst N) atab, gtab, ftab).
(** background.py 534-547, 551-582 *)
Definition grate_gamma (c : gcosmo A) (g : A) (a : A) : A := npow N (gOmega_m_a c a) g.
Definition ggrowth_gamma (c : gcosmo A) (g : A) (log10_amin : R) (steps : nat) : list A * list A :=
  let atab := logspace log10_amin 0.0 steps in
  let integrand := fun (y : A) (loga : R) => grate_gamma c g (nexp N 'loga) in
  let gtab := map (nexp N) (odeint (nadd N) (fun h y => 'h * y) integrand '(ln (el atab 0)) (map ln atab)) in
  (map (cst N) atab, map (fun v => v / glast gtab) gtab).
(** background.py 371-440, 443-548 *)
Definition gclip01 (x : A) : A := nmin N (nmax N x '0.0) '1.0.
Definition gD (c : gcosmo A) (a : A) : A :=
  match ggamma c with
  | Some g => let '(atab, gtab) := ggrowth_gamma c g (-3) 128 in gclip01 (ginterp1 a atab gtab)
  | None => let '(atab, gtab, _) := ggrowth_ODE c (-3) 128 in gclip01 (ginterp1 a atab gtab)
  end.
Definition gf (c : gcosmo A) (a : A) : A :=
  match ggamma c with
  | Some g => grate_gamma c g a
  | None => let '(atab, _, ftab) := ggrowth_ODE c (-3) 128 in ginterp1 a atab ftab
  end.
End Programs.

(** jax.jvp(f, (cosmo, a), (direction, da)) *)
Definition lift_cosmo (c : cosmology) : gcosmo R :=
  GCosmo (_Omega_c c) (_Omega_b c) (_h c) (_n_s c) (_sigma8 c) (_Omega_k c) (_w0 c) (_wa c) (_gamma c).
Definition dual_cosmo (c : cosmology) (d : direction) : gcosmo dual :=
  GCosmo (_Omega_c c, dOmega_c d) (_Omega_b c, dOmega_b d) (_h c, dh d) (_n_s c, dn_s d) (_sigma8 c, dsigma8 d) (_Omega_k c, dOmega_k d)
    (_w0 c, dw0 d) (_wa c, dwa d) (match _gamma c with Some g => Some (g, 0) | None => None end).
