(** * Forward-mode differentiation over numbers with infinities and NaN

    The numbers of [num_dual] in Ad.v are exact and total: 0 ** -1 and x / 0 have a value there.  Here a number is what jax.jvp
    carries in floating point, up to rounding: a value that may be infinite or NaN, and a tangent that may be as well, or that is
    the symbolic zero ([None]) jax gives to arrays that do not depend on the differentiated parameters; rules run only for
    arguments with a tangent.  All zeros are positive zeros.

    Trusted: the rules of jax/_src/lax/lax.py for add, sub, mul, div, neg, exp, log, sqrt, sin, cos, sinh, abs, integer_pow, pow,
    max and min. *)
From Verif Require Import Np Ad SparseX HalofitX.

Definition xdual : Type := XR * option XR.
(** tangents of a sum of two terms *)
Definition tplus (u v : option XR) : option XR :=
  match u, v with Some a, Some b => Some (xadd a b) | Some a, None => Some a | None, v => v end.
(** the tangent times a coefficient *)
Definition ttimes (u : option XR) (k : XR) : option XR := option_map (fun a => xmul a k) u.
Definition xfun (f : R -> R) (x : XR) : XR := match x with Fin a => Fin (f a) | _ => NaN end.
Definition xsqrt (x : XR) : XR := match x with Fin a => if Rlt_dec a 0 then NaN else Fin (sqrt a) | PInf => PInf | _ => NaN end.
Definition xsinh (x : XR) : XR := match x with Fin a => Fin (sinh a) | y => y end.
Definition xcosh (x : XR) : XR := match x with Fin a => Fin (cosh a) | NaN => NaN | _ => PInf end.
(** lax.integer_pow *)
Fixpoint xpow_nat (x : XR) (n : nat) : XR := match n with O => Fin 1 | S n => xmul x (xpow_nat x n) end.
Definition xipow (x : XR) (z : Z) : XR :=
  match z with Z0 => Fin 1 | Zpos p => xpow_nat x (Pos.to_nat p) | Zneg p => xdiv (Fin 1) (xpow_nat x (Pos.to_nat p)) end.
(** x < y, x = y for floats *)
Definition xlt (x y : XR) : bool :=
  match x, y with
  | Fin a, Fin b => if Rlt_dec a b then true else false
  | NInf, Fin _ | NInf, PInf | Fin _, PInf => true
  | _, _ => false
  end.
Definition xeqb (x y : XR) : bool :=
  match x, y with Fin a, Fin b => if Req_EM_T a b then true else false | PInf, PInf | NInf, NInf => true | _, _ => false end.
Definition xmax (x y : XR) : XR := match x, y with NaN, _ | _, NaN => NaN | _, _ => if xlt x y then y else x end.
Definition xmin (x y : XR) : XR := match x, y with NaN, _ | _, NaN => NaN | _, _ => if xlt y x then y else x end.
(** _balanced_eq(x, z, y) = where(x == z, 1, 0) / where(y == z, 2, 1) *)
Definition balanced (x z y : XR) : XR := xdiv (Fin (if xeqb x z then 1 else 0)) (Fin (if xeqb y z then 2 else 1)).
(** log(_replace_zero(x)) *)
Definition xlog_nz (x : XR) : XR := match x with Fin a => if Req_EM_T a 0 then Fin 0 else xlog x | y => xlog y end.
(** where(y == 0, 1, y - 1) *)
Definition xpred (y : XR) : XR := if xeqb y (Fin 0) then Fin 1 else xsub y (Fin 1).
Definition num_x : num xdual :=
  Num xdual (fun x => (Fin x, None)) (fun x => match fst x with Fin a => a | _ => 0 end)
    (fun x y => (xadd (fst x) (fst y), tplus (snd x) (snd y)))
    (fun x y => (xsub (fst x) (fst y), tplus (snd x) (option_map xneg (snd y))))
    (fun x y => (xmul (fst x) (fst y), tplus (ttimes (snd x) (fst y)) (ttimes (snd y) (fst x))))
    (fun x y => (xdiv (fst x) (fst y),
       tplus (option_map (fun t => xdiv t (fst y)) (snd x)) (option_map (fun t => xmul (xmul (xneg t) (fst x)) (xipow (fst y) (-2))) (snd y))))
    (fun x => (xneg (fst x), option_map xneg (snd x)))
    (fun x => (xexp (fst x), ttimes (snd x) (xexp (fst x))))
    (fun x => (xlog (fst x), option_map (fun t => xdiv t (fst x)) (snd x)))
    (fun x => (xsqrt (fst x), ttimes (snd x) (xdiv (Fin 0.5) (xsqrt (fst x)))))
    (fun x => (xfun sin (fst x), ttimes (snd x) (xfun cos (fst x))))
    (fun x => (xfun cos (fst x), option_map xneg (ttimes (snd x) (xfun sin (fst x)))))
    (fun x => (xsinh (fst x), ttimes (snd x) (xcosh (fst x))))
    (fun x => (xabs (fst x), ttimes (snd x) (xsign (fst x))))
    (fun x z => (xipow (fst x) z, ttimes (snd x) (xmul (Fin (IZR z)) (xipow (fst x) (z - 1)))))
    (fun x y => (xpow (fst x) (fst y),
       tplus (ttimes (snd x) (xmul (fst y) (xpow (fst x) (xpred (fst y))))) (ttimes (snd y) (xmul (xlog_nz (fst x)) (xpow (fst x) (fst y))))))
    (fun x y => let z := xmax (fst x) (fst y) in
       (z, tplus (ttimes (snd x) (balanced (fst x) z (fst y))) (ttimes (snd y) (balanced (fst y) z (fst x)))))
    (fun x y => let z := xmin (fst x) (fst y) in
       (z, tplus (ttimes (snd x) (balanced (fst x) z (fst y))) (ttimes (snd y) (balanced (fst y) z (fst x))))).
