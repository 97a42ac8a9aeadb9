(** * halofit of power.py over extended numbers

    A second model of power.py 178-267 in which numbers may be infinite or NaN, as floats may, so that a division by
    zero and what follows from it are faithful.  Finite arithmetic is still exact; zeros are positive zeros. *)
From Coq Require Import String.
From Verif Require Import Np Core Background Transfer Power SparseX.
Local Open Scope R_scope.

(** x / y *)
Definition xdiv (x y : XR) : XR :=
  match x, y with
  | NaN, _ | _, NaN => NaN
  | Fin a, Fin b => if Req_EM_T b 0 then (if Req_EM_T a 0 then NaN else inf_of (Rsgn a)) else Fin (a / b)
  | Fin _, _ => Fin 0
  | PInf, Fin b => if Rlt_dec b 0 then NInf else PInf
  | NInf, Fin b => if Rlt_dec b 0 then PInf else NInf
  | _, _ => NaN
  end.
(** x ** y for floats, IEEE 754 pow: 1 ** y = x ** 0 = 1 even for NaN; a negative finite base has no value here (the
    exponents of halofit are not integers) *)
Definition xpow (x y : XR) : XR :=
  match x, y with
  | _, Fin b =>
      if Req_EM_T b 0 then Fin 1 else
      match x with
      | Fin a => if Rlt_dec a 0 then NaN
                 else if Req_EM_T a 0 then (if Rlt_dec b 0 then PInf else Fin 0) else Fin (rpow a b)
      | PInf => if Rlt_dec b 0 then Fin 0 else PInf
      | NInf => NaN
      | NaN => NaN
      end
  | Fin a, NaN => if Req_EM_T a 1 then Fin 1 else NaN
  | Fin a, PInf => if Req_EM_T a 1 then Fin 1 else if Rlt_dec (Rabs a) 1 then Fin 0 else PInf
  | Fin a, NInf => if Req_EM_T a 1 then Fin 1 else if Rlt_dec (Rabs a) 1 then PInf else Fin 0
  | NaN, _ | _, NaN => NaN
  | PInf, PInf | NInf, PInf => PInf
  | PInf, NInf | NInf, NInf => Fin 0
  end.

(** power.py 244-247 *)
Definition xhf_f_smith (om_m : R) (frac : XR) : XR * XR * XR :=
  let mix := fun b a => xadd (xmul frac (Fin (rpow om_m b))) (xmul (xsub (Fin 1) frac) (Fin (rpow om_m a))) in
  (mix (-0.0307) (-0.0732), mix (-0.0585) (-0.1423), mix 0.0743 0.0725).
(** power.py 241-243 *)
Definition xhf_f_takahashi (om_m : R) : XR * XR * XR :=
  (Fin (rpow om_m (-0.0307)), Fin (rpow om_m (-0.0585)), Fin (rpow om_m 0.0743)).

(** power.py 251-265 *)
Definition xhf_assemble (k pklin knl : R) (co : hf_coeffs) (f : XR * XR * XR) : XR :=
  let '(f1, f2, f3) := f in
  let d2l := Fin (k ^ 3 * pklin / (2.0 * PI ^ 2)) in
  let y := xdiv (Fin k) (Fin knl) in
  let ff := xadd (xdiv y (Fin 4.0)) (xdiv (xmul y y) (Fin 8.0)) in
  let d2q := xmul (xmul d2l (xdiv (xpow (xadd (Fin 1.0) d2l) (Fin (hf_beta co)))
                                   (xadd (Fin 1) (xmul (Fin (hf_alpha co)) d2l))))
                  (xexp (xneg ff)) in
  let d2hprime := xdiv (xmul (Fin (hf_a co)) (xpow y (xmul (Fin 3) f1)))
                       (xadd (xadd (Fin 1.0) (xmul (Fin (hf_b co)) (xpow y f2)))
                             (xpow (xmul (xmul (Fin (hf_c co)) f3) y) (Fin (3.0 - hf_gamma co)))) in
  let d2h := xdiv d2hprime (xadd (xadd (Fin 1.0) (xdiv (Fin (hf_mu co)) y)) (xdiv (Fin (hf_nu co)) (xmul y y))) in
  xmul (Fin (2.0 * PI ^ 2 / k ^ 3)) (xadd d2q d2h).

(** power.py 145-267; the linear power, the halofit parameters and the density fractions are finite numbers *)
Definition xhalofit (c : cosmology) (k a : R) (T : transfer) (prescription : string) : res XR :=
  let pklin := linear_matter_power c k a T in
  let '(knl, n, C) := halofit_parameters c a T in
  let om_m := Omega_m_a c a in
  let om_de := Omega_de_a c a in
  let frac := xdiv (Fin om_de) (Fin (1.0 - om_m)) in
  if String.eqb prescription "smith2003"
  then Ok (xhf_assemble k pklin knl (hf_smith n C) (xhf_f_smith om_m frac))
  else if String.eqb prescription "takahashi2012"
  then Ok (xhf_assemble k pklin knl (hf_takahashi n C om_de (w c a)) (xhf_f_takahashi om_m))
  else Err NotImplementedError.
