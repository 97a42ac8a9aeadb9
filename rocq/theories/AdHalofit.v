(** * Forward-mode differentiation of halofit

    The same transcription as in Ad.v and AdPower.v for power.py 87-267.  np.argmin inside interp sees values only, so the
    pair of search radii is held fixed; np.abs and clip follow the rules of [num_dual]. *)
From Coq Require Import String.
From Verif Require Import Np Core Ode Interp Integrate Background Transfer Power GradSpec Ad AdPower AdProbes.

Section Programs.
Context {A : Type} (N : num A).
Local Infix "+" := (nadd N) : ad_scope.
Local Infix "-" := (nsub N) : ad_scope.
Local Infix "*" := (nmul N) : ad_scope.
Local Infix "/" := (ndiv N) : ad_scope.
Local Notation "- x" := (nneg N x) : ad_scope.
Local Notation "x ^ z" := (nipow N x z) : ad_scope.
Local Notation "x ** y" := (npow N x y) (at level 30, right associativity) : ad_scope.
Local Notation "' x" := (cst N x%R) (at level 1, format "' x") : ad_scope.
Local Open Scope ad_scope.

(** simps over a scalar function with an even number of intervals, as in power.py 114, 137 *)
Definition gsimps_value (f : R -> A) (a b : R) (n : nat) : A := match gsimps N f a b n with Ok v => v | Err _ => '0 end.
(** power.py 99-112 *)
Definition ghf_int_sigma (c : gcosmo A) (a : A) (T : gtransfer) (r logk : R) : A :=
  let k := nexp N 'logk in
  let y := k * 'r in
  glinear_matter_power N c k '1.0 T * k ^ 3 * nexp N (- (y ^ 2)) / '(2.0 * PI ^ 2) * gD N c a ^ 2.
Definition ghf_sigma (c : gcosmo A) (a : A) (T : gtransfer) : list A :=
  map (fun lr => gsimps_value (ghf_int_sigma c a T (exp lr)) (ln 1e-4) (ln 1e4) 256) hf_logr.
(** power.py 97-122 *)
Definition gR_nl (c : gcosmo A) (a : A) (T : gtransfer) : A :=
  gclip_lo N (nexp N (ginterp1 N '1.0 (ghf_sigma c a T) (map (cst N) hf_logr))) 1e-6.
Definition gk_nl (c : gcosmo A) (a : A) (T : gtransfer) : A := '1.0 / gR_nl c a T.
(** power.py 125-142 *)
Definition ghf_res (c : gcosmo A) (a knl : A) (T : gtransfer) (logk : R) : A :=
  let k := nexp N 'logk in
  let y := k * ('1.0 / knl) in
  glinear_matter_power N c k '1.0 T * k ^ 3 * nexp N (- (y ^ 2)) * gD N c a ^ 2 / '(2.0 * PI ^ 2).
Definition ghf_dneff (c : gcosmo A) (a knl : A) (T : gtransfer) (logk : R) : A :=
  let y := nexp N 'logk * ('1.0 / knl) in '2 * ghf_res c a knl T logk * y ^ 2.
Definition ghf_dC (c : gcosmo A) (a knl : A) (T : gtransfer) (logk : R) : A :=
  let y := nexp N 'logk * ('1.0 / knl) in '4 * ghf_res c a knl T logk * (y ^ 2 - y ^ 4).
Definition ghalofit_parameters (c : gcosmo A) (a : A) (T : gtransfer) : A * A * A :=
  let knl := gk_nl c a T in
  let res0 := gsimps_value (ghf_dneff c a knl T) (ln 1e-4) (ln 1e4) 256 in
  let res1 := gsimps_value (ghf_dC c a knl T) (ln 1e-4) (ln 1e4) 256 in
  (knl, res0 - '3.0, res0 ^ 2 + res1).

Record ghf_coeffs := GHfCoeffs { ghf_a : A; ghf_b : A; ghf_c : A; ghf_gamma : A; ghf_alpha : A; ghf_beta : A; ghf_mu : A; ghf_nu : A }.
(** power.py 183-199 *)
Definition ghf_smith (n C : A) : ghf_coeffs :=
  GHfCoeffs
    ('10 ** ('1.4861 + '1.8369 * n + '1.6762 * n ^ 2 + '0.7940 * n ^ 3 + '0.1670 * n ^ 4 - '0.6206 * C))
    ('10 ** ('0.9463 + '0.9466 * n + '0.3084 * n ^ 2 - '0.9400 * C))
    ('10 ** ('(-0.2807) + '0.6669 * n + '0.3214 * n ^ 2 - '0.0793 * C))
    ('0.8649 + '0.2989 * n + '0.1631 * C)
    ('1.3884 + '0.3700 * n - '0.1452 * n ^ 2)
    ('0.8291 + '0.9854 * n + '0.3401 * n ^ 2)
    ('10 ** ('(-3.5442) + '0.1908 * n))
    ('10 ** ('0.9585 + '1.2857 * n)).
(** power.py 200-229 *)
Definition ghf_takahashi (n C om_de w : A) : ghf_coeffs :=
  GHfCoeffs
    ('10 ** ('1.5222 + '2.8553 * n + '2.3706 * n ^ 2 + '0.9903 * n ^ 3 + '0.2250 * n ^ 4 - '0.6038 * C
             + '0.1749 * om_de * ('1 + w)))
    ('10 ** ('(-0.5642) + '0.5864 * n + '0.5716 * n ^ 2 - '1.5474 * C + '0.2279 * om_de * ('1 + w)))
    ('10 ** ('0.3698 + '2.0404 * n + '0.8161 * n ^ 2 + '0.5869 * C))
    ('0.1971 - '0.0843 * n + '0.8460 * C)
    (nabs N ('6.0835 + '1.3373 * n - '0.1959 * n ^ 2 - '5.5274 * C))
    ('2.0379 - '0.7354 * n + '0.3157 * n ^ 2 + '1.2490 * n ^ 3 + '0.3980 * n ^ 4 - '0.1682 * C)
    '0.0
    ('10 ** ('5.2105 + '3.6902 * n)).
(** power.py 233-249 *)
Definition ghf_f_takahashi (om_m : A) : A * A * A := (om_m ** '(-0.0307), om_m ** '(-0.0585), om_m ** '0.0743).
Definition ghf_f_smith (om_m frac : A) : A * A * A :=
  (frac * om_m ** '(-0.0307) + ('1 - frac) * om_m ** '(-0.0732),
   frac * om_m ** '(-0.0585) + ('1 - frac) * om_m ** '(-0.1423),
   frac * om_m ** '0.0743 + ('1 - frac) * om_m ** '0.0725).
(** power.py 251-265 *)
Definition ghf_assemble (k pklin knl : A) (co : ghf_coeffs) (f : A * A * A) : A :=
  let '(f1, f2, f3) := f in
  let ff := fun x => x / '4.0 + x ^ 2 / '8.0 in
  let d2l := k ^ 3 * pklin / '(2.0 * PI ^ 2) in
  let y := k / knl in
  let d2q := d2l * (('1.0 + d2l) ** ghf_beta co / ('1 + ghf_alpha co * d2l)) * nexp N (- ff y) in
  let d2hprime := ghf_a co * y ** ('3 * f1)
                  / ('1.0 + ghf_b co * y ** f2 + (ghf_c co * f3 * y) ** ('3.0 - ghf_gamma co)) in
  let d2h := d2hprime / ('1.0 + ghf_mu co / y + ghf_nu co / y ^ 2) in
  '(2.0 * PI ^ 2) / k ^ 3 * (d2q + d2h).
(** power.py 145-267 *)
Definition ghalofit (c : gcosmo A) (k a : A) (T : gtransfer) (prescription : string) : res A :=
  let pklin := glinear_matter_power N c k a T in
  let '(knl, n, C) := ghalofit_parameters c a T in
  let om_m := gOmega_m_a N c a in
  let om_de := gOmega_de_a N c a in
  let frac := om_de / ('1.0 - om_m) in
  if String.eqb prescription "smith2003"
  then Ok (ghf_assemble k pklin knl (ghf_smith n C) (ghf_f_smith om_m frac))
  else if String.eqb prescription "takahashi2012"
  then Ok (ghf_assemble k pklin knl (ghf_takahashi n C om_de (gw N c a)) (ghf_f_takahashi om_m))
  else Err NotImplementedError.
Definition ghalofit_default (T : gtransfer) : gspectrum (A := A) := fun c k a =>
  match ghalofit c k a T "takahashi2012" with Ok v => v | Err _ => '0 end.
End Programs.
Arguments ghf_a {A}. Arguments ghf_b {A}. Arguments ghf_c {A}. Arguments ghf_gamma {A}. Arguments ghf_alpha {A}. Arguments ghf_beta {A}.
Arguments ghf_mu {A}. Arguments ghf_nu {A}. Arguments GHfCoeffs {A}.
(** transfer.py 10: the Eisenstein & Hu form selected by the type argument, "eisenhu_osc" or "eisenhu" *)
Definition geh {A} (N : num A) (osc : bool) : gcosmo A -> A -> A := if osc then geisenhu_osc N else geisenhu N.
Definition eh (osc : bool) : transfer := if osc then eisenhu_osc else eisenhu.
(** power.py 82-84, 145, 270-277: the spectrum selected by nonlinear_fn, halofit with its default prescription or linear *)
Definition gmodel {A} (N : num A) (nl osc : bool) : gspectrum (A := A) := if nl then ghalofit_default N (geh N osc) else fun g k a => glinear_matter_power N g k a (geh N osc).
Definition model_nl (nl : bool) : nonlinear := if nl then halofit_default else linear.
