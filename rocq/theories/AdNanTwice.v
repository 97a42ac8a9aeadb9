(** * Second derivatives over numbers with infinities and NaN

    jax.jacfwd(jax.jacfwd(f)) in floating point, up to rounding: the rules of [num_x] in AdNan.v, for numbers that are
    themselves numbers of AdNan.v.  The tangents of the outer and of the inner differentiation may both be symbolic zeros.

    Trusted, as in AdNan.v: the rules of jax/_src/lax/lax.py; comparisons and signs have no tangent; select passes on the
    tangent of the chosen argument. *)
From Verif Require Import Np Ad SparseX HalofitX AdOver AdNan.

Definition xdual2 : Type := xdual * option xdual.
Section Rules.
Local Notation N := num_x.
Local Infix "+" := (nadd N) : ad_scope.
Local Infix "*" := (nmul N) : ad_scope.
Local Infix "/" := (ndiv N) : ad_scope.
Local Notation "- x" := (nneg N x) : ad_scope.
Local Notation "' x" := (cst N x%R) (at level 1, format "' x") : ad_scope.
Local Open Scope ad_scope.
Definition tplus2 (u v : option xdual) : option xdual := match u, v with Some a, Some b => Some (a + b) | Some a, None => Some a | None, v => v end.
Definition ttimes2 (u : option xdual) (k : xdual) : option xdual := option_map (fun a => a * k) u.
(** select(x == 0, 1, y) *)
Definition one_at_zero (x y : xdual) : xdual := if xeqb (fst x) (Fin 0) then (Fin 1, option_map (fun _ => Fin 0) (snd y)) else y.
(** _balanced_eq of values: no tangent *)
Definition balanced2 (x z y : xdual) : xdual := (balanced (fst x) (fst z) (fst y), None).
Definition num_x2 : num xdual2 :=
  Num xdual2 (fun x => ('x, None)) (fun x => val N (fst x))
    (fun x y => (fst x + fst y, tplus2 (snd x) (snd y)))
    (fun x y => (nsub N (fst x) (fst y), tplus2 (snd x) (option_map (nneg N) (snd y))))
    (fun x y => (fst x * fst y, tplus2 (ttimes2 (snd x) (fst y)) (ttimes2 (snd y) (fst x))))
    (fun x y => (fst x / fst y,
       tplus2 (option_map (fun t => t / fst y) (snd x)) (option_map (fun t => - t * fst x * nipow N (fst y) (-2)) (snd y))))
    (fun x => (- fst x, option_map (nneg N) (snd x)))
    (fun x => (nexp N (fst x), ttimes2 (snd x) (nexp N (fst x))))
    (fun x => (nln N (fst x), option_map (fun t => t / fst x) (snd x)))
    (fun x => (nsqrt N (fst x), ttimes2 (snd x) ('0.5 / nsqrt N (fst x))))
    (fun x => (nsin N (fst x), ttimes2 (snd x) (ncos N (fst x))))
    (fun x => (ncos N (fst x), option_map (nneg N) (ttimes2 (snd x) (nsin N (fst x)))))
    (fun x => (nsinh N (fst x), ttimes2 (snd x) (ncosh N (fst x))))
    (fun x => (nabs N (fst x), ttimes2 (snd x) (xsign (fst (fst x)), None)))
    (fun x z => (nipow N (fst x) z, ttimes2 (snd x) ('(IZR z) * nipow N (fst x) (z - 1))))
    (fun x y => (npow N (fst x) (fst y),
       tplus2 (ttimes2 (snd x) (fst y * npow N (fst x) (one_at_zero (fst y) (nsub N (fst y) '1))))
              (ttimes2 (snd y) (nln N (one_at_zero (fst x) (fst x)) * npow N (fst x) (fst y)))))
    (fun x y => let z := nmax N (fst x) (fst y) in
       (z, tplus2 (ttimes2 (snd x) (balanced2 (fst x) z (fst y))) (ttimes2 (snd y) (balanced2 (fst y) z (fst x)))))
    (fun x y => let z := nmin N (fst x) (fst y) in
       (z, tplus2 (ttimes2 (snd x) (balanced2 (fst x) z (fst y))) (ttimes2 (snd y) (balanced2 (fst y) z (fst x))))).
End Rules.
(** a number that is not differentiated; one that is, at rate t *)
Definition still2 (x : R) : xdual2 := ((Fin x, None), None).
Definition moves2 (t x : R) : xdual2 := ((Fin x, Some (Fin t)), Some (Fin t, None)).
(** the second derivative that is returned *)
Definition curvature (x : xdual2) : option XR := match snd x with Some t => snd t | None => None end.
