(** * Reverse-mode differentiation over numbers with infinities and NaN

    What jax.vjp and jax.grad carry in floating point, up to rounding: a value that may be infinite or NaN, and what happens to a
    cotangent u that reaches it, the amounts added to the slots of the inputs ([None] for arrays that do not depend on any input:
    the backward pass does not visit them).  Cotangents and amounts may be infinite or NaN.  All zeros are positive zeros.

    Trusted (JAX, not in /repo): every rule is the transpose of the rule of [num_x] in AdNan.v for the same primitive
    (jax/_src/lax/lax.py, jax/_src/interpreters/ad.py backward_pass): a product with a coefficient becomes the product of the
    cotangent with it, in the reverse order; an argument that is used several times adds up the contributions. *)
From Verif Require Import Np Core SparseX HalofitX Redshift Bias Probes Ad AdNan AdNuis AdNuisBack.
Local Open Scope R_scope.

Definition pull : Type := option (XR -> nat -> XR).
Definition xback : Type := XR * pull.
(** contributions through two arguments *)
Definition pplus (f g : pull) : pull :=
  match f, g with Some f, Some g => Some (fun u q => xadd (f u q) (g u q)) | Some f, None => Some f | None, g => g end.
(** the cotangent that an argument receives *)
Definition pby (k : XR -> XR) (f : pull) : pull := option_map (fun f u => f (k u)) f.
Definition num_xb : num xback :=
  Num xback (fun x => (Fin x, None)) (fun x => match fst x with Fin a => a | _ => 0 end)
    (fun x y => (xadd (fst x) (fst y), pplus (snd x) (snd y)))
    (fun x y => (xsub (fst x) (fst y), pplus (snd x) (pby xneg (snd y))))
    (fun x y => (xmul (fst x) (fst y), pplus (pby (fun u => xmul u (fst y)) (snd x)) (pby (fun u => xmul (fst x) u) (snd y))))
    (fun x y => (xdiv (fst x) (fst y),
       pplus (pby (fun u => xdiv u (fst y)) (snd x)) (pby (fun u => xneg (xmul (xmul u (xipow (fst y) (-2))) (fst x))) (snd y))))
    (fun x => (xneg (fst x), pby xneg (snd x)))
    (fun x => (xexp (fst x), pby (fun u => xmul u (xexp (fst x))) (snd x)))
    (fun x => (xlog (fst x), pby (fun u => xdiv u (fst x)) (snd x)))
    (fun x => (xsqrt (fst x), pby (fun u => xmul u (xdiv (Fin 0.5) (xsqrt (fst x)))) (snd x)))
    (fun x => (xfun sin (fst x), pby (fun u => xmul u (xfun cos (fst x))) (snd x)))
    (fun x => (xfun cos (fst x), pby (fun u => xmul (xneg u) (xfun sin (fst x))) (snd x)))
    (fun x => (xsinh (fst x), pby (fun u => xmul u (xcosh (fst x))) (snd x)))
    (fun x => (xabs (fst x), pby (fun u => xmul u (xsign (fst x))) (snd x)))
    (fun x z => (xipow (fst x) z, pby (fun u => xmul u (xmul (Fin (IZR z)) (xipow (fst x) (z - 1)))) (snd x)))
    (fun x y => (xpow (fst x) (fst y),
       pplus (pby (fun u => xmul u (xmul (fst y) (xpow (fst x) (xpred (fst y))))) (snd x)) (pby (fun u => xmul u (xmul (xlog_nz (fst x)) (xpow (fst x) (fst y)))) (snd y))))
    (fun x y => let z := xmax (fst x) (fst y) in
       (z, pplus (pby (fun u => xmul u (balanced (fst x) z (fst y))) (snd x)) (pby (fun u => xmul u (balanced (fst y) z (fst x))) (snd y))))
    (fun x y => let z := xmin (fst x) (fst y) in
       (z, pplus (pby (fun u => xmul u (balanced (fst x) z (fst y))) (snd x)) (pby (fun u => xmul u (balanced (fst y) z (fst x))) (snd y)))).

(** a parameter: its value, and its slot if the program is differentiated with respect to it *)
Definition leaf : Type := R * option nat.
Definition xinput (l : leaf) : xback :=
  (Fin (fst l), match snd l with Some i => Some (fun u q => if Nat.eqb q i then u else Fin 0) | None => None end).
(** core.py 14-65: the parameters of a cosmology as inputs *)
Definition cosmo_map {A B : Type} (f : A -> B) (g : gcosmo A) : gcosmo B :=
  GCosmo (f (gOmega_c g)) (f (gOmega_b g)) (f (gh g)) (f (gn_s g)) (f (gsigma8 g)) (f (gOmega_k g)) (f (gw0 g)) (f (gwa g)) (option_map f (ggamma g)).
Definition xcosmo (g : gcosmo leaf) : gcosmo xback := cosmo_map xinput g.
Definition xprobes (S : list (gprobe leaf)) : list (gprobe xback) := map (probe_map xinput) S.
