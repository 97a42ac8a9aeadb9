(** * Reverse-mode differentiation

    jax.vjp and jax.grad run the program once, and then send a cotangent backwards through the transposed linear maps of all
    steps.  A number of this mode is a value together with what happens to a cotangent u that reaches it: the amounts added
    to the slots of the inputs.  Slots 0 to 7 are the parameters in the order of core.py 14-28 (Omega_c, Omega_b, h, n_s,
    sigma8, Omega_k, w0, wa), slots 8 and 9 the further arguments of a function.

    Trusted (JAX, not in /repo): every rule below is the transpose of the rule of [num_dual] for the same primitive, as in
    jax/_src/interpreters/ad.py backward_pass; an argument that is used several times adds up the contributions. *)
From Verif Require Import Np Core Likelihood GradSpec Ad AdLike.
Local Open Scope R_scope.

Definition back : Type := R * (R -> nat -> R).
Definition num_back : num back :=
  Num back (fun x => (x, fun _ _ => 0)) fst
    (fun x y => (fst x + fst y, fun u q => snd x u q + snd y u q))
    (fun x y => (fst x - fst y, fun u q => snd x u q + snd y (- u) q))
    (fun x y => (fst x * fst y, fun u q => snd x (u * fst y) q + snd y (fst x * u) q))
    (fun x y => (fst x / fst y, fun u q => snd x (u / fst y) q + snd y (- (u * fst x / fst y ^ 2)) q))
    (fun x => (- fst x, fun u => snd x (- u)))
    (fun x => (exp (fst x), fun u => snd x (u * exp (fst x))))
    (fun x => (ln (fst x), fun u => snd x (u / fst x)))
    (fun x => (sqrt (fst x), fun u => snd x (u * (0.5 / sqrt (fst x)))))
    (fun x => (sin (fst x), fun u => snd x (u * cos (fst x))))
    (fun x => (cos (fst x), fun u => snd x (- (u * sin (fst x)))))
    (fun x => (sinh (fst x), fun u => snd x (u * cosh (fst x))))
    (fun x => (Rabs (fst x), fun u => snd x (u * Rsgn (fst x))))
    (fun x z => (ipow (fst x) z, fun u => snd x (u * (IZR z * ipow (fst x) (z - 1)))))
    (fun x y => (rpow (fst x) (fst y),
       fun u q => snd x (u * (fst y * rpow (fst x) (fst y - 1))) q + snd y (u * (ln (fst x) * rpow (fst x) (fst y))) q))
    (fun x y => (Rmax (fst x) (fst y), fun u q => snd x (sel3 (fst x) (fst y) u 0) q + snd y (sel3 (fst x) (fst y) 0 u) q))
    (fun x y => (Rmin (fst x) (fst y), fun u q => snd x (sel3 (- fst x) (- fst y) u 0) q + snd y (sel3 (- fst x) (- fst y) 0 u) q)).

(** an input: the cotangent arrives in its own slot *)
Definition input (x : R) (i : nat) : back := (x, fun u q => if Nat.eqb q i then u else 0).
(** core.py 14-65 *)
Definition back_cosmo (c : cosmology) : gcosmo back :=
  GCosmo (input (_Omega_c c) 0) (input (_Omega_b c) 1) (input (_h c) 2) (input (_n_s c) 3) (input (_sigma8 c) 4) (input (_Omega_k c) 5) (input (_w0 c) 6) (input (_wa c) 7)
    (match _gamma c with Some g => Some (cst num_back g) | None => None end).

(** np.linalg.inv, the log-determinant of slogdet and cho_solve (likelihood.py 39-66): the transposes of the rules of
    [linalg_dual].  [el (S (unit L a)) i] is the entry (a, i) of the transpose of the solve S. *)
Definition unit_vec (L a : nat) : list R := tab L (fun b => if Nat.eqb b a then 1 else 0).
Definition bnil : back := cst num_back 0.
Definition linalg_back (la : linalg) : glinalg back :=
  let values := map (map (fst (A := R) (B := R -> nat -> R))) in
  GLinalg back
    (fun n M => let P := la_inv la n (values M) in
       tab n (fun i => tab n (fun j => (el2 P i j, fun u q =>
         Np.vsum (tab n (fun a => Np.vsum (tab n (fun b => snd (nth b (nth a M []) bnil) (- (el2 P i a * u * el2 P b j)) q))))))))
    (fun n M => let P := la_inv la n (values M) in (snd (la_slogdet la n (values M)), fun u q =>
       Np.vsum (tab n (fun i => Np.vsum (tab n (fun l => snd (nth i (nth l M []) bnil) (el2 P i l * u) q))))))
    (fun n M r => let y := la_cho_solve la n (values M) (map fst r) in let L := Nat.min (length r) (length M) in
       tab n (fun i => (el y i, fun u q =>
         Np.vsum (tab L (fun a => let v := el (la_cho_solve la n (values M) (unit_vec L a)) i * u in
           snd (nth a r bnil) v q + Np.vsum (map2 (fun m yb => snd m (- (v * yb)) q) (nth a M []) y)))))).
