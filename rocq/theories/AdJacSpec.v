(** * Specification: gradients of what forward mode computes *)
From Verif Require Import Np Core Likelihood SparseSpec Transfer Power GradSpec Ad AdProbes.
Local Open Scope R_scope.

(** the cosmological parameters as a vector *)
Definition dot (g d : direction) : R :=
  dOmega_c g * dOmega_c d + dOmega_b g * dOmega_b d + dh g * dh d + dn_s g * dn_s d + dsigma8 g * dsigma8 d + dOmega_k g * dOmega_k d
  + dw0 g * dw0 d + dwa g * dwa d.
(** what jax.grad must return: one vector g, and one slope for each further argument, such that the tangent along every direction
    is a scalar product with it; there is exactly one *)
Definition has_gradient (F : direction -> R) : Prop := exists! g, forall d, F d = dot g d.
Definition has_gradient1 (F : direction -> R -> R) : Prop := exists! p : direction * R, forall d x, F d x = dot (fst p) d + snd p * x.
Definition has_gradient2 (F : direction -> R -> R -> R) : Prop :=
  exists! p : direction * R * R, forall d x y, F d x y = dot (fst (fst p)) d + snd (fst p) * x + snd p * y.
(** the same for results that may raise: the same exception along all directions, or one value and one gradient *)
Definition result_gradient (F : direction -> res dual) : Prop :=
  (exists e, forall d, F d = Err e) \/ (exists! p : R * direction, forall d, F d = Ok (fst p, dot (snd p) d)).
(** and for arrays: one shape, and one value and one gradient for each entry *)
Definition rows_gradient (F : direction -> res (list (list dual))) : Prop :=
  (exists e, forall d, F d = Err e) \/
  (exists! V : list (list (R * direction)), forall d, F d = Ok (map (map (fun p => (fst p, dot (snd p) d))) V)).

(** cho_solve of the factor of a fixed matrix is linear in the right-hand side *)
Definition solve_linear (la : linalg) : Prop := forall n m k (w : nat -> R) (u : nat -> list R) v,
  (forall q, length (u q) = length v) -> (forall i, el v i = Rsum k (fun q => w q * el (u q) i)) ->
  forall i, el (la_cho_solve la n m v) i = Rsum k (fun q => w q * el (la_cho_solve la n m (u q)) i).
(** the library returns arrays of the shape it is asked for *)
Definition linalg_sized (la : linalg) : Prop := forall n m, wf2 n n (la_inv la n m) /\ forall v, wf1 n (la_cho_solve la n m v).
(** the value part of a result *)
Definition value (x : res dual) : res R := match x with Ok v => Ok (fst v) | Err e => Err e end.
Definition values (x : res (list (list dual))) : res (list (list R)) := match x with Ok m => Ok (map (map fst) m) | Err e => Err e end.
(** a transfer function, a spectrum, given as programs on dual numbers, whose runs carry the value of the function *)
Definition rv_transfer (c : cosmology) (d : direction) (T : transfer) (GT : gcosmo dual -> dual -> dual) : Prop :=
  forall k dk, fst (GT (dual_cosmo c d) (k, dk)) = T c k.
Definition rv_spectrum (c : cosmology) (d : direction) (T : transfer) (nl : nonlinear) (P : gspectrum (A := dual)) : Prop :=
  forall k dk a da, fst (P (dual_cosmo c d) (k, dk) (a, da)) = nonlinear_matter_power c k a T nl.
