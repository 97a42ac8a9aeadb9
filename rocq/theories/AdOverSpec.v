(** * Specification: Hessians and Fisher matrices *)
From Verif Require Import Np Core Sparse SparseSpec Interp AngularCl Probes GradSpec Ad AdPower AdProbes AdHalofit AdLike AdJacSpec AdBackSpec AdOver.
Local Open Scope R_scope.

(** what jax.hessian returns is read off the outer tangent of the backward pass of the cotangent 1, contracted with a direction *)
Definition hessian_along (b : back_over dual) (d : direction) : R := AdJacSpec.dot (slots (fun q => snd (snd b (1, 0) q))) d.
(** the gradient is its value *)
Definition gradient_along (b : back_over dual) (d : direction) : R := AdJacSpec.dot (slots (fun q => fst (snd b (1, 0) q))) d.
Definition nowhere : direction := Direction 0 0 0 0 0 0 0 0.
(** docs/notebooks/jax-cosmo-intro.ipynb: J = jax.jacfwd(mean_fn), mean_fn the flattened spectra; one column for each of the
    directions [ds], n entries long *)
Definition jacobian (c : cosmology) (ells : list R) (probes : list probe) (nl osc : bool) (n : nat) (ds : list direction) (J : list (list R)) : Prop :=
  wf2 n (length ds) J /\ forall q, (q < length ds)%nat -> exists rows,
    gangular_cl num_dual (dual_cosmo c (nth q ds nowhere)) (Array1 ells) probes (gmodel num_dual nl osc) = Ok rows /\ col q J = map snd (concat rows).
(** J.T *)
Definition transposed (p : nat) (J : list (list R)) : list (list R) := tab p (fun q => col q J).
