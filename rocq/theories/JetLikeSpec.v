(** * Specification: Hessians with respect to the cosmology and the slots of a survey *)
From Verif Require Import Np Core Sparse Likelihood Interp Integrate Background Transfer Power SparseX Redshift Probes AngularCl GradSpec Ad AdJacSpec AdBackSpec AdNuisBackSpec AdOver AdNan AdNanSpec AdNanTwice.
Local Open Scope R_scope.

(** value and outer tangent of the backward pass of the cotangent 1, contracted with the tangents d of the cosmology and w of the survey *)
Definition gradient_paired (b : back_over dual) (d : direction) (K : nat) (w : nat -> R) : R := paired (fun q => fst (snd b (1, 0) q)) d K w.
Definition hessian_paired (b : back_over dual) (d : direction) (K : nat) (w : nat -> R) : R := paired (fun q => snd (snd b (1, 0) q)) d K w.
(** The notebook's likelihood of the survey [probes] at the parameters of [c], with the covariance of [c0] and [probes0]: what
    jax.lax.stop_gradient leaves to differentiate *)
Definition frozen_survey (la : linalg) (c0 : cosmology) (probes0 : list probe) (c : cosmology) (probes : list probe) (ells : list R) (T : Power.transfer) (nl : Power.nonlinear) (f_sky : R) (data : list R) : res R :=
  bind (gaussian_cl_covariance_and_mean c0 (Array1 ells) probes0 T nl f_sky true) (fun mc =>
  bind (inv (la_inv la) (snd mc)) (fun P =>
  bind (angular_cl c (Array1 ells) probes T nl) (fun mu =>
  let r := vsub data (concat mu) in
  match P with A3 a b n s => Ok (- (1 / 2) * vdot r (sparse_dot_vec b n s r)) | _ => Err ValueError end))).
(** the number itself, without derivatives *)
Definition x2_value (x : xdual2) : R := x_val (fst x).
(** the number after time t *)
Definition x2_moving (t : R) (x : xdual2) : R := x2_value x + t * match snd x with Some (Fin r, _) => r | _ => 0 end.
