(** * Specification: second derivatives, and what jax.jacfwd(jax.jacfwd(f)) and jax.hessian(f) should hold *)
From Coquelicot Require Import Coquelicot.
From Verif Require Import Np Core Sparse SparseSpec Likelihood LikelihoodSpec Interp Integrate Background Transfer Power Redshift Probes AngularCl GradSpec Ad AdSpec AdHalofit AdOver.

(** z holds f 0, the derivative of f at 0, and its second derivative: the derivative at 0 of the derivative, which exists
    in a neighbourhood *)
Definition bends (f : R -> R) (z : dual * dual) : Prop :=
  fst (fst z) = f 0 /\ locally 0 (fun s => ex_derive f s) /\ is_derive f 0 (snd (fst z)) /\ fst (snd z) = snd (fst z) /\ is_derive (Derive f) 0 (snd (snd z)).
(** the same exception, or a number that bends *)
Definition bends_res (F : R -> res R) (G : res (dual * dual)) : Prop :=
  match G with Err e => forall t, F t = Err e | Ok z => exists f, (forall t, F t = Ok (f t)) /\ bends f z end.
(** the same exception, or an array of the same shape all of whose entries bend *)
Definition bends_rows (F : R -> res (list (list R))) (G : res (list (list (dual * dual)))) : Prop :=
  match G with
  | Err e => forall t, F t = Err e
  | Ok M => exists V, (forall t, F t = Ok (V t)) /\ (forall t, length (V t) = length M) /\
      (forall t i, length (nth i (V t) []) = length (nth i M [])) /\
      forall i j, bends (fun t => nth j (nth i (V t) []) 0) (nth j (nth i M []) ((0, 0), (0, 0)))
  end.
(** where the fits of Eisenstein and Hu (transfer.py) are smooth functions of the parameters *)
Definition transfer_smooth (osc : bool) (c : cosmology) : Prop :=
  0 < _Omega_b c /\ 0 < _h c /\ 0 <= _Omega_c c /\ (if osc then 0 < _Omega_c c else 0 <= eh_alpha_gamma c).
(** The notebook's likelihood at the parameters of [c], with the covariance of [c0]: what jax.lax.stop_gradient leaves to
    differentiate *)
Definition frozen_likelihood (la : linalg) (c0 c : cosmology) (ells : list R) (probes : list probe) (T : Power.transfer) (nl : Power.nonlinear) (f_sky : R) (data : list R) : res R :=
  bind (gaussian_cl_covariance_and_mean c0 (Array1 ells) probes T nl f_sky true) (fun mc =>
  bind (inv (la_inv la) (snd mc)) (fun P =>
  bind (angular_cl c (Array1 ells) probes T nl) (fun mu =>
  let r := vsub data (concat mu) in
  match P with A3 a b n s => Ok (- (1 / 2) * vdot r (sparse_dot_vec b n s r)) | _ => Err ValueError end))).
(** directions: sum *)
Definition dsum (d e : direction) : direction :=
  Direction (dOmega_c d + dOmega_c e) (dOmega_b d + dOmega_b e) (dh d + dh e) (dn_s d + dn_s e) (dsigma8 d + dsigma8 e) (dOmega_k d + dOmega_k e) (dw0 d + dw0 e) (dwa d + dwa e).
