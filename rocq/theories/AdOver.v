(** * Second derivatives

    jax.hessian(f) is jax.jacfwd(jax.jacrev(f)): reverse mode run on numbers that carry a tangent themselves.  Below, reverse mode
    (as in AdBack.v) and forward mode (as in Ad.v) over an arbitrary type of numbers; at [num_dual] they give second derivatives.

    Trusted (JAX, not in /repo): the rules of forward and of reverse mode are themselves made of the operations of [num] and
    are differentiated like any other program; comparisons and signs see values only.  cosh is not one of the operations of
    [num] and is written with exponentials. *)
From Verif Require Import Np Core Interp Sparse Likelihood Probes Power AngularCl GradSpec Ad AdPower AdProbes AdLike.
Local Open Scope R_scope.

Section Over.
Context {A : Type} (N : num A).
Local Infix "+" := (nadd N) : ad_scope.
Local Infix "-" := (nsub N) : ad_scope.
Local Infix "*" := (nmul N) : ad_scope.
Local Infix "/" := (ndiv N) : ad_scope.
Local Notation "- x" := (nneg N x) : ad_scope.
Local Notation "' x" := (cst N x%R) (at level 1, format "' x") : ad_scope.
Local Open Scope ad_scope.

Definition ncosh (x : A) : A := (nexp N x + nexp N (- x)) / '2.
(** the jvp of max and min: see [sel3] *)
Definition nsel (x y : R) (tx ty : A) : A := if Rlt_dec y x then tx else if Rlt_dec x y then ty else (tx + ty) / '2.

(** forward mode, see [num_dual] *)
Definition num_over : num (A * A) :=
  Num (A * A) (fun x => ('x, '0)) (fun x => val N (fst x))
    (fun x y => (fst x + fst y, snd x + snd y))
    (fun x y => (fst x - fst y, snd x - snd y))
    (fun x y => (fst x * fst y, snd x * fst y + fst x * snd y))
    (fun x y => (fst x / fst y, snd x / fst y - snd y * (fst x / nipow N (fst y) 2)))
    (fun x => (- fst x, - snd x))
    (fun x => (nexp N (fst x), snd x * nexp N (fst x)))
    (fun x => (nln N (fst x), snd x / fst x))
    (fun x => (nsqrt N (fst x), snd x * ('0.5 / nsqrt N (fst x))))
    (fun x => (nsin N (fst x), snd x * ncos N (fst x)))
    (fun x => (ncos N (fst x), - (snd x * nsin N (fst x))))
    (fun x => (nsinh N (fst x), snd x * ncosh (fst x)))
    (fun x => (nabs N (fst x), snd x * '(Rsgn (val N (fst x)))))
    (fun x z => (nipow N (fst x) z, snd x * ('(IZR z) * nipow N (fst x) (z - 1)%Z)))
    (fun x y => (npow N (fst x) (fst y), snd x * (fst y * npow N (fst x) (fst y - '1)) + snd y * (nln N (fst x) * npow N (fst x) (fst y))))
    (fun x y => (nmax N (fst x) (fst y), nsel (val N (fst x)) (val N (fst y)) (snd x) (snd y)))
    (fun x y => (nmin N (fst x) (fst y), nsel (Ropp (val N (fst x))) (Ropp (val N (fst y))) (snd x) (snd y))).

(** reverse mode, see [num_back] *)
Definition back_over : Type := A * (A -> nat -> A).
Definition num_back_over : num back_over :=
  Num back_over (fun x => ('x, fun _ _ => '0)) (fun x => val N (fst x))
    (fun x y => (fst x + fst y, fun u q => snd x u q + snd y u q))
    (fun x y => (fst x - fst y, fun u q => snd x u q + snd y (- u) q))
    (fun x y => (fst x * fst y, fun u q => snd x (u * fst y) q + snd y (fst x * u) q))
    (fun x y => (fst x / fst y, fun u q => snd x (u / fst y) q + snd y (- (u * (fst x / nipow N (fst y) 2))) q))
    (fun x => (- fst x, fun u => snd x (- u)))
    (fun x => (nexp N (fst x), fun u => snd x (u * nexp N (fst x))))
    (fun x => (nln N (fst x), fun u => snd x (u / fst x)))
    (fun x => (nsqrt N (fst x), fun u => snd x (u * ('0.5 / nsqrt N (fst x)))))
    (fun x => (nsin N (fst x), fun u => snd x (u * ncos N (fst x))))
    (fun x => (ncos N (fst x), fun u => snd x (- (u * nsin N (fst x)))))
    (fun x => (nsinh N (fst x), fun u => snd x (u * ncosh (fst x))))
    (fun x => (nabs N (fst x), fun u => snd x (u * '(Rsgn (val N (fst x))))))
    (fun x z => (nipow N (fst x) z, fun u => snd x (u * ('(IZR z) * nipow N (fst x) (z - 1)%Z))))
    (fun x y => (npow N (fst x) (fst y),
       fun u q => snd x (u * (fst y * npow N (fst x) (fst y - '1))) q + snd y (u * (nln N (fst x) * npow N (fst x) (fst y))) q))
    (fun x y => (nmax N (fst x) (fst y), fun u q => snd x (nsel (val N (fst x)) (val N (fst y)) u '0) q + snd y (nsel (val N (fst x)) (val N (fst y)) '0 u) q))
    (fun x y => (nmin N (fst x) (fst y), fun u q =>
       snd x (nsel (Ropp (val N (fst x))) (Ropp (val N (fst y))) u '0) q + snd y (nsel (Ropp (val N (fst x))) (Ropp (val N (fst y))) '0 u) q)).
(** an input, as in AdBack.v *)
Definition input_over (x : A) (i : nat) : back_over := (x, fun u q => if Nat.eqb q i then u else '0).
End Over.
Arguments back_over : clear implicits.

(** the parameters as jax.hessian feeds them: the tangent along [e] of the outer forward mode, a slot for the inner reverse mode *)
Definition hessian_cosmo (c : cosmology) (e : direction) : gcosmo (back_over dual) :=
  let p x t i := input_over num_dual (x, t) i in
  GCosmo (p (_Omega_c c) (dOmega_c e) 0%nat) (p (_Omega_b c) (dOmega_b e) 1%nat) (p (_h c) (dh e) 2%nat) (p (_n_s c) (dn_s e) 3%nat) (p (_sigma8 c) (dsigma8 e) 4%nat)
    (p (_Omega_k c) (dOmega_k e) 5%nat) (p (_w0 c) (dw0 e) 6%nat) (p (_wa c) (dwa e) 7%nat)
    (match _gamma c with Some g => Some (cst (num_back_over num_dual) g) | None => None end).
(** jax.jacfwd(jax.jacfwd(f)): outer direction [e], inner direction [d] *)
Definition twice_cosmo (c : cosmology) (e d : direction) : gcosmo (dual * dual) :=
  let p (x t s : R) : dual * dual := ((x, t), (s, 0)) in
  GCosmo (p (_Omega_c c) (dOmega_c e) (dOmega_c d)) (p (_Omega_b c) (dOmega_b e) (dOmega_b d)) (p (_h c) (dh e) (dh d)) (p (_n_s c) (dn_s e) (dn_s d))
    (p (_sigma8 c) (dsigma8 e) (dsigma8 d)) (p (_Omega_k c) (dOmega_k e) (dOmega_k d)) (p (_w0 c) (dw0 e) (dw0 d)) (p (_wa c) (dwa e) (dwa d))
    (match _gamma c with Some g => Some (cst (num_over num_dual) g) | None => None end).

Section Programs.
Context {A : Type} (N : num A).
(** the likelihood of docs/notebooks/jax-cosmo-intro.ipynb: mean and sparse covariance at the parameters; jax.lax.stop_gradient
    turns the covariance into constants; P = sparse.inv(C); r = data - m; -0.5 * r.T @ sparse_dot_vec(P, r) (sparse.py
    140-162 and 295-315) *)
Definition gnotebook_likelihood (la : linalg) (c : gcosmo A) (ell : list R) (probes : list probe) (P : gspectrum A) (f_sky : R) (data : list R) : res A :=
  bind (ggaussian_cl_covariance_and_mean N c ell probes P f_sky true) (fun mc =>
  match snd mc with
  | G3 a b n s =>
      if negb (Nat.eqb a b) then Err ValueError
      else
        let prec := map (map (map (cst N))) (inv_data (la_inv la) a n (map (map (map (val N))) s)) in
        let r := gvsub N (map (cst N) data) (fst mc) in
        Ok (nmul N (cst N (- (1 / 2))) (gvdot N r (gsparse_dot_vec N a n prec r)))
  | _ => Err ValueError
  end).
End Programs.
(** the same cell of the notebook, with the functions of /repo themselves *)
Definition notebook_likelihood (la : linalg) (c : cosmology) (ell : list R) (probes : list probe) (T : Power.transfer) (nl : Power.nonlinear) (f_sky : R) (data : list R) : res R :=
  bind (gaussian_cl_covariance_and_mean c (Array1 ell) probes T nl f_sky true) (fun mc =>
  bind (inv (la_inv la) (snd mc)) (fun P =>
  let r := vsub data (fst mc) in
  match P with A3 a b n s => Ok (- (1 / 2) * vdot r (sparse_dot_vec b n s r)) | _ => Err ValueError end)).
