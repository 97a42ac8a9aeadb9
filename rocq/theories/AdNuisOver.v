(** * Second derivatives of the likelihood with respect to cosmology and nuisance parameters: programs

    jax.hessian of the likelihood of docs/notebooks/jax-cosmo-intro.ipynb when redshift distributions, biases and shear
    calibrations are parameters too: reverse mode (AdNuisBack.v) run on dual numbers (AdOver.v). *)
From Verif Require Import Np Core Sparse Likelihood Interp Integrate Background Redshift Probes AngularCl Ad AdPower AdProbes AdLike AdOver AdNuis AdNuisLike AdNuisBack.

Section Programs.
Context {A : Type} (N : num A).
(** as [gnotebook_likelihood] of AdOver.v, with the programs of AdNuis.v and AdNuisLike.v: angular_cl.py 169-199 for mean and
    sparse covariance; jax.lax.stop_gradient turns the covariance into constants; P = sparse.inv(C); r = data - m;
    -0.5 * r.T @ sparse_dot_vec(P, r) (sparse.py 140-162 and 295-315) *)
Definition hnotebook_likelihood (la : linalg) (c : gcosmo A) (ell : list R) (probes : list (gprobe A)) (P : gspectrum A) (f_sky : R) (data : list R) : res A :=
  bind (hgaussian_cl_covariance_and_mean N c ell probes P f_sky true) (fun mc =>
  match snd mc with
  | G3 a b n s =>
      if negb (Nat.eqb a b) then Err ValueError
      else
        let prec := map (map (map (cst N))) (inv_data (la_inv la) a n (map (map (map (val N))) s)) in
        let r := gvsub N (map (cst N) data) (fst mc) in
        Ok (nmul N (cst N (- (1 / 2))) (gvdot N r (gsparse_dot_vec N a n prec r)))
  | _ => Err ValueError
  end).
End Programs.
(** the survey as jax.hessian feeds it: tangents [v] of the slots in the outer forward mode, slots 8, 9, ... of the inner reverse mode *)
Definition tracked_over (v : nat -> R) (S : list (gprobe param)) : list (gprobe (back_over dual)) :=
  map (probe_map (fun p => input_over num_dual (fst p, v (snd p)) (8 + snd p))) S.
(** jax.jacfwd(jax.jacfwd(f)): outer tangents [v], inner tangents [w] *)
Definition pushed_twice (v w : nat -> R) (S : list (gprobe param)) : list (gprobe (dual * dual)) :=
  map (probe_map (fun p => ((fst p, v (snd p)), (w (snd p), 0)))) S.
