(** * Model of jax_cosmo/redshift.py *)
From Verif Require Import Np Integrate.

(** redshift.py 11 *)
Definition steradian_to_arcmin2 : R := 11818102.86004228.

(** redshift.py 16-21, 62-146: a redshift distribution object is its class with parameters, _gals_per_arcmin2,
    config["zmax"] (and config["bw"] for kde_nz) and the cached _norm.  The parameter tuples are: smail (a, b, z0),
    delta (z0), kde (zcat, weights), systematic_shift (parent, bias). *)
Inductive nz :=
  | Nz (f : nz_family) (gals_per_arcmin2 zmax : R) (norm : option R)
with nz_family :=
  | Smail (a b z0 : R)
  | Delta (z0 : R)
  | Kde (zcat weights : list R) (bw : R)
  | Shift (parent : nz) (bias : R).

Definition nz_fam (d : nz) := match d with Nz f _ _ _ => f end.
Definition nz_gals (d : nz) := match d with Nz _ g _ _ => g end.
Definition nz_zmax (d : nz) := match d with Nz _ _ z _ => z end.
Definition nz_norm (d : nz) := match d with Nz _ _ _ n => n end.
Definition is_delta (d : nz) : bool := match nz_fam d with Delta _ => true | _ => false end.

(** redshift.py 17-21 and, for delta_nz, 89-92: the constructors; _norm starts as None, as 1.0 for delta_nz *)
Definition nz_new (f : nz_family) (gals zmax : R) : nz :=
  Nz f gals zmax (match f with Delta _ => Some 1.0 | _ => None end).

(** redshift.py 118-122 *)
Definition kde_kernel (bw X x : R) : R :=
  (1.0 / sqrt (2 * PI) / bw) * exp (- ((X - x) ^ 2) / (bw ^ 2 * 2.0)).

(** redshift.py 76-78, 94-96, 124-131, 144-146 (pz_fn), pointwise in z.
    delta_nz compares z with the one-element tuple self.params; modelled as comparison with its element. *)
Fixpoint pz_fn (d : nz) (z : R) : R := match d with Nz f _ _ _ => fam_pz f z end
with fam_pz (f : nz_family) (z : R) : R :=
  match f with
  | Smail a b z0 => rpow z a * exp (- rpow (z / z0) b)
  | Delta z0 => if Req_EM_T z z0 then 1.0 else 0
  | Kde zcat wt bw => vdot (map (fun X => kde_kernel bw X z) zcat) wt / vsum wt
  | Shift parent b => pz_fn parent (clip_lo (z - b) 0)
  end.

(** redshift.py 31: simps(pz_fn, 0, zmax, 256); 256 is even, so no error *)
Definition nz_simps_norm (d : nz) : R :=
  match simps (pz_fn d) 0.0 (nz_zmax d) 256 with Ok v => v | Err _ => 0 end.

(** redshift.py 28-32 (__call__): fills the cache, returns the values and the object after the call *)
Definition nz_call (d : nz) (z : list R) : list R * nz :=
  let n := match nz_norm d with None => nz_simps_norm d | Some v => v end in
  (map (fun q => pz_fn d q / n) z, Nz (nz_fam d) (nz_gals d) (nz_zmax d) (Some n)).
(** value at one redshift *)
Definition pz (d : nz) (z : R) : R := el (fst (nz_call d [z])) 0.

(** redshift.py 46-48 *)
Definition gals_per_steradian (d : nz) : R := nz_gals d * steradian_to_arcmin2.

(** redshift.py 51-59: flatten keeps (params, gals) and config (zmax, bw); unflatten calls the constructor, so the
    cached norm is dropped.  jax also flattens and rebuilds the parent of a systematic_shift. *)
Fixpoint nz_jit (d : nz) : nz := match d with Nz f g zm _ => nz_new (fam_jit f) g zm end
with fam_jit (f : nz_family) : nz_family :=
  match f with Shift p b => Shift (nz_jit p) b | _ => f end.
