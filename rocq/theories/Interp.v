(** * Model of interp, jax_cosmo/scipy/interpolate.py 15-40 *)
From Verif Require Import Np.

(** interpolate.py 16-40, for one query point (the vmap of line 15 maps it over x) *)
Definition interp1 (x : R) (xp fp : list R) : R :=
  let ind := Z.of_nat (argmin (map (fun p => (x - p) ^ 2) xp)) in
  let ind := clipZ ind 1 (Z.of_nat (length xp) - 2) in
  let xi := getZ 0 xp ind in
  let s := isign (clip x (getZ 0 xp 1) (getZ 0 xp (-2)) - xi) in
  let j := (ind + copysign1 s)%Z in
  let a := (getZ 0 fp j - getZ 0 fp ind) / (getZ 0 xp j - getZ 0 xp ind) in
  let b := getZ 0 fp ind - a * getZ 0 xp ind in
  a * x + b.

(** interpolate.py 15-16: vmap over the first argument.  A scalar (0-dimensional) x is rejected by vmap with
    ValueError; array_like distinguishes the two. *)
Inductive array_like := Scalar (x : R) | Array1 (v : list R).
Definition interp (x : array_like) (xp fp : list R) : res (list R) :=
  match x with
  | Scalar _ => Err ValueError
  | Array1 v => Ok (map (fun q => interp1 q xp fp) v)
  end.
(** np.atleast_1d *)
Definition atleast_1d (x : array_like) : list R := match x with Scalar q => [q] | Array1 v => v end.
