(** * Specification for derivatives with respect to the parameters *)
From Coquelicot Require Import Coquelicot.
From Verif Require Import Np Core Background.

(** a direction in the space of the eight parameters of core.py 14-65, and the cosmology displaced along it *)
Record direction := Direction { dOmega_c : R; dOmega_b : R; dh : R; dn_s : R; dsigma8 : R; dOmega_k : R; dw0 : R; dwa : R }.
Definition displaced (c : cosmology) (d : direction) (t : R) : cosmology :=
  make_cosmology (_Omega_c c + t * dOmega_c d) (_Omega_b c + t * dOmega_b d) (_h c + t * dh d) (_n_s c + t * dn_s d)
    (_sigma8 c + t * dsigma8 d) (_Omega_k c + t * dOmega_k d) (_w0 c + t * dw0 d) (_wa c + t * dwa d) (_gamma c).

(** the three branches of transverse_comoving_distance (background.py 331-340) as functions of Omega_k and chi *)
Definition open_branch (ok x : R) : R := 2997.92458 / sqrt (Rabs ok) * sinh (sqrt (Rabs ok) * x / 2997.92458).
Definition closed_branch (ok x : R) : R := 2997.92458 / sqrt (Rabs ok) * sin (sqrt (Rabs ok) * x / 2997.92458).
Definition flat_branch (ok x : R) : R := x.
Definition selected (c : cosmology) : R -> R -> R :=
  match curv c with (-1)%Z => open_branch | 0%Z => flat_branch | _ => closed_branch end.

(** Transverse distance along a curve, chi included, and the tangent that forward- or reverse-mode differentiation
    produces for it: lax.switch differentiates the branch that was selected, with the index held fixed
    (background.py 344) *)
Definition transverse_along (c : cosmology) (d : direction) (a t : R) : R := f_k (displaced c d t) a.
Definition switch_tangent (c : cosmology) (d : direction) (a : R) : R :=
  Derive (fun t => selected c (_Omega_k c + t * dOmega_k d) (chi (displaced c d t) a)) 0.
