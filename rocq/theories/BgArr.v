(** * Model of background.py on arrays of any rank

    Background.v evaluates the tabulated functions on numbers and vectors.  Caches are not threaded through (C33). *)
From Verif Require Import Np Core Interp Background Nd.

(** background.py 199-242: radial_comoving_distance with its default arguments *)
Definition distance_nd (c : cosmology) (a : nd) : res nd :=
  let t := chi_table c (-3) 256 in
  bind (interp_nd (atleast1 a) (fst t) (snd t)) (fun r => Ok (uop1 (fun x => clip_lo x 0.0) r)).
(** background.py 371-398: the lookup table, 453-486 (ODE) or 534-547 (gamma) *)
Definition growth_tables (c : cosmology) : list R * list R :=
  if _gamma_growth c then growth_table_gamma c (-3) 128 else fst (growth_table_ODE c (-3) 128).
(** background.py 371-398, 488 and 548 (growth_factor); a is not made an array *)
Definition growth_nd (c : cosmology) (a : nd) : res nd :=
  let t := growth_tables c in
  bind (interp_nd a (fst t) (snd t)) (fun r => Ok (uop1 (fun x => clip x 0.0 1.0) r)).
