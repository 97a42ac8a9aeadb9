(** * Specification: surveys whose redshift densities are differentiable functions of their parameters *)
From Coquelicot Require Import Coquelicot.
From Verif Require Import Np Redshift Bias Probes Core Background Ad AdNuis AdNuisSpec AdNuisBack AdNuisBackSpec XBack.
Local Open Scope R_scope.

(** the density of the bin at every redshift is a differentiable function of time; source planes are at rest *)
Definition soft_bin (d : gnz dual) : Prop :=
  match gnz_fam d with GDelta z0 => snd z0 = 0 | _ => forall q, 0 <= q -> ex_derive (fun t => pz (read_nz (at_time t) d) q) 0 end.
Definition soft_probe (p : gprobe dual) : Prop :=
  (forall d, In d (gbins_of p) -> soft_bin d) /\
  match p with GPWL q => match gwl_ia q with Some b => bias_arg_ok b | None => True end | GPNC q => bias_arg_ok (gnc_bias q) end.
Definition soft_survey (S : list (gprobe dual)) : Prop := forall p, In p S -> soft_probe p.

(** the value and the tangent of an input of jax.grad when the slots move with tangents w; a survey that is differentiable in every direction *)
Definition slope_pair (w : nat -> R) (l : leaf) : dual := (fst l, match snd l with Some i => w i | None => 0 end).
Definition soft_leaves (S : list (gprobe leaf)) : Prop := forall w, soft_survey (map (probe_map (slope_pair w)) S).
(** a cosmology that is not differentiated *)
Definition fixed_cosmo (c : cosmology) : gcosmo leaf := cosmo_map (fun x => (x, None)) (lift_cosmo c).
