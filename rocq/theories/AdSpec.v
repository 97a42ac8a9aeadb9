(** * Specification: a dual number carries a value and its derivative *)
From Coquelicot Require Import Coquelicot.
From Verif Require Import Np Core BgSpec BgPositive GradSpec Ad.

(** [d] holds the value and the derivative of f at t *)
Definition tangent_of (f : R -> R) (t : R) (d : dual) : Prop := fst d = f t /\ is_derive f t (snd d).

(** a curve of newly built cosmologies, and the dual numbers of its parameters at t *)
Definition moves (c : R -> cosmology) (t : R) (g : gcosmo dual) : Prop :=
  (forall s, fresh (c s) /\ _gamma_growth (c s) = match _gamma (c s) with Some _ => true | None => false end) /\
  tangent_of (fun s => _Omega_c (c s)) t (gOmega_c g) /\ tangent_of (fun s => _Omega_b (c s)) t (gOmega_b g) /\
  tangent_of (fun s => _h (c s)) t (gh g) /\ tangent_of (fun s => _n_s (c s)) t (gn_s g) /\
  tangent_of (fun s => _sigma8 (c s)) t (gsigma8 g) /\ tangent_of (fun s => _Omega_k (c s)) t (gOmega_k g) /\
  tangent_of (fun s => _w0 (c s)) t (gw0 g) /\ tangent_of (fun s => _wa (c s)) t (gwa g) /\
  match ggamma g with
  | Some v => exists y, (forall s, _gamma (c s) = Some (y s)) /\ tangent_of y t v
  | None => forall s, _gamma (c s) = None
  end.

(** a cosmology just returned by the constructor *)
Definition built (c : cosmology) : Prop :=
  c = make_cosmology (_Omega_c c) (_Omega_b c) (_h c) (_n_s c) (_sigma8 c) (_Omega_k c) (_w0 c) (_wa c) (_gamma c).
(** jax.jvp(F, (cosmo, a), (d, da)): [G] run on dual numbers returns the value of F and its derivative along the line
    through (cosmo, a) in the direction (d, da) *)
Definition differentiates (F : cosmology -> R -> R) (G : gcosmo dual -> dual -> dual) (c : cosmology) (d : direction) (a da : R) : Prop :=
  fst (G (dual_cosmo c d) (a, da)) = F c a /\
  is_derive (fun t => F (displaced c d t) (a + t * da)) 0 (snd (G (dual_cosmo c d) (a, da))).
(** the query stays where it is, or is not at an inner node of the table of n values *)
Definition off_nodes (n : nat) (a da : R) : Prop := da = 0 \/ forall i, (2 <= i <= n - 2)%nat -> a <> table_node n i.
(** growth tables without zeros: matter, and for the ODE a physical cosmology *)
Definition growing (c : cosmology) : Prop := match _gamma c with Some _ => 0 < Omega_m c | None => physical c /\ moderate c end.
(** slope between the last two nodes of the table of n values *)
Definition last_slope (F : R -> R) (n : nat) : R := (F 1 - F (table_node n (n - 2))) / (1 - table_node n (n - 2)).
(** the same for a function of the cosmology, a wave number and a scale factor *)
Definition differentiates2 (F : cosmology -> R -> R -> R) (G : gcosmo dual -> dual -> dual -> dual) (c : cosmology) (d : direction)
  (k dk a da : R) : Prop :=
  fst (G (dual_cosmo c d) (k, dk) (a, da)) = F c k a /\
  is_derive (fun t => F (displaced c d t) (k + t * dk) (a + t * da)) 0 (snd (G (dual_cosmo c d) (k, dk) (a, da))).
(** jax.jvp of the transfer function [T] is the run of [GT] on dual numbers, at every wave number *)
Definition transfer_jvp (T : cosmology -> R -> R) (GT : gcosmo dual -> dual -> dual) (c : cosmology) : Prop :=
  forall d k dk, 0 < k -> differentiates T GT c d k dk.
(** where the growth factor is differentiable: inside the table and between its nodes, or held fixed at a node or at a = 1 *)
Definition growth_smooth (D : cosmology -> R -> R) (c : cosmology) (a da : R) : Prop :=
  0 < a /\ 0 < D c a < 1 /\ off_nodes 128 a da \/ a = 1 /\ da = 0.
