(** * Specification: jax.grad in floating point returns the gradient *)
From Coquelicot Require Import Coquelicot.
From Verif Require Import Np Core Background BgSpec Transfer SparseX Redshift Bias Probes GradSpec Ad AdSpec AdArrSpec AdNuis AdNuisSpec AdNuisBack AdNuisBackSpec XBack.

(** the value of a parameter that moves with tangent w of its slot, and the parameters of cosmologies and surveys *)
Definition leaf_at (w : nat -> R) (t : R) (l : leaf) : R := fst l + t * match snd l with Some i => w i | None => 0 end.
Definition read_cosmo (v : leaf -> R) (g : gcosmo leaf) : cosmology :=
  make_cosmology (v (gOmega_c g)) (v (gOmega_b g)) (v (gh g)) (v (gn_s g)) (v (gsigma8 g)) (v (gOmega_k g)) (v (gw0 g)) (v (gwa g)) (option_map v (ggamma g)).
Definition survey_at (w : nat -> R) (t : R) (S : list (gprobe leaf)) : list probe := map (read_probe (leaf_at w t)) S.

(** what jax.value_and_grad returns: the value, and the contributions of the cotangent 1 *)
Definition partial (x : xback) (q : nat) : XR := match snd x with None => Fin 0 | Some B => B (Fin 1) q end.
(** x is the result of a program that computes f w t from parameters that move with the tangents w: its value is ordinary and
    right; every ordinary cotangent u is sent to ordinary amounts u * p, and p is the gradient: its product with the tangents
    of the slots is the derivative *)
Definition graded (f : (nat -> R) -> R -> R) (x : xback) : Prop :=
  exists p : nat -> R, (forall q, partial x q = Fin (p q)) /\
    (match snd x with None => True | Some B => forall u q, B (Fin u) q = Fin (u * p q) end) /\
    forall K w, below K w -> fst x = Fin (f w 0) /\ is_derive (f w) 0 (Rsum K (fun q => p q * w q)).
(** a program that returns a number or raises *)
Definition number_graded (F : (nat -> R) -> R -> res R) (G : res xback) : Prop :=
  match G with
  | Err e => forall K w t, below K w -> F w t = Err e
  | Ok x => exists f, (forall K w t, below K w -> F w t = Ok (f w t)) /\ graded f x
  end.
(** a program that returns an array or raises *)
Definition rows_graded (F : (nat -> R) -> R -> res (list (list R))) (G : res (list (list xback))) : Prop :=
  match G with
  | Err e => forall K w t, below K w -> F w t = Err e
  | Ok M => exists V, (forall K w t, below K w -> F w t = Ok (V w t)) /\
      (forall K w t, below K w -> length (V w t) = length M /\ forall i, length (nth i (V w t) []) = length (nth i M [])) /\
      forall i j, graded (fun w t => nth j (nth i (V w t) []) 0) (nth j (nth i M []) (Fin 0, None))
  end.
(** the tangents of a survey all of whose inputs move *)
Definition all_move (l : leaf) : dual := (fst l, match snd l with Some _ => 1 | None => 0 end).
(** a query that is not differentiated, or one between the nodes of the table of n values *)
Definition between (n : nat) (l : leaf) : Prop := snd l = None \/ forall i, (2 <= i <= n - 2)%nat -> fst l <> table_node n i.
(** the range of the transfer functions of Eisenstein and Hu with (osc) and without oscillations *)
Definition eh_regular (osc : bool) (c : cosmology) : Prop := (0 < _Omega_b c /\ 0 <= _Omega_c c /\ 0 < _h c) /\ if osc then 0 < _Omega_c c else 0 <= eh_alpha_gamma c.
(** Smail distributions with an exponent of the cut-off below 1: differentiated with respect to the scale z0, in slot i, or shifted
    by a non-negative bias in slot i *)
Definition root_leaf (i : nat) (d : gnz leaf) : Prop :=
  match d with
  | GNz (GSmail a b z0) _ zm => 0 < fst a /\ 0 < fst b < 1 /\ 0 < fst z0 /\ 0 < zm /\ snd z0 = Some i
  | GNz (GShift (GNz (GSmail a b z0) _ _) be) _ zm => 1 < fst a /\ 0 < fst b < 1 /\ 0 < fst z0 /\ 0 <= fst be < zm /\ snd be = Some i
  | _ => False
  end.
