(** * Specification: reverse mode with respect to the cosmology and the slots of a survey *)
From Verif Require Import Np Core GradSpec Ad AdJacSpec AdNuis AdBack AdBackSpec AdNuisBack.
Local Open Scope R_scope.

(** tangents of finitely many slots *)
Definition below (K : nat) (w : nat -> R) : Prop := forall q, (K <= q)%nat -> w q = 0.
(** the pairing of a cotangent with the tangents d of the cosmology and w of the survey *)
Definition paired (g : nat -> R) (d : direction) (K : nat) (w : nat -> R) : R := dot (slots g) d + Rsum K (fun q => g (8 + q)%nat * w q).
(** the backward pass [B] of a function with forward mode [F]: the same exception, or the same value and <u, jvp> = <vjp u, .> *)
Definition survey_vjp (B : res back) (F : direction -> (nat -> R) -> res dual) : Prop := match B with
  | Err e => forall d K w, below K w -> F d w = Err e
  | Ok b => forall d K w, below K w -> exists y, F d w = Ok y /\ fst y = fst b /\ forall u, u * snd y = paired (snd b u) d K w end.
Definition survey_vjp_rows (B : res (list (list back))) (F : direction -> (nat -> R) -> res (list (list dual))) : Prop := match B with
  | Err e => forall d K w, below K w -> F d w = Err e
  | Ok b => forall d K w, below K w -> exists M, F d w = Ok M /\ map (map fst) M = map (map fst) b /\ forall U, contract U M = paired (backward U b) d K w end.
