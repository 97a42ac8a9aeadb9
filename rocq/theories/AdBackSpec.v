(** * Specification: jax.vjp transposes jax.jvp *)
From Verif Require Import Np Core GradSpec Ad AdJacSpec AdBack.
Local Open Scope R_scope.

(** the slots of the eight parameters, as a vector *)
Definition slots (g : nat -> R) : direction := Direction (g 0%nat) (g 1%nat) (g 2%nat) (g 3%nat) (g 4%nat) (g 5%nat) (g 6%nat) (g 7%nat).
(** the backward pass [B] of a function whose forward mode is [F]: the same value, and for every cotangent u and every
    direction, <u, jvp d> = <vjp u, d> *)
Definition vjp1 (B : back) (F : direction -> R -> dual) : Prop :=
  forall d x, fst (F d x) = fst B /\ forall u, u * snd (F d x) = dot (slots (snd B u)) d + snd B u 8%nat * x.
Definition vjp2 (B : back) (F : direction -> R -> R -> dual) : Prop :=
  forall d x y, fst (F d x y) = fst B /\ forall u, u * snd (F d x y) = dot (slots (snd B u)) d + snd B u 8%nat * x + snd B u 9%nat * y.
(** functions that may raise: the same exception, or the same *)
Definition vjp_result (B : res back) (F : direction -> res dual) : Prop := match B with
  | Err e => forall d, F d = Err e
  | Ok b => forall d, exists y, F d = Ok y /\ fst y = fst b /\ forall u, u * snd y = dot (slots (snd b u)) d end.
Definition vjp_result2 (B : res back) (F : direction -> R -> R -> res dual) : Prop := match B with
  | Err e => forall d x y, F d x y = Err e
  | Ok b => exists G, (forall d x y, F d x y = Ok (G d x y)) /\ vjp2 b G end.
(** arrays: the cotangent is an array U *)
Definition contract (U : list (list R)) (M : list (list dual)) : R :=
  Np.vsum (map2 (fun us ms => Np.vsum (map2 (fun u (m : dual) => u * snd m) us ms)) U M).
Definition backward (U : list (list R)) (b : list (list back)) (q : nat) : R :=
  Np.vsum (map2 (fun us bs => Np.vsum (map2 (fun u (x : back) => snd x u q) us bs)) U b).
Definition vjp_rows (B : res (list (list back))) (F : direction -> res (list (list dual))) : Prop := match B with
  | Err e => forall d, F d = Err e
  | Ok b => forall d, exists M, F d = Ok M /\ map (map fst) M = map (map fst) b /\ forall U, contract U M = dot (slots (backward U b)) d end.
