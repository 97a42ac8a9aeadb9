(** * Np: exceptions-as-values and the numpy / jax.numpy primitives used by the code.

    Scalars are exact reals.  Arrays are lists (nested lists for 2D/3D).  Every definition
    here models a library primitive, not a function of /repo; the comments say where /repo uses it. *)
From Coq Require Export String.
From Coq Require Export Reals ZArith Lia Lra Bool Arith List.
Export ListNotations.
Open Scope R_scope.

(** Python exceptions that the code (or the library it calls) raises. *)
Inductive exn :=
  | ValueError | AttributeError | NotImplementedError | AssertionError
  | TypeError | KeyError | NameError.

Inductive res (A : Type) := Ok (a : A) | Err (e : exn).
Arguments Ok {A} _.
Arguments Err {A} _.

Definition bind {A B} (r : res A) (f : A -> res B) : res B :=
  match r with Ok a => f a | Err e => Err e end.

(** ** Elementary list arrays *)

(** elementwise binary operation on two arrays of the same length *)
Fixpoint map2 {A B C} (f : A -> B -> C) (l : list A) (m : list B) : list C :=
  match l, m with
  | x :: l', y :: m' => f x y :: map2 f l' m'
  | _, _ => []
  end.

Definition vadd (u v : list R) : list R := map2 Rplus u v.
Definition vsub (u v : list R) : list R := map2 Rminus u v.
Definition vmul (u v : list R) : list R := map2 Rmult u v.
Definition vdiv (u v : list R) : list R := map2 Rdiv u v.
Definition vscale (c : R) (v : list R) : list R := map (Rmult c) v.

(** np.sum of a 1D array *)
Definition vsum (v : list R) : R := fold_right Rplus 0 v.

(** np.sum(_, axis=0) of a 2D array with [n] columns *)
Definition sum0 (n : nat) (rows : list (list R)) : list R :=
  fold_right vadd (repeat 0 n) rows.

(** np.dot of two vectors *)
Definition vdot (u v : list R) : R := vsum (vmul u v).

(** Array shorthands: element [i] of a vector, [i,j] of a matrix, [i,j,k] of a 3D array *)
Definition el (v : list R) (i : nat) : R := nth i v 0.
Definition el2 (m : list (list R)) (i j : nat) : R := nth j (nth i m []) 0.
Definition el3 (s : list (list (list R))) (i j k : nat) : R := nth k (nth j (nth i s []) []) 0.

(** well-shaped nested lists *)
Definition wf1 (n : nat) (v : list R) : Prop := length v = n.
Definition wf2 (r c : nat) (m : list (list R)) : Prop :=
  length m = r /\ forall row, In row m -> length row = c.
Definition wf3 (a b n : nat) (s : list (list (list R))) : Prop :=
  length s = a /\ forall row, In row s -> wf2 b n row.

(** arange(n) mapped through f *)
Definition tab {A} (n : nat) (f : nat -> A) : list A := map f (seq 0 n).

(** v.reshape((b, n)) for a vector of length b*n (row-major) *)
Fixpoint chunk {A} (n b : nat) (v : list A) : list (list A) :=
  match b with
  | O => []
  | S b' => firstn n v :: chunk n b' (skipn n v)
  end.

(** column j of a 2D array / [:, j, :] of a 3D array: what vmap over axis 1 feeds *)
Definition col (j : nat) (m : list (list R)) : list R := map (fun r => nth j r 0) m.
Definition col3 (j : nat) (s : list (list (list R))) : list (list R) := map (fun r => nth j r []) s.

(** stacking results of a vmap along output axis 1: [cs] is the list over axis 1, each of length r *)
Definition stack1 {A} (d : A) (r : nat) (cs : list (list A)) : list (list A) :=
  tab r (fun i => map (fun c => nth i c d) cs).

(** np.diag of a vector *)
Definition diag (v : list R) : list (list R) :=
  tab (length v) (fun i => tab (length v) (fun j => if Nat.eqb i j then nth i v 0 else 0)).

(** np.diag(v, k) for k >= 0 (upper) and for k < 0 (lower): square matrix of size len(v)+|k| *)
Definition diag_up (k : nat) (v : list R) : list (list R) :=
  tab (length v + k) (fun i => tab (length v + k) (fun j => if Nat.eqb j (i + k) then nth i v 0 else 0)).
Definition diag_lo (k : nat) (v : list R) : list (list R) :=
  tab (length v + k) (fun i => tab (length v + k) (fun j => if Nat.eqb i (j + k) then nth j v 0 else 0)).
Definition madd (m1 m2 : list (list R)) : list (list R) := map2 vadd m1 m2.

(** np.hstack of a (b, n, m) array: [n] rows, the b blocks side by side *)
Definition hstack (n : nat) (ms : list (list (list R))) : list (list R) :=
  tab n (fun i => concat (map (fun m => nth i m []) ms)).
(** np.vstack of a list of 2D arrays *)
Definition vstack (ms : list (list (list R))) : list (list R) := concat ms.

(** np.linspace(a, b, n) *)
Definition linspace (a b : R) (n : nat) : list R :=
  tab n (fun i => a + INR i * ((b - a) / INR (n - 1))).

(** 10**x and np.logspace(a, b, n) *)
Definition pow10 (x : R) : R := exp (x * ln 10).
Definition logspace (a b : R) (n : nat) : list R := map pow10 (linspace a b n).

(** np.log10 *)
Definition log10 (x : R) : R := ln x / ln 10.

(** np.power / ** with a real exponent, for a base >= 0; 0 ** y is 0 for y > 0 and 1 for y = 0.  (numpy gives inf
    for 0 ** y, y < 0, and nan for a negative base and fractional exponent: no theorem relies on those values.) *)
Definition rpow (x y : R) : R :=
  if Req_EM_T x 0 then (if Req_EM_T y 0 then 1 else 0) else exp (y * ln x).

(** np.clip(x, lo, hi) = minimum(maximum(x, lo), hi): the order matters when lo > hi *)
Definition clip (x lo hi : R) : R := Rmin (Rmax x lo) hi.
(** np.clip(x, lo) *)
Definition clip_lo (x lo : R) : R := Rmax x lo.
Definition clipZ (x lo hi : Z) : Z := Z.min (Z.max x lo) hi.

(** np.sign *)
Definition Rsgn (x : R) : R := if Rlt_dec x 0 then -1 else if Rlt_dec 0 x then 1 else 0.
(** np.sign(x).astype(int) *)
Definition isign (x : R) : Z := if Rlt_dec x 0 then (-1)%Z else if Rlt_dec 0 x then 1%Z else 0%Z.
(** np.copysign(1, s).astype(int) for an integer s: the sign bit of 0 is positive *)
Definition copysign1 (s : Z) : Z := if (s <? 0)%Z then (-1)%Z else 1%Z.

(** array indexing with an integer: negative indices count from the end, out of range clamps (jax gather) *)
Definition getZ {A} (d : A) (l : list A) (i : Z) : A :=
  let n := Z.of_nat (length l) in
  let i' := if (i <? 0)%Z then (i + n)%Z else i in
  nth (Z.to_nat (clipZ i' 0 (n - 1))) l d.

(** np.argmin: first index of the smallest element (0 for the empty list) *)
Fixpoint argmin_from (best : R) (bi : nat) (i : nat) (l : list R) : nat :=
  match l with
  | [] => bi
  | x :: l' => if Rlt_dec x best then argmin_from x i (S i) l' else argmin_from best bi (S i) l'
  end.
Definition argmin (l : list R) : nat :=
  match l with [] => 0%nat | x :: l' => argmin_from x 0 1 l' end.

(** np.digitize(x, bins) for increasing bins: number of bins <= x *)
Definition digitize (x : R) (bins : list R) : nat :=
  length (filter (fun b => if Rle_dec b x then true else false) bins).

(** np.diff *)
Fixpoint diff (v : list R) : list R :=
  match v with
  | x :: ((y :: _) as t) => (y - x) :: diff t
  | _ => []
  end.

(** np.cumsum *)
Fixpoint cumsum_from (acc : R) (v : list R) : list R :=
  match v with [] => [] | x :: v' => (acc + x) :: cumsum_from (acc + x) v' end.
Definition cumsum (v : list R) : list R := cumsum_from 0 v.

(** jax.lax.scan(f, init, xs): final carry and stacked outputs *)
Fixpoint scan {C X Y} (f : C -> X -> C * Y) (c : C) (xs : list X) : C * list Y :=
  match xs with
  | [] => (c, [])
  | x :: xs' => let (c1, y) := f c x in let (c2, ys) := scan f c1 xs' in (c2, y :: ys)
  end.

(** np.gradient(v) (unit spacing): needs at least two samples, else ValueError *)
Definition gradient (v : list R) : res (list R) :=
  let n := length v in
  if Nat.ltb n 2 then Err ValueError
  else Ok (tab n (fun i =>
         if Nat.eqb i 0 then el v 1 - el v 0
         else if Nat.eqb i (n - 1) then el v (n - 1) - el v (n - 2)
         else (el v (i + 1) - el v (i - 1)) / 2)).

(** python max(list): ValueError on the empty list *)
Definition pymax (l : list R) : res R :=
  match l with [] => Err ValueError | x :: l' => Ok (fold_left Rmax l' x) end.

(** range sum used by specifications: f 0 + ... + f (n-1) *)
Fixpoint Rsum (n : nat) (f : nat -> R) : R :=
  match n with O => 0 | S n' => Rsum n' f + f n' end.
