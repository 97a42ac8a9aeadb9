(** * Specification: arrays that move with a parameter, and the derivative of the Gaussian log-likelihood *)
From Coquelicot Require Import Coquelicot.
From Verif Require Import Np Sparse SparseSpec Likelihood FisherSpec Ad AdSpec.

(** arrays of fixed shape along a curve, and the dual numbers of their entries at 0 *)
Definition curve1 (n : nat) (v : R -> list R) (x : list dual) : Prop :=
  (forall s, wf1 n (v s)) /\ length x = n /\ forall i, (i < n)%nat -> tangent_of (fun s => el (v s) i) 0 (nth i x (0, 0)).
Definition curve2 (r c : nat) (m : R -> list (list R)) (x : list (list dual)) : Prop :=
  (forall s, wf2 r c (m s)) /\ length x = r /\ (forall i, (i < r)%nat -> length (nth i x []) = c) /\
  forall i j, (i < r)%nat -> (j < c)%nat -> tangent_of (fun s => el2 (m s) i j) 0 (nth j (nth i x []) (0, 0)).
Definition curve3 (a b n : nat) (t : R -> list (list (list R))) (x : list (list (list dual))) : Prop :=
  (forall s, wf3 a b n (t s)) /\ length x = a /\ (forall i, (i < a)%nat -> length (nth i x []) = b) /\
  (forall i j, (i < a)%nat -> (j < b)%nat -> length (nth j (nth i x []) []) = n) /\
  forall i j k, (i < a)%nat -> (j < b)%nat -> (k < n)%nat -> tangent_of (fun s => el3 (t s) i j k) 0 (nth k (nth j (nth i x []) []) (0, 0)).

(** the results of the library have the shapes jax gives them, also on matrices that cannot be inverted *)
Definition linalg_shaped (la : linalg) : Prop :=
  (forall n m, wf2 n n m -> wf2 n n (la_inv la n m)) /\ (forall n m r, wf2 n n m -> wf1 n r -> wf1 n (la_cho_solve la n m r)).

(** sum of u_i P_ij C'_jk P_kl v_l, and trace of P C' *)
Definition sandwich (n : nat) (P C' : list (list R)) (u v : nat -> R) : R :=
  Rsum n (fun j => Rsum n (fun k => Rsum n (fun i => u i * el2 P i j) * el2 C' j k * Rsum n (fun l => el2 P k l * v l))).
Definition trace_prod (n : nat) (P C' : list (list R)) : R := Rsum n (fun i => Rsum n (fun j => el2 P i j * el2 C' j i)).
(** derivative of - 1/2 r^T P r, and of - 1/2 (r^T P r - log |C|), r = data - mu, when mu and C move *)
Definition score (n : nat) (P C' : list (list R)) (data mu : list R) (mu' : nat -> R) (include_logdet : bool) : R :=
  let r := fun i => el data i - el mu i in
  bilin n P mu' r + / 2 * sandwich n P C' r r + if include_logdet then / 2 * trace_prod n P C' else 0.
