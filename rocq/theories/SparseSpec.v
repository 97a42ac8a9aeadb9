(** * Specification of sparse matrices, independent of the model's algorithms.

    Only entry formulas and finite sums: a sparse array of shape (a,b,n) denotes the (a*n) x (b*n) matrix whose
    entry (r,c) is s[r/n, c/n, r mod n] if r mod n = c mod n and 0 otherwise. *)
From Verif Require Import Np Sparse.

Definition dense_entry (n : nat) (s : list (list (list R))) (r c : nat) : R :=
  if Nat.eqb (r mod n) (c mod n) then el3 s (r / n) (c / n) (r mod n) else 0.

(** [m] is the dense matrix denoted by the sparse array [s] *)
Definition denotes (a b n : nat) (s : list (list (list R))) (m : list (list R)) : Prop :=
  wf2 (a * n) (b * n) m /\
  forall r c, (r < a * n)%nat -> (c < b * n)%nat -> el2 m r c = dense_entry n s r c.

(** textbook products: P = A B (r x k times k x c), w = A v, w = v A *)
Definition is_matmul (r k c : nat) (A B P : list (list R)) : Prop :=
  wf2 r c P /\ forall i j, (i < r)%nat -> (j < c)%nat ->
    el2 P i j = Rsum k (fun l => el2 A i l * el2 B l j).
Definition is_matvec (r k : nat) (A : list (list R)) (v w : list R) : Prop :=
  wf1 r w /\ forall i, (i < r)%nat -> el w i = Rsum k (fun l => el2 A i l * el v l).
Definition is_vecmat (k c : nat) (v : list R) (A : list (list R)) (w : list R) : Prop :=
  wf1 c w /\ forall j, (j < c)%nat -> el w j = Rsum k (fun l => el v l * el2 A l j).

(** identity matrix and two-sided inverse *)
Definition is_identity (n : nat) (m : list (list R)) : Prop :=
  wf2 n n m /\ forall i j, (i < n)%nat -> (j < n)%nat -> el2 m i j = if Nat.eqb i j then 1 else 0.
Definition is_inverse (n : nat) (m mi : list (list R)) : Prop :=
  wf2 n n mi /\
  (forall i j, (i < n)%nat -> (j < n)%nat ->
     Rsum n (fun l => el2 m i l * el2 mi l j) = if Nat.eqb i j then 1 else 0) /\
  (forall i j, (i < n)%nat -> (j < n)%nat ->
     Rsum n (fun l => el2 mi i l * el2 m l j) = if Nat.eqb i j then 1 else 0).
Definition invertible (n : nat) (m : list (list R)) : Prop := exists mi, is_inverse n m mi.

(** what np.linalg.inv is trusted to do: on every invertible square matrix it returns its inverse *)
Definition linv_ok (linv : nat -> list (list R) -> list (list R)) : Prop :=
  forall n m, wf2 n n m -> invertible n m -> is_inverse n m (linv n m).

(** the matrix made of the k-th diagonal entries of all blocks *)
Definition is_slice (a b k : nat) (s : list (list (list R))) (m : list (list R)) : Prop :=
  wf2 a b m /\ forall i j, (i < a)%nat -> (j < b)%nat -> el2 m i j = el3 s i j k.

(** inner size of a left operand (a vector is a row) and of a right operand (a vector is a column); only
    arrays of 1, 2 or 3 dimensions denote matrices *)
Definition left_inner (x : arr) : option nat :=
  match x with A1 n _ => Some n | A2 _ c _ => Some c | A3 _ b n _ => Some (b * n)%nat | _ => None end.
Definition right_inner (x : arr) : option nat :=
  match x with A1 n _ => Some n | A2 r _ _ => Some r | A3 a _ n _ => Some (a * n)%nat | _ => None end.
(** operands that can be multiplied: equal inner sizes, and equal non-empty block sizes when both are sparse *)
Definition compatible (A B : arr) : Prop :=
  exists p, left_inner A = Some p /\ right_inner B = Some p /\
  match A, B with A3 _ _ n _, A3 _ _ m _ => n = m /\ (0 < n)%nat | _, _ => True end.

(** quadratic form x^T m x, positive (semi-)definiteness, symmetry *)
Definition quad (n : nat) (m : list (list R)) (x : nat -> R) : R :=
  Rsum n (fun i => Rsum n (fun j => x i * el2 m i j * x j)).
Definition psd (n : nat) (m : list (list R)) : Prop := forall x, 0 <= quad n m x.
Definition pos_def (n : nat) (m : list (list R)) : Prop :=
  forall x, (exists i, (i < n)%nat /\ x i <> 0) -> 0 < quad n m x.
Definition symmetric (n : nat) (m : list (list R)) : Prop :=
  forall i j, (i < n)%nat -> (j < n)%nat -> el2 m i j = el2 m j i.

(** the q-th slice of the trailing square sub-block that starts at block (k,k) *)
Definition is_trailing_slice (a k q : nat) (s : list (list (list R))) (m : list (list R)) : Prop :=
  wf2 (a - k) (a - k) m /\
  forall i j, (i < a - k)%nat -> (j < a - k)%nat -> el2 m i j = el3 s (k + i) (k + j) q.
Definition trailing_invertible (a n : nat) (s : list (list (list R))) : Prop :=
  forall k q, (k < a)%nat -> (q < n)%nat -> exists m, is_trailing_slice a k q s m /\ invertible (a - k) m.
