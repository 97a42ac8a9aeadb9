(** * Model of jax_cosmo/sparse.py

    A sparse matrix is a 3D array of shape (a, b, n): a x b blocks, each an n x n diagonal matrix stored
    by its diagonal (sparse.py 1-29).  jax arrays carry their shape statically, so shapes are explicit
    arguments here. *)
From Verif Require Import Np.

(** jax arrays by number of dimensions; [AN d] stands for an array of d >= 4 dimensions (its contents never
    matter because every function rejects it). *)
Inductive arr :=
  | A0 (x : R)
  | A1 (n : nat) (v : list R)
  | A2 (r c : nat) (m : list (list R))
  | A3 (a b n : nat) (s : list (list (list R)))
  | AN (d : nat).

(** the array really has its declared shape *)
Definition wf_arr (x : arr) : Prop :=
  match x with
  | A0 _ => True
  | A1 n v => wf1 n v
  | A2 r c m => wf2 r c m
  | A3 a b n s => wf3 a b n s
  | AN d => (4 <= d)%nat
  end.

Definition ndim (x : arr) : nat :=
  match x with A0 _ => 0 | A1 _ _ => 1 | A2 _ _ _ => 2 | A3 _ _ _ _ => 3 | AN d => d end.

(** sparse.py 37-39: is_sparse *)
Definition is_sparse (x : arr) : bool := Nat.eqb (ndim x) 3.

(** sparse.py 42-49: check_sparse(sparse, square) *)
Definition check_sparse (x : arr) (square : bool) : res arr :=
  match x with
  | A3 a b n s => if square && negb (Nat.eqb a b) then Err ValueError else Ok x
  | _ => Err ValueError
  end.

(** sparse.py 52-68: to_dense = vstack(vmap(row -> hstack(vmap(diag)(row)))(sparse)) *)
Definition dense_of (n : nat) (s : list (list (list R))) : list (list R) :=
  vstack (map (fun row => hstack n (map diag row)) s).
Definition to_dense (x : arr) : res arr :=
  match check_sparse x false with
  | Ok (A3 a b n s) => Ok (A2 (a * n) (b * n) (dense_of n s))
  | Ok _ => Err ValueError
  | Err e => Err e
  end.

(** sparse.py 140-162: sparse_dot_vec, [sparse] of shape (a,b,n), [v] of length b*n.
    For each block row: reshape v to (b,n), multiply elementwise, sum over axis 0; then flatten. *)
Definition sparse_dot_vec (b n : nat) (s : list (list (list R))) (v : list R) : list R :=
  concat (map (fun row => sum0 n (map2 vmul row (chunk n b v))) s).

(** sparse.py 165-184: sparse_dot_dense = vmap(sparse_dot_vec, (None, 1), 1); dense has shape (b*n, c) *)
Definition sparse_dot_dense (a b n c : nat) (s : list (list (list R))) (d : list (list R)) : list (list R) :=
  stack1 0 (a * n) (tab c (fun j => sparse_dot_vec b n s (col j d))).

(** sparse.py 187-209: vec_dot_sparse, v of length a*n; vmap over axis 1 of sparse *)
Definition vec_dot_sparse (a b n : nat) (v : list R) (s : list (list (list R))) : list R :=
  concat (tab b (fun j => sum0 n (map2 vmul (chunk n a v) (col3 j s)))).

(** the same code (187-209) run on a 2D second operand, which the dispatcher lets through: the columns are
    1D, multiply is elementwise and the sum is a scalar *)
Definition vec_dot_dense (c : nat) (v : list R) (d : list (list R)) : list R :=
  tab c (fun j => vsum (map2 Rmult v (col j d))).

(** sparse.py 212-231: dense_dot_sparse = vmap(vec_dot_sparse, (0, None), 0) *)
Definition dense_dot_sparse (a b n : nat) (d : list (list R)) (s : list (list (list R))) : list (list R) :=
  map (fun row => vec_dot_sparse a b n row s) d.

(** numpy broadcasting of one dimension *)
Definition bdim (p q : nat) : option nat :=
  if Nat.eqb p q then Some p else if Nat.eqb p 1 then Some q else if Nat.eqb q 1 then Some p else None.
(** index into a possibly broadcast dimension *)
Definition bidx (p i : nat) : nat := if Nat.eqb p 1 then 0%nat else i.

(** sparse.py 257: np.sum(np.multiply(B1, B2), axis=0), B1 of shape (b,n), B2 of shape (c,m), with numpy
    broadcasting; incompatible shapes raise. *)
Definition mul_sum0 (b n c m : nat) (B1 B2 : list (list R)) : res (nat * list R) :=
  match bdim b c, bdim n m with
  | Some r, Some k =>
      Ok (k, sum0 k (tab r (fun i => tab k (fun j =>
               el2 B1 (bidx b i) (bidx n j) * el2 B2 (bidx c i) (bidx m j)))))
  | _, _ => Err ValueError
  end.

(** sparse.py 234-263: sparse_dot_sparse, shapes (a,b,n) and (c,d,m).  Outer vmap over axis 1 of sparse2 (output
    axis 1), inner vmap over axis 0 of sparse1 (output axis 0). *)
Definition ok_or_nil (r : res (nat * list R)) : list R := match r with Ok (_, v) => v | Err _ => [] end.
Definition sparse_dot_sparse (a b n c d m : nat) (s1 s2 : list (list (list R))) : res arr :=
  match bdim b c, bdim n m with
  | Some _, Some k =>
      Ok (A3 a d k (stack1 [] a
        (tab d (fun j => map (fun B1 => ok_or_nil (mul_sum0 b n c m B1 (col3 j s2))) s1))))
  | _, _ => Err ValueError
  end.

(** sparse.py 266-292: dense_dot_sparse_dot_dense; X (a, b*n), Y (b, c, n), Z (c*n, d) *)
Definition dense_dot_sparse_dot_dense (c n d : nat) (X : list (list R)) (Y : list (list (list R)))
    (Z : list (list R)) : list (list R) :=
  map (fun row => tab d (fun j => vdot row (sparse_dot_vec c n Y (col j Z)))) X.

(** sparse.py 101-106 / 107-112: number of columns of A, of rows of B, with the dimension check *)
Definition ncols (x : arr) : res nat :=
  match x with
  | A1 n _ => Ok n
  | A2 _ c _ => Ok c
  | A3 _ b n _ => Ok (b * n)%nat
  | _ => Err ValueError
  end.
Definition nrows (x : arr) : res nat :=
  match x with
  | A1 n _ => Ok n
  | A2 r _ _ => Ok r
  | A3 a _ n _ => Ok (a * n)%nat
  | _ => Err ValueError
  end.

(** sparse.py 97-123: dot with two operands *)
Definition dot2 (A B : arr) : res arr :=
  bind (ncols A) (fun Acols =>
  bind (nrows B) (fun Brows =>
  if negb (Nat.eqb Acols Brows) then Err ValueError
  else
    match A with
    | A3 a b n s =>
        match B with
        | A3 c d m t => sparse_dot_sparse a b n c d m s t
        | A1 _ v => Ok (A1 (a * n) (sparse_dot_vec b n s v))
        | A2 _ k D => Ok (A2 (a * n) k (sparse_dot_dense a b n k s D))
        | _ => Err ValueError
        end
    | A1 _ v =>
        match B with
        | A3 a b n t => Ok (A1 (b * n) (vec_dot_sparse a b n v t))
        | A2 _ k D => Ok (A1 k (vec_dot_dense k v D))
        | _ => Err ValueError      (* vmap over axis 1 of a 1D array *)
        end
    | A2 r _ D =>
        match B with
        | A3 a b n t => Ok (A2 r (b * n) (dense_dot_sparse a b n D t))
        | A2 _ k E => Ok (A2 r k (map (fun row => vec_dot_dense k row E) D))
        | _ => Err ValueError
        end
    | _ => Err ValueError
    end)).

(** sparse.py 124-135: dot with three operands *)
Definition dot3 (A B C : arr) : res arr :=
  match A, B, C with
  | A2 r k X, A3 b c n Y, A2 k' d Z =>
      if negb (Nat.eqb k (b * n)) || negb (Nat.eqb (c * n) k') then Err ValueError
      else Ok (A2 r d (dense_dot_sparse_dot_dense c n d X Y Z))
  | _, _, _ => Err ValueError
  end.

(** sparse.py 71-137: dot *)
Definition dot (args : list arr) : res arr :=
  match args with
  | [A; B] => dot2 A B
  | [A; B; C] => dot3 A B C
  | _ => Err ValueError
  end.

(** np.linalg.inv is an oracle: size and square matrix in, square matrix out *)
Definition linv_t := nat -> list (list R) -> list (list R).

(** np.transpose(sparse, (2,0,1))[k]: the matrix made of the k-th diagonal entries *)
Definition slice (a b k : nat) (s : list (list (list R))) : list (list R) :=
  tab a (fun i => tab b (fun j => el3 s i j k)).

(** sparse.py 314-315: inv on data: invert every slice, transpose back *)
Definition inv_data (linv : linv_t) (a n : nat) (s : list (list (list R))) : list (list (list R)) :=
  let invs := tab n (fun k => linv a (slice a a k s)) in
  tab a (fun i => tab a (fun j => tab n (fun k => el2 (nth k invs []) i j))).
(** sparse.py 295-315: inv *)
Definition inv (linv : linv_t) (x : arr) : res arr :=
  match check_sparse x true with
  | Ok (A3 a b n s) => Ok (A3 a a n (inv_data linv a n s))
  | Ok _ => Err ValueError
  | Err e => Err e
  end.

(** python slicing sparse[r0:r1, c0:c1] *)
Definition sub3 (r0 r1 c0 c1 : nat) (s : list (list (list R))) : list (list (list R)) :=
  map (fun row => firstn (c1 - c0) (skipn c0 row)) (firstn (r1 - r0) (skipn r0 s)).

Definition vprod (v : list R) : R := fold_right Rmult 1 v.

(** data of sparse_dot_sparse for conforming shapes (a,b,n) x (b,d,n) (sparse.py 253-263) *)
Definition sds (a b n d : nat) (s1 s2 : list (list (list R))) : list (list (list R)) :=
  match sparse_dot_sparse a b n b d n s1 s2 with Ok (A3 _ _ _ t) => t | _ => [] end.

(** sparse.py 322-331: _block_det(sparse, k, N, P) *)
Definition block_det (linv : linv_t) (s : list (list (list R))) (k N P : nat) : R * R :=
  let r := (N - (k + 1))%nat in
  let u := sub3 k (k + 1) (k + 1) N s in
  let S := sub3 (k + 1) N (k + 1) N s in
  let v := sub3 (k + 1) N k (k + 1) s in
  let Sinv_v := sds r r P 1 (inv_data linv r P S) v in
  let uSv := sds 1 r P 1 u Sinv_v in
  let M := vsub (nth k (nth k s []) []) (nth 0 (nth 0 uSv []) []) in
  (vprod (map Rsgn M), vsum (map (fun x => ln (Rabs x)) M)).

(** sparse.py 334-366: slogdet *)
Definition slogdet (linv : linv_t) (x : arr) : res (R * R) :=
  match check_sparse x true with
  | Ok (A3 N _ P s) =>
      let last := nth (N - 1) (nth (N - 1) s []) [] in
      let sign0 := vprod (map Rsgn last) in
      let logdet0 := vsum (map (fun x => ln (Rabs x)) last) in
      Ok (fold_left (fun acc i => let (sg, ld) := block_det linv s i N P in
                                  (fst acc * sg, snd acc + ld))
                    (seq 0 (N - 1)) (sign0, logdet0))
  | Ok _ => Err ValueError
  | Err e => Err e
  end.

(** sparse.py 369-389: det *)
Definition det (linv : linv_t) (x : arr) : res R :=
  bind (slogdet linv x) (fun sl => Ok (fst sl * exp (snd sl))).
