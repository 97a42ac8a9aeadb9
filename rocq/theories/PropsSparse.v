(** * Property theorems C01-C10: jax_cosmo/sparse.py

    Statements only use the model's public functions and the vocabulary of SparseSpec / DetSpec. *)
From Verif Require Import Np Sparse SparseSpec SparseProofs SparseX SparseXProofs Rfield DetSpec MxBridge DetProofs2
  ExSparse.

(** C01 *)
Theorem C01_to_dense : forall a b n s, wf3 a b n s ->
  exists m, to_dense (A3 a b n s) = Ok (A2 (a * n) (b * n) m) /\ denotes a b n s m.
Proof. exact to_dense_correct. Qed.
Print Assumptions C01_to_dense.
Example C01_case : wf3 1 2 2 [[[1; 2]; [3; 4]]] /\
  denotes 1 2 2 [[[1; 2]; [3; 4]]] [[1; 0; 3; 0]; [0; 2; 0; 4]].
Proof. exact ex_C01. Qed.

Theorem C01_not_sparse : forall x, wf_arr x -> ndim x <> 3%nat -> to_dense x = Err ValueError.
Proof. exact to_dense_reject. Qed.
Print Assumptions C01_not_sparse.

(** C02 *)
Theorem C02_sparse_dot_vec : forall a b n s v D, wf3 a b n s -> wf1 (b * n) v -> denotes a b n s D ->
  exists w, dot [A3 a b n s; A1 (b * n) v] = Ok (A1 (a * n) w) /\ is_matvec (a * n) (b * n) D v w.
Proof. exact dot_sparse_vec. Qed.
Print Assumptions C02_sparse_dot_vec.
Theorem C02_vec_dot_sparse : forall a b n s v D, wf3 a b n s -> wf1 (a * n) v -> denotes a b n s D ->
  exists w, dot [A1 (a * n) v; A3 a b n s] = Ok (A1 (b * n) w) /\ is_vecmat (a * n) (b * n) v D w.
Proof. exact dot_vec_sparse. Qed.
Print Assumptions C02_vec_dot_sparse.
Example C02_case : wf3 1 2 2 [[[1; 2]; [3; 4]]] /\ wf1 (2 * 2) [1; 10; 100; 1000] /\ wf1 (1 * 2) [5; 6] /\
  dot [A3 1 2 2 [[[1; 2]; [3; 4]]]; A1 4 [1; 10; 100; 1000]] = Ok (A1 2 [301; 4020]) /\
  dot [A1 2 [5; 6]; A3 1 2 2 [[[1; 2]; [3; 4]]]] = Ok (A1 4 [5; 12; 15; 24]).
Proof. exact ex_C02. Qed.

(** C03 *)
Theorem C03_sparse_dot_dense : forall a b n c s M D, wf3 a b n s -> wf2 (b * n) c M -> denotes a b n s D ->
  exists P, dot [A3 a b n s; A2 (b * n) c M] = Ok (A2 (a * n) c P) /\ is_matmul (a * n) (b * n) c D M P.
Proof. exact dot_sparse_dense. Qed.
Print Assumptions C03_sparse_dot_dense.
Theorem C03_dense_dot_sparse : forall r a b n s M D, wf3 a b n s -> wf2 r (a * n) M -> denotes a b n s D ->
  exists P, dot [A2 r (a * n) M; A3 a b n s] = Ok (A2 r (b * n) P) /\ is_matmul r (a * n) (b * n) M D P.
Proof. exact dot_dense_sparse. Qed.
Print Assumptions C03_dense_dot_sparse.
Example C03_case :
  wf3 2 1 1 [[[2]]; [[3]]] /\ wf2 (1 * 1) 2 [[1; 4]] /\ wf2 1 (2 * 1) [[1; 4]] /\
  dot [A3 2 1 1 [[[2]]; [[3]]]; A2 1 2 [[1; 4]]] = Ok (A2 2 2 [[2; 8]; [3; 12]]) /\
  dot [A2 1 2 [[1; 4]]; A3 2 1 1 [[[2]]; [[3]]]] = Ok (A2 1 1 [[14]]).
Proof. exact ex_C03. Qed.

(** C04 *)
Theorem C04_sparse_dot_sparse : forall a b n d s1 s2, wf3 a b n s1 -> wf3 b d n s2 ->
  exists t, dot [A3 a b n s1; A3 b d n s2] = Ok (A3 a d n t) /\ wf3 a d n t /\
  forall D1 D2 DT, denotes a b n s1 D1 -> denotes b d n s2 D2 -> denotes a d n t DT ->
    is_matmul (a * n) (b * n) (d * n) D1 D2 DT.
Proof. exact sparse_dot_sparse_correct. Qed.
Print Assumptions C04_sparse_dot_sparse.
Example C04_case : wf3 1 2 2 [[[1; 2]; [3; 4]]] /\ wf3 2 1 2 [[[5; 6]]; [[7; 8]]] /\
  dot [A3 1 2 2 [[[1; 2]; [3; 4]]]; A3 2 1 2 [[[5; 6]]; [[7; 8]]]] = Ok (A3 1 1 2 [[[26; 44]]]).
Proof. exact ex_C04. Qed.

(** C05: two sparse matrices with different block sizes pass the shape check and give a wrong product *)
Theorem C05_dot_never_wrong_refuted :
  exists a b n s1 c d m s2 r t k D1 D2 DT,
    wf3 a b n s1 /\ wf3 c d m s2 /\ (b * n = c * m)%nat /\
    dot [A3 a b n s1; A3 c d m s2] = Ok (A3 r t k DT) /\
    denotes a b n s1 D1 /\ denotes c d m s2 D2 /\
    forall DP, denotes r t k DT DP -> ~ is_matmul (a * n) (b * n) (d * m) D1 D2 DP.
Proof. exact dot_wrong_product. Qed.
Print Assumptions C05_dot_never_wrong_refuted.

(** what is true: a product of two sparse matrices that dot accepts is right exactly when the block sizes agree *)
Theorem C05_right_iff_same_block_size : forall a b n s1 c d m s2 r t k T D1 D2 DP,
  (0 < a)%nat -> (0 < b)%nat -> (0 < n)%nat -> (0 < c)%nat -> (0 < d)%nat -> (0 < m)%nat ->
  wf3 a b n s1 -> wf3 c d m s2 ->
  dot [A3 a b n s1; A3 c d m s2] = Ok (A3 r t k T) ->
  denotes a b n s1 D1 -> denotes c d m s2 D2 -> denotes r t k T DP ->
  (is_matmul (a * n) (b * n) (d * m) D1 D2 DP <-> n = m).
Proof. exact dot_right_iff. Qed.
Print Assumptions C05_right_iff_same_block_size.
Example C05_case : dot [A3 1 1 2 [[[1; 2]]]; A3 2 1 1 [[[3]]; [[4]]]] = Ok (A3 1 1 2 [[[7; 14]]]).
Proof. exact dot_broadcast_wrong. Qed.

(** C06 *)
Theorem C06_bilinear : forall r b c n d X Y Z DY XY, wf2 r (b * n) X -> wf3 b c n Y -> wf2 (c * n) d Z ->
  denotes b c n Y DY -> is_matmul r (b * n) (c * n) X DY XY ->
  exists P, dot [A2 r (b * n) X; A3 b c n Y; A2 (c * n) d Z] = Ok (A2 r d P) /\ is_matmul r (c * n) d XY Z P.
Proof. exact bilinear_correct. Qed.
Print Assumptions C06_bilinear.
Example C06_case : wf2 1 (1 * 2) [[1; 2]] /\ wf3 1 1 2 [[[3; 4]]] /\ wf2 (1 * 2) 1 [[5]; [6]] /\
  denotes 1 1 2 [[[3; 4]]] [[3; 0]; [0; 4]] /\ is_matmul 1 2 2 [[1; 2]] [[3; 0]; [0; 4]] [[3; 8]] /\
  dot [A2 1 2 [[1; 2]]; A3 1 1 2 [[[3; 4]]]; A2 2 1 [[5]; [6]]] = Ok (A2 1 1 [[63]]).
Proof. exact ex_C06. Qed.

(** C07 *)
Theorem C07_argument_count : forall args, length args <> 2%nat -> length args <> 3%nat ->
  dot args = Err ValueError.
Proof. exact dot_argcount. Qed.
Print Assumptions C07_argument_count.
Theorem C07_rank : forall A B, (ndim A = 0 \/ 3 < ndim A \/ ndim B = 0 \/ 3 < ndim B)%nat ->
  wf_arr A -> wf_arr B -> dot [A; B] = Err ValueError.
Proof. exact dot2_rank. Qed.
Print Assumptions C07_rank.
Theorem C07_inner_mismatch : forall A B p q, left_inner A = Some p -> right_inner B = Some q -> p <> q ->
  dot [A; B] = Err ValueError.
Proof. exact dot2_mismatch. Qed.
Print Assumptions C07_inner_mismatch.
Theorem C07_three_rank : forall A B C, (ndim A <> 2 \/ ndim B <> 3 \/ ndim C <> 2)%nat ->
  wf_arr A -> wf_arr B -> wf_arr C -> dot [A; B; C] = Err ValueError.
Proof. exact dot3_rank. Qed.
Print Assumptions C07_three_rank.
Theorem C07_three_mismatch : forall r k X b c n Y k' d Z, (k <> b * n \/ c * n <> k')%nat ->
  dot [A2 r k X; A3 b c n Y; A2 k' d Z] = Err ValueError.
Proof. exact dot3_mismatch. Qed.
Print Assumptions C07_three_mismatch.
Theorem C07_accepts : forall A B, compatible A B -> ndim A = 3%nat \/ ndim B = 3%nat -> wf_arr A -> wf_arr B ->
  exists P, dot [A; B] = Ok P /\ wf_arr P.
Proof. exact dot_accepts. Qed.
Print Assumptions C07_accepts.
Example C07_case :
  dot [A0 1] = Err ValueError /\ dot [A0 1; A1 1 [2]] = Err ValueError /\
  left_inner (A3 1 2 2 [[[1; 2]; [3; 4]]]) = Some 4%nat /\ right_inner (A1 3 [1; 2; 3]) = Some 3%nat /\
  compatible (A3 1 2 2 [[[1; 2]; [3; 4]]]) (A1 4 [1; 2; 3; 4]).
Proof. exact ex_C07. Qed.

(** C08 *)
Theorem C08_inv : forall linv a n s, linv_ok linv -> wf3 a a n s ->
  (forall k, (k < n)%nat -> exists m, is_slice a a k s m /\ invertible a m) ->
  exists t, inv linv (A3 a a n s) = Ok (A3 a a n t) /\ wf3 a a n t /\
  forall D DT, denotes a a n s D -> denotes a a n t DT -> is_inverse (a * n) D DT.
Proof. exact inv_correct. Qed.
Print Assumptions C08_inv.
Theorem C08_inv_not_square : forall linv a b n s, a <> b -> inv linv (A3 a b n s) = Err ValueError.
Proof. exact inv_not_square. Qed.
Print Assumptions C08_inv_not_square.
Theorem C08_inv_not_sparse : forall linv x, wf_arr x -> ndim x <> 3%nat -> inv linv x = Err ValueError.
Proof. exact inv_reject. Qed.
Print Assumptions C08_inv_not_sparse.
Example C08_case : (exists linv, linv_ok linv) /\ wf3 2 2 1 swapmat /\
  (forall k, (k < 1)%nat -> exists m, is_slice 2 2 k swapmat m /\ invertible 2 m).
Proof. exact ex_C08. Qed.

(** C09 *)
Theorem C09_slogdet : forall linv a n s D, linv_ok linv -> wf3 a a n s -> (0 < a)%nat -> (0 < n)%nat ->
  trailing_invertible a n s -> denotes a a n s D ->
  exists sg ld, slogdet linv (A3 a a n s) = Ok (sg, ld) /\ (sg = 1 \/ sg = -1) /\
     sg * exp ld = det_of (a * n) D /\ det linv (A3 a a n s) = Ok (det_of (a * n) D).
Proof. exact det_sparse_correct. Qed.
Print Assumptions C09_slogdet.
(** positive definite matrices, such as covariances, always meet the hypothesis *)
Theorem C09_positive_definite : forall a n s D, wf3 a a n s -> (0 < n)%nat -> denotes a a n s D ->
  pos_def (a * n) D -> trailing_invertible a n s.
Proof. exact pos_def_trailing. Qed.
Print Assumptions C09_positive_definite.
Example C09_case : wf3 2 2 1 [[[2]; [1]]; [[1]; [3]]] /\ trailing_invertible 2 1 [[[2]; [1]]; [[1]; [3]]] /\
  pos_def (2 * 1) [[2; 1]; [1; 3]] /\ denotes 2 2 1 [[[2]; [1]]; [[1]; [3]]] [[2; 1]; [1; 3]].
Proof. exact ex_C09. Qed.

(** C10: the 2 x 2 exchange matrix is invertible with determinant -1, but det returns 0 or NaN whatever
    np.linalg.inv does; numbers here may be infinite or NaN *)
Theorem C10_det_refuted : forall xinv, exists a n s D,
  wf3 a a n s /\ denotes a a n s D /\ invertible (a * n) D /\ det_of (a * n) D = -1 /\
  (xdet xinv a n (fin3 s) = Fin 0 \/ xdet xinv a n (fin3 s) = NaN).
Proof. exact det_wrong. Qed.
Print Assumptions C10_det_refuted.
(** the same for every matrix with a zero on the diagonal of the last block: the sign is 0 and the logarithm -inf, or NaN *)
Theorem C10_zero_pivot : forall xinv a n s k, wf3 a a n s -> (1 <= a)%nat -> (k < n)%nat -> el3 s (a - 1) (a - 1) k = 0 ->
  let '(sg, ld) := xslogdet xinv a n (fin3 s) in
  (sg = Fin 0 \/ sg = NaN) /\ (ld = NInf \/ ld = NaN) /\ (xdet xinv a n (fin3 s) = Fin 0 \/ xdet xinv a n (fin3 s) = NaN).
Proof. exact zero_pivot. Qed.
Print Assumptions C10_zero_pivot.
Example C10_case : wf3 2 2 1 swapmat /\ (1 <= 2)%nat /\ (0 < 1)%nat /\ el3 swapmat (2 - 1) (2 - 1) 0 = 0.
Proof. exact ex_zero_pivot. Qed.
