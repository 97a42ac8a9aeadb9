(** * Concrete cases for the sparse theorems, and remaining packaging lemmas *)
From Verif Require Import Np NpLemmas Sparse SparseSpec SparseProofs SparseX SparseXProofs DetSpec MxBridge DetProofs2.

Ltac wfs := repeat (split; [reflexivity|]; intros ? HIN;
  repeat (destruct HIN as [<-|HIN]; [try reflexivity|]); try destruct HIN; try reflexivity).
Ltac wf_ := cbv [wf1 wf2 wf3]; simpl; repeat split; intros; 
  repeat match goal with
  | H : _ \/ _ |- _ => destruct H
  | H : False |- _ => destruct H
  | H : _ = ?x |- _ => is_var x; subst x
  end; simpl in *; repeat match goal with
  | H : _ \/ _ |- _ => destruct H
  | H : False |- _ => destruct H
  | H : _ = ?x |- _ => is_var x; subst x
  end; try reflexivity.

Lemma to_dense_reject x : wf_arr x -> ndim x <> 3%nat -> to_dense x = Err ValueError.
Proof. destruct x; simpl; intros; try reflexivity; congruence. Qed.
Lemma inv_reject linv x : wf_arr x -> ndim x <> 3%nat -> inv linv x = Err ValueError.
Proof. destruct x; simpl; intros; try reflexivity; congruence. Qed.
Lemma inv_not_square linv a b n s : a <> b -> inv linv (A3 a b n s) = Err ValueError.
Proof. intros H. unfold inv, check_sparse. apply Nat.eqb_neq in H. now rewrite H. Qed.

Lemma dot_sparse_vec a b n s v D : wf3 a b n s -> wf1 (b * n) v -> denotes a b n s D ->
  exists w, dot [A3 a b n s; A1 (b * n) v] = Ok (A1 (a * n) w) /\ is_matvec (a * n) (b * n) D v w.
Proof.
  intros. exists (sparse_dot_vec b n s v). split; [|now apply sparse_dot_vec_correct].
  simpl. unfold dot2. simpl. now rewrite Nat.eqb_refl.
Qed.
Lemma dot_vec_sparse a b n s v D : wf3 a b n s -> wf1 (a * n) v -> denotes a b n s D ->
  exists w, dot [A1 (a * n) v; A3 a b n s] = Ok (A1 (b * n) w) /\ is_vecmat (a * n) (b * n) v D w.
Proof.
  intros. exists (vec_dot_sparse a b n v s). split; [|now apply vec_dot_sparse_correct].
  simpl. unfold dot2. simpl. now rewrite Nat.eqb_refl.
Qed.
Lemma dot_sparse_dense a b n c s M D : wf3 a b n s -> wf2 (b * n) c M -> denotes a b n s D ->
  exists P, dot [A3 a b n s; A2 (b * n) c M] = Ok (A2 (a * n) c P) /\ is_matmul (a * n) (b * n) c D M P.
Proof.
  intros. exists (sparse_dot_dense a b n c s M). split; [|now apply sparse_dot_dense_correct].
  simpl. unfold dot2. simpl. now rewrite Nat.eqb_refl.
Qed.
Lemma dot_dense_sparse r a b n s M D : wf3 a b n s -> wf2 r (a * n) M -> denotes a b n s D ->
  exists P, dot [A2 r (a * n) M; A3 a b n s] = Ok (A2 r (b * n) P) /\ is_matmul r (a * n) (b * n) M D P.
Proof.
  intros. exists (dense_dot_sparse a b n M s). split; [|now apply dense_dot_sparse_correct].
  simpl. unfold dot2. simpl. now rewrite Nat.eqb_refl.
Qed.

Ltac ok_ := repeat (apply f_equal || apply f_equal2); try reflexivity; try ring.
Ltac arr_ := cbv -[Rplus Rmult Rminus Ropp IZR]; repeat f_equal; try ring.

Lemma ex_C01 : wf3 1 2 2 [[[1; 2]; [3; 4]]] /\
  denotes 1 2 2 [[[1; 2]; [3; 4]]] [[1; 0; 3; 0]; [0; 2; 0; 4]].
Proof.
  assert (H : wf3 1 2 2 [[[1; 2]; [3; 4]]]) by wf_. split; [exact H|].
  exact (dense_of_denotes _ _ _ _ H).
Qed.
Lemma ex_C02 : wf3 1 2 2 [[[1; 2]; [3; 4]]] /\ wf1 (2 * 2) [1; 10; 100; 1000] /\ wf1 (1 * 2) [5; 6] /\
  dot [A3 1 2 2 [[[1; 2]; [3; 4]]]; A1 4 [1; 10; 100; 1000]] = Ok (A1 2 [301; 4020]) /\
  dot [A1 2 [5; 6]; A3 1 2 2 [[[1; 2]; [3; 4]]]] = Ok (A1 4 [5; 12; 15; 24]).
Proof. split; [wf_|]. split; [wf_|]. split; [wf_|]. split; arr_. Qed.
Lemma ex_C03 :
  wf3 2 1 1 [[[2]]; [[3]]] /\ wf2 (1 * 1) 2 [[1; 4]] /\ wf2 1 (2 * 1) [[1; 4]] /\
  dot [A3 2 1 1 [[[2]]; [[3]]]; A2 1 2 [[1; 4]]] = Ok (A2 2 2 [[2; 8]; [3; 12]]) /\
  dot [A2 1 2 [[1; 4]]; A3 2 1 1 [[[2]]; [[3]]]] = Ok (A2 1 1 [[14]]).
Proof. split; [wf_|]. split; [wf_|]. split; [wf_|]. split; arr_. Qed.
Lemma ex_C04 : wf3 1 2 2 [[[1; 2]; [3; 4]]] /\ wf3 2 1 2 [[[5; 6]]; [[7; 8]]] /\
  dot [A3 1 2 2 [[[1; 2]; [3; 4]]]; A3 2 1 2 [[[5; 6]]; [[7; 8]]]] = Ok (A3 1 1 2 [[[26; 44]]]).
Proof. split; [wf_|]. split; [wf_|]. arr_. Qed.
Lemma ex_C06 : wf2 1 (1 * 2) [[1; 2]] /\ wf3 1 1 2 [[[3; 4]]] /\ wf2 (1 * 2) 1 [[5]; [6]] /\
  denotes 1 1 2 [[[3; 4]]] [[3; 0]; [0; 4]] /\ is_matmul 1 2 2 [[1; 2]] [[3; 0]; [0; 4]] [[3; 8]] /\
  dot [A2 1 2 [[1; 2]]; A3 1 1 2 [[[3; 4]]]; A2 2 1 [[5]; [6]]] = Ok (A2 1 1 [[63]]).
Proof.
  assert (H : wf3 1 1 2 [[[3; 4]]]) by wf_.
  split; [wf_|]. split; [exact H|]. split; [wf_|]. split; [exact (dense_of_denotes _ _ _ _ H)|].
  split; [|arr_]. split; [wf_|]. intros i j Hi Hj.
  destruct i as [|i]; [|lia]. destruct j as [|[|j]]; [| |lia]; cbv -[Rplus Rmult Rminus Ropp IZR]; ring.
Qed.
Lemma ex_C07 :
  dot [A0 1] = Err ValueError /\ dot [A0 1; A1 1 [2]] = Err ValueError /\
  left_inner (A3 1 2 2 [[[1; 2]; [3; 4]]]) = Some 4%nat /\ right_inner (A1 3 [1; 2; 3]) = Some 3%nat /\
  compatible (A3 1 2 2 [[[1; 2]; [3; 4]]]) (A1 4 [1; 2; 3; 4]).
Proof. repeat split; try reflexivity. exists 4%nat. repeat split. Qed.

Lemma dot_wrong_product :
  exists a b n s1 c d m s2 r t k D1 D2 DT,
    wf3 a b n s1 /\ wf3 c d m s2 /\ (b * n = c * m)%nat /\
    dot [A3 a b n s1; A3 c d m s2] = Ok (A3 r t k DT) /\
    denotes a b n s1 D1 /\ denotes c d m s2 D2 /\
    forall DP, denotes r t k DT DP -> ~ is_matmul (a * n) (b * n) (d * m) D1 D2 DP.
Proof.
  exists 1%nat, 1%nat, 2%nat, [[[1; 2]]], 2%nat, 1%nat, 1%nat, [[[3]]; [[4]]], 1%nat, 1%nat, 2%nat,
    [[1; 0]; [0; 2]], [[3]; [4]], [[[7; 14]]].
  assert (H1 : wf3 1 1 2 [[[1; 2]]]) by wf_. assert (H2 : wf3 2 1 1 [[[3]]; [[4]]]) by wf_.
  split; [exact H1|]. split; [exact H2|]. split; [reflexivity|]. split; [exact dot_broadcast_wrong|].
  split; [exact (dense_of_denotes _ _ _ _ H1)|]. split; [exact (dense_of_denotes _ _ _ _ H2)|].
  intros DP [WD ED] [WP EP].
  assert (E : el2 DP 0 0 = 7) by (rewrite ED by (simpl; lia); reflexivity).
  rewrite EP in E by (simpl; lia). cbv -[Rplus Rmult Rminus Ropp IZR] in E. lra.
Qed.

Lemma ex_C08 : (exists linv, linv_ok linv) /\ wf3 2 2 1 swapmat /\
  (forall k, (k < 1)%nat -> exists m, is_slice 2 2 k swapmat m /\ invertible 2 m).
Proof.
  split; [exists linv_mx; apply linv_mx_ok|]. split; [wf_|]. intros k Hk.
  exists [[0; 1]; [1; 0]]. split; [|exact swap_invertible].
  split; [wf_|]. intros i j Hi Hj. replace k with 0%nat by lia.
  destruct i as [|[|i]]; [| |lia]; (destruct j as [|[|j]]; [| |lia]); reflexivity.
Qed.

Lemma ex_C09 : wf3 2 2 1 [[[2]; [1]]; [[1]; [3]]] /\ trailing_invertible 2 1 [[[2]; [1]]; [[1]; [3]]] /\
  pos_def (2 * 1) [[2; 1]; [1; 3]] /\ denotes 2 2 1 [[[2]; [1]]; [[1]; [3]]] [[2; 1]; [1; 3]].
Proof.
  assert (H : wf3 2 2 1 [[[2]; [1]]; [[1]; [3]]]) by wf_.
  assert (HP : pos_def (2 * 1) [[2; 1]; [1; 3]]).
  { intros x [i [Hi Hx]]. cbv -[Rplus Rmult Rminus Ropp IZR Rlt]. 
    assert (x 0%nat <> 0 \/ x 1%nat <> 0) as [H0|H1].
    { destruct i as [|[|i]]; [now left|now right|simpl in Hi; lia]. }
    - assert (0 < x 0%nat * x 0%nat) by nra. nra.
    - assert (0 < x 1%nat * x 1%nat) by nra. nra. }
  assert (HD : denotes 2 2 1 [[[2]; [1]]; [[1]; [3]]] [[2; 1]; [1; 3]]) by exact (dense_of_denotes _ _ _ _ H).
  split; [exact H|]. split; [|split; [exact HP|exact HD]].
  eapply pos_def_trailing; eauto.
Qed.

Lemma det_wrong : forall xinv, exists a n s D,
  wf3 a a n s /\ denotes a a n s D /\ invertible (a * n) D /\ det_of (a * n) D = -1 /\
  (xdet xinv a n (fin3 s) = Fin 0 \/ xdet xinv a n (fin3 s) = NaN).
Proof.
  intros xinv. exists 2%nat, 1%nat, swapmat, [[0; 1]; [1; 0]].
  split; [wf_|]. split; [exact swap_denotes|]. split; [exact swap_invertible|]. split; [exact det_swap|].
  apply xdet_swap.
Qed.

Lemma wf2_unique r c r' c' m : wf2 r c m -> wf2 r' c' m -> (0 < r)%nat -> r = r' /\ c = c'.
Proof.
  intros [L H] [L' H'] Hr. split; [congruence|]. destruct m as [|row m]; [simpl in L; lia|].
  rewrite <- (H row), <- (H' row); simpl; auto.
Qed.

Lemma dot_right_iff a b n s1 c d m s2 r t k T D1 D2 DP :
  (0 < a)%nat -> (0 < b)%nat -> (0 < n)%nat -> (0 < c)%nat -> (0 < d)%nat -> (0 < m)%nat ->
  wf3 a b n s1 -> wf3 c d m s2 ->
  dot [A3 a b n s1; A3 c d m s2] = Ok (A3 r t k T) ->
  denotes a b n s1 D1 -> denotes c d m s2 D2 -> denotes r t k T DP ->
  (is_matmul (a * n) (b * n) (d * m) D1 D2 DP <-> n = m).
Proof.
  intros Ha Hb Hn Hc Hd Hm W1 W2 HD HD1 HD2 HP.
  simpl in HD. unfold dot2 in HD. simpl in HD.
  destruct (Nat.eqb_spec (b * n) (c * m)) as [Hin|]; [|discriminate]. simpl in HD.
  split.
  - intros [WP _]. unfold sparse_dot_sparse in HD.
    destruct (bdim b c) as [x|] eqn:E1; [|discriminate]. destruct (bdim n m) as [y|] eqn:E2; [|discriminate].
    injection HD as <- <- <- _. destruct HP as [WP' _].
    destruct (wf2_unique _ _ _ _ _ WP WP') as [Er Ec]; [nia|].
    apply Nat.mul_cancel_l in Er, Ec; lia.
  - intros <-. assert (c = b) as -> by nia.
    rewrite sds_eq in HD. injection HD as <- <- <- <-.
    destruct (sparse_dot_sparse_correct a b n d s1 s2 W1 W2) as [T' [E [WT H]]].
    simpl in E. unfold dot2 in E. simpl in E. rewrite Nat.eqb_refl in E. simpl in E. rewrite sds_eq in E.
    injection E as <-. now apply H.
Qed.
