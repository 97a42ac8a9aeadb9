(** * Proofs about the sparse model (C01-C08) *)
From Verif Require Import Np NpLemmas Sparse SparseSpec.

Ltac clt := first [apply mod_div_lt; assumption | lia | nia].

(** ** to_dense *)
Lemma length_diag v : length (diag v) = length v.
Proof. apply length_tab. Qed.

Lemma nth_diag_row v i : (i < length v)%nat ->
  nth i (diag v) [] = tab (length v) (fun j => if Nat.eqb i j then nth i v 0 else 0).
Proof. intros H. unfold diag. now rewrite nth_tab. Qed.

Lemma hstack_row_len b n row i : wf2 b n row -> (i < n)%nat ->
  forall r, In r (map (fun m => nth i m []) (map diag row)) -> length r = n.
Proof.
  intros [H1 H2] Hi r Hin. rewrite map_map in Hin. apply in_map_iff in Hin as [v [<- Hv]].
  rewrite nth_diag_row by (rewrite (H2 v Hv); exact Hi). rewrite length_tab. auto.
Qed.

Lemma wf2_hstack b n row : wf2 b n row -> wf2 n (b * n) (hstack n (map diag row)).
Proof.
  intros H. apply wf2_tab. intros i Hi.
  rewrite (length_concat_const n) by (eapply hstack_row_len; eauto).
  rewrite !map_length. destruct H as [-> _]. reflexivity.
Qed.

Lemma el2_hstack b n row i c : wf2 b n row -> (i < n)%nat -> (c < b * n)%nat ->
  el2 (hstack n (map diag row)) i c =
  if Nat.eqb i (c mod n) then nth i (nth (c / n) row []) 0 else 0.
Proof.
  intros H Hi Hc. unfold el2, hstack. rewrite nth_tab by lia.
  destruct (mod_div_lt c b n Hc) as [Hd Hm].
  rewrite (nth_concat_const n).
  2:{ eapply hstack_row_len; eauto. }
  2:{ rewrite !map_length. destruct H as [-> _]. exact Hc. }
  rewrite map_map. rewrite nth_map_lt with (d := []) by (destruct H as [-> _]; exact Hd).
  rewrite nth_diag_row by (rewrite (wf2_row _ _ _ _ H Hd); exact Hi).
  rewrite (wf2_row _ _ _ _ H Hd). rewrite nth_tab by lia. reflexivity.
Qed.

Lemma dense_of_denotes a b n s : wf3 a b n s -> denotes a b n s (dense_of n s).
Proof.
  intros H. assert (HR : forall r, In r (map (fun row => hstack n (map diag row)) s) -> length r = n).
  { intros r Hin. apply in_map_iff in Hin as [row [<- Hrow]]. apply (wf2_hstack b). now apply H. }
  split.
  - split.
    + unfold dense_of, vstack. rewrite (length_concat_const n) by exact HR. rewrite map_length.
      destruct H as [-> _]. reflexivity.
    + intros row Hin. unfold dense_of, vstack in Hin. apply in_concat in Hin as [blk [Hblk Hrow]].
      apply in_map_iff in Hblk as [brow [<- Hb]].
      apply (wf2_hstack b n brow); auto. now apply H.
  - intros r c Hr Hc. unfold dense_of, vstack, dense_entry. unfold el2 at 1.
    destruct (mod_div_lt r a n Hr) as [Hd Hm].
    rewrite (nth_concat_const n); auto.
    2:{ rewrite map_length. destruct H as [-> _]. exact Hr. }
    rewrite nth_map_lt with (d := []) by (destruct H as [-> _]; exact Hd).
    apply (el2_hstack b n _ (r mod n) c); auto. eapply wf3_row; eauto.
Qed.

Lemma denotes_unique a b n s m1 m2 : denotes a b n s m1 -> denotes a b n s m2 -> m1 = m2.
Proof.
  intros [W1 E1] [W2 E2]. eapply mat_ext; eauto. intros i j Hi Hj. now rewrite E1, E2.
Qed.

Lemma to_dense_correct a b n s : wf3 a b n s ->
  exists m, to_dense (A3 a b n s) = Ok (A2 (a * n) (b * n) m) /\ denotes a b n s m.
Proof. intros H. eexists; split; [reflexivity|]. now apply dense_of_denotes. Qed.

(** ** the block-diagonal sum: only matching diagonal positions contribute *)
Lemma dense_row_sum b n s r f : (0 < n)%nat -> 
  Rsum (b * n) (fun c => dense_entry n s r c * f c)
  = Rsum b (fun j => el3 s (r / n) j (r mod n) * f (j * n + r mod n)%nat).
Proof.
  intros Hn. rewrite Rsum_mul. apply Rsum_ext. intros j Hj.
  rewrite (Rsum_ext n _ (fun q => if Nat.eqb q (r mod n)
      then el3 s (r / n) j (r mod n) * f (j * n + q)%nat else 0)).
  2:{ intros q Hq. unfold dense_entry.
      rewrite (Nat.add_comm (j * n) q), Nat.mod_add, Nat.div_add by lia.
      rewrite (Nat.div_small q n), (Nat.mod_small q n) by lia. rewrite Nat.add_0_l.
      rewrite Nat.eqb_sym. destruct (Nat.eqb q (r mod n)); [reflexivity|lra]. }
  rewrite Rsum_delta; [reflexivity|]. apply Nat.mod_upper_bound; lia.
Qed.

Lemma dense_col_sum a n s c f : (0 < n)%nat -> 
  Rsum (a * n) (fun r => f r * dense_entry n s r c)
  = Rsum a (fun i => f (i * n + c mod n)%nat * el3 s i (c / n) (c mod n)).
Proof.
  intros Hn. rewrite Rsum_mul. apply Rsum_ext. intros i Hi.
  rewrite (Rsum_ext n _ (fun q => if Nat.eqb q (c mod n)
      then f (i * n + q)%nat * el3 s i (c / n) (c mod n) else 0)).
  2:{ intros q Hq. unfold dense_entry.
      rewrite (Nat.add_comm (i * n) q), Nat.mod_add, Nat.div_add by lia.
      rewrite (Nat.div_small q n), (Nat.mod_small q n) by lia. rewrite Nat.add_0_l.
      destruct (Nat.eqb_spec q (c mod n)) as [->|]; [reflexivity|lra]. }
  rewrite Rsum_delta; [reflexivity|]. apply Nat.mod_upper_bound; lia.
Qed.

(** ** sparse_dot_vec *)
Lemma map2_vmul_rows b n r1 r2 : wf2 b n r1 -> wf2 b n r2 ->
  wf2 b n (map2 vmul r1 r2).
Proof.
  intros H1 H2. split.
  - rewrite length_map2. destruct H1, H2. lia.
  - intros row Hin. apply In_nth with (d := []) in Hin as [i [Hi <-]].
    rewrite length_map2 in Hi. destruct H1 as [L1 H1], H2 as [L2 H2].
    rewrite nth_map2 with (da := []) (db := []) by lia.
    assert (length (nth i r1 []) = n) by (apply H1, nth_In; lia).
    assert (length (nth i r2 []) = n) by (apply H2, nth_In; lia).
    rewrite length_vmul; lia.
Qed.

Lemma el_sum0_mul b n r1 r2 k : wf2 b n r1 -> wf2 b n r2 ->
  el (sum0 n (map2 vmul r1 r2)) k = Rsum b (fun j => el2 r1 j k * el2 r2 j k).
Proof.
  intros H1 H2. destruct (map2_vmul_rows b n r1 r2 H1 H2) as [L HW].
  rewrite el_sum0 by exact HW. rewrite L. apply Rsum_ext. intros j Hj.
  destruct H1 as [L1 H1], H2 as [L2 H2].
  rewrite nth_map2 with (da := []) (db := []) by lia.
  rewrite el_vmul; [reflexivity|].
  rewrite H1 by (apply nth_In; lia). rewrite H2 by (apply nth_In; lia). reflexivity.
Qed.

Lemma length_sum0_mul b n r1 r2 : wf2 b n r1 -> wf2 b n r2 -> length (sum0 n (map2 vmul r1 r2)) = n.
Proof. intros H1 H2. apply length_sum0. apply (map2_vmul_rows b n r1 r2 H1 H2). Qed.

Lemma wf2_chunk n b v : length v = (b * n)%nat -> wf2 b n (chunk n b v).
Proof.
  intros H. split; [apply length_chunk|]. intros row. apply chunk_row_length. lia.
Qed.

Lemma el2_chunk n b v j k : (j < b)%nat -> (k < n)%nat -> el2 (chunk n b v) j k = el v (j * n + k).
Proof. intros. unfold el2, el. now apply nth_chunk. Qed.

Lemma length_sparse_dot_vec a b n s v : wf3 a b n s -> wf1 (b * n) v ->
  length (sparse_dot_vec b n s v) = (a * n)%nat.
Proof.
  intros H Hv. unfold sparse_dot_vec. rewrite (length_concat_const n).
  - rewrite map_length. destruct H as [-> _]. reflexivity.
  - intros r Hin. apply in_map_iff in Hin as [row [<- Hr]]. apply (length_sum0_mul b).
    + now apply H. + now apply wf2_chunk.
Qed.

Lemma el_sparse_dot_vec a b n s v r : wf3 a b n s -> wf1 (b * n) v -> (r < a * n)%nat ->
  el (sparse_dot_vec b n s v) r = Rsum (b * n) (fun c => dense_entry n s r c * el v c).
Proof.
  intros H Hv Hr. destruct (mod_div_lt r a n Hr) as [Hd Hm].
  rewrite dense_row_sum by lia. unfold el at 1, sparse_dot_vec.
  assert (Hwc := wf2_chunk n b v Hv).
  rewrite (nth_concat_const n).
  2:{ intros w Hin. apply in_map_iff in Hin as [row [<- Hrow]]. apply (length_sum0_mul b); auto. now apply H. }
  2:{ rewrite map_length. destruct H as [-> _]. exact Hr. }
  rewrite nth_map_lt with (d := []) by (destruct H as [-> _]; exact Hd).
  fold (el (sum0 n (map2 vmul (nth (r / n) s []) (chunk n b v))) (r mod n)).
  rewrite (el_sum0_mul b n) by (auto; eapply wf3_row; eauto).
  apply Rsum_ext. intros j Hj. rewrite el2_chunk by lia. reflexivity.
Qed.

Lemma sparse_dot_vec_correct a b n s v D : wf3 a b n s -> wf1 (b * n) v -> denotes a b n s D ->
  is_matvec (a * n) (b * n) D v (sparse_dot_vec b n s v).
Proof.
  intros H Hv [WD ED]. split; [now apply length_sparse_dot_vec|].
  intros i Hi. rewrite (el_sparse_dot_vec a) by auto. apply Rsum_ext. intros l Hl. now rewrite ED.
Qed.

(** ** vec_dot_sparse *)
Lemma el_vec_dot_sparse a b n s v c : wf3 a b n s -> wf1 (a * n) v -> (c < b * n)%nat ->
  el (vec_dot_sparse a b n v s) c = Rsum (a * n) (fun r => el v r * dense_entry n s r c).
Proof.
  intros H Hv Hc. destruct (mod_div_lt c b n Hc) as [Hd Hm].
  rewrite dense_col_sum by lia. unfold el at 1, vec_dot_sparse.
  assert (Hwc := wf2_chunk n a v Hv).
  rewrite (nth_concat_const n).
  2:{ intros w Hin. apply In_tab in Hin as [j [Hj <-]]. apply (length_sum0_mul a); auto. eapply wf2_col3; eauto. }
  2:{ rewrite length_tab. exact Hc. }
  rewrite nth_tab by exact Hd.
  fold (el (sum0 n (map2 vmul (chunk n a v) (col3 (c / n) s))) (c mod n)).
  rewrite (el_sum0_mul a n) by (auto; eapply wf2_col3; eauto).
  apply Rsum_ext. intros i Hi. rewrite el2_chunk by lia. 
  rewrite el2_col3 by (destruct H as [-> _]; exact Hi). reflexivity.
Qed.

Lemma length_vec_dot_sparse a b n s v : wf3 a b n s -> wf1 (a * n) v ->
  length (vec_dot_sparse a b n v s) = (b * n)%nat.
Proof.
  intros H Hv. unfold vec_dot_sparse. rewrite (length_concat_const n).
  - now rewrite length_tab.
  - intros r Hin. apply In_tab in Hin as [j [Hj <-]]. apply (length_sum0_mul a).
    + now apply wf2_chunk. + eapply wf2_col3; eauto.
Qed.

Lemma vec_dot_sparse_correct a b n s v D : wf3 a b n s -> wf1 (a * n) v -> denotes a b n s D ->
  is_vecmat (a * n) (b * n) v D (vec_dot_sparse a b n v s).
Proof.
  intros H Hv [WD ED]. split; [now apply length_vec_dot_sparse|].
  intros j Hj. rewrite (el_vec_dot_sparse a) by auto. apply Rsum_ext. intros l Hl. now rewrite ED.
Qed.

(** ** sparse @ dense, dense @ sparse *)
Lemma sparse_dot_dense_correct a b n c s M D : wf3 a b n s -> wf2 (b * n) c M -> denotes a b n s D ->
  is_matmul (a * n) (b * n) c D M (sparse_dot_dense a b n c s M).
Proof.
  intros H HM HD. split.
  - apply wf2_tab. intros i Hi. rewrite map_length. apply length_tab.
  - intros i j Hi Hj. unfold el2 at 1, sparse_dot_dense, stack1. rewrite nth_tab by exact Hi.
    rewrite map_tab, nth_tab by exact Hj.
    assert (Hv : wf1 (b * n) (col j M)) by (unfold wf1; rewrite length_col; apply HM).
    destruct (sparse_dot_vec_correct a b n s (col j M) D H Hv HD) as [_ E].
    specialize (E i Hi). unfold el at 1 in E. rewrite E. apply Rsum_ext. intros l Hl.
    rewrite el_col; [reflexivity|]. destruct HM as [-> _]. exact Hl.
Qed.

Lemma dense_dot_sparse_correct r a b n s M D : wf3 a b n s -> wf2 r (a * n) M -> denotes a b n s D ->
  is_matmul r (a * n) (b * n) M D (dense_dot_sparse a b n M s).
Proof.
  intros H HM HD. unfold dense_dot_sparse. split.
  - split; [rewrite map_length; apply HM|]. intros row Hin. apply in_map_iff in Hin as [v [<- Hv]].
    apply (length_vec_dot_sparse a b n s v H). now apply HM.
  - intros i j Hi Hj. unfold el2 at 1. rewrite nth_map_lt with (d := []) by (destruct HM as [-> _]; exact Hi).
    assert (Hv : wf1 (a * n) (nth i M [])) by (eapply wf2_row; eauto).
    destruct (vec_dot_sparse_correct a b n s _ D H Hv HD) as [_ E]. apply (E j Hj).
Qed.

(** ** sparse @ sparse, conforming shapes *)
Lemma bdim_refl p : bdim p p = Some p.
Proof. unfold bdim. now rewrite Nat.eqb_refl. Qed.

Lemma bidx_id p i : (i < p)%nat -> bidx p i = i.
Proof. intros H. unfold bidx. destruct (Nat.eqb_spec p 1); lia. Qed.

Lemma mul_sum0_conf b n B1 B2 : exists v, mul_sum0 b n b n B1 B2 = Ok (n, v) /\ length v = n /\
  forall k, (k < n)%nat -> el v k = Rsum b (fun l => el2 B1 l k * el2 B2 l k).
Proof.
  unfold mul_sum0. rewrite !bdim_refl. eexists; split; [reflexivity|].
  assert (HL : forall r, In r (tab b (fun i => tab n (fun j =>
     el2 B1 (bidx b i) (bidx n j) * el2 B2 (bidx b i) (bidx n j)))) -> length r = n).
  { intros r Hin. apply In_tab in Hin as [i [Hi <-]]. apply length_tab. }
  split; [now apply length_sum0|].
  intros k Hk. rewrite el_sum0 by exact HL. rewrite length_tab.
  apply Rsum_ext. intros l Hl. rewrite nth_tab by exact Hl. unfold el. rewrite nth_tab by exact Hk.
  now rewrite !bidx_id.
Qed.

Lemma ok_or_nil_conf b n B1 B2 : length (ok_or_nil (mul_sum0 b n b n B1 B2)) = n /\
  forall k, (k < n)%nat -> el (ok_or_nil (mul_sum0 b n b n B1 B2)) k = Rsum b (fun l => el2 B1 l k * el2 B2 l k).
Proof. destruct (mul_sum0_conf b n B1 B2) as [v [E H]]. rewrite E. exact H. Qed.

Lemma sds_eq a b n d s1 s2 : sparse_dot_sparse a b n b d n s1 s2 = Ok (A3 a d n (sds a b n d s1 s2)).
Proof. unfold sds, sparse_dot_sparse. now rewrite !bdim_refl. Qed.

Lemma sds_correct a b n d s1 s2 : wf3 a b n s1 -> wf3 b d n s2 ->
  wf3 a d n (sds a b n d s1 s2) /\
  forall i j k, (i < a)%nat -> (j < d)%nat -> (k < n)%nat ->
    el3 (sds a b n d s1 s2) i j k = Rsum b (fun l => el3 s1 i l k * el3 s2 l j k).
Proof.
  intros H1 H2. unfold sds, sparse_dot_sparse. rewrite !bdim_refl. split.
  - apply wf3_tab. intros i Hi. split; [rewrite map_length; apply length_tab|].
    intros row Hin. rewrite map_tab in Hin. apply In_tab in Hin as [j [Hj <-]].
    rewrite nth_map_lt with (d := []) by (destruct H1 as [-> _]; exact Hi). apply ok_or_nil_conf.
  - intros i j k Hi Hj Hk. unfold el3 at 1, stack1. rewrite nth_tab by exact Hi.
    rewrite map_tab, nth_tab by exact Hj.
    rewrite nth_map_lt with (d := []) by (destruct H1 as [-> _]; exact Hi).
    destruct (ok_or_nil_conf b n (nth i s1 []) (col3 j s2)) as [_ E].
    specialize (E k Hk). unfold el in E. rewrite E. apply Rsum_ext. intros l Hl.
    rewrite el2_col3 by (destruct H2 as [-> _]; exact Hl). reflexivity.
Qed.

(** entry of a product of two denoted matrices *)
Lemma dense_entry_prod b n s1 s2 r c (Hn : (0 < n)%nat) :
  Rsum (b * n) (fun l => dense_entry n s1 r l * dense_entry n s2 l c)
  = if Nat.eqb (r mod n) (c mod n)
    then Rsum b (fun j => el3 s1 (r / n) j (r mod n) * el3 s2 j (c / n) (r mod n)) else 0.
Proof.
  rewrite dense_row_sum by exact Hn.
  assert (Hm : (r mod n < n)%nat) by (apply Nat.mod_upper_bound; lia).
  destruct (Nat.eqb_spec (r mod n) (c mod n)) as [E|E].
  - apply Rsum_ext. intros j Hj. unfold dense_entry.
    rewrite (Nat.add_comm (j * n)), Nat.mod_add, Nat.div_add by lia.
    rewrite (Nat.div_small (r mod n)), (Nat.mod_small (r mod n)) by lia. rewrite Nat.add_0_l.
    rewrite E, Nat.eqb_refl. reflexivity.
  - apply Rsum_0_ext. intros j Hj. unfold dense_entry.
    rewrite (Nat.add_comm (j * n)), Nat.mod_add by lia.
    rewrite (Nat.mod_small (r mod n)) by lia.
    destruct (Nat.eqb_spec (r mod n) (c mod n)); [easy|lra].
Qed.

Lemma sparse_dot_sparse_correct a b n d s1 s2 : wf3 a b n s1 -> wf3 b d n s2 ->
  exists t, dot [A3 a b n s1; A3 b d n s2] = Ok (A3 a d n t) /\ wf3 a d n t /\
  forall D1 D2 DT, denotes a b n s1 D1 -> denotes b d n s2 D2 -> denotes a d n t DT ->
    is_matmul (a * n) (b * n) (d * n) D1 D2 DT.
Proof.
  intros H1 H2. exists (sds a b n d s1 s2). split.
  { simpl. unfold dot2. simpl. rewrite Nat.eqb_refl. simpl. apply sds_eq. }
  destruct (sds_correct a b n d s1 s2 H1 H2) as [HW HE]. split; [exact HW|].
  intros D1 D2 DT [W1 E1] [W2 E2] [WT ET]. split; [exact WT|].
  intros i j Hi Hj. rewrite ET by auto.
  destruct (mod_div_lt i a n Hi) as [Hid Him]. destruct (mod_div_lt j d n Hj) as [Hjd Hjm].
  rewrite (Rsum_ext _ _ (fun l => dense_entry n s1 i l * dense_entry n s2 l j))
    by (intros l Hl; now rewrite E1, E2).
  rewrite dense_entry_prod by lia. unfold dense_entry.
  destruct (Nat.eqb_spec (i mod n) (j mod n)) as [E|E]; [|reflexivity].
  now apply HE.
Qed.

(** ** bilinear form *)
Lemma bilinear_correct r b c n d X Y Z DY XY : wf2 r (b * n) X -> wf3 b c n Y -> wf2 (c * n) d Z ->
  denotes b c n Y DY -> is_matmul r (b * n) (c * n) X DY XY ->
  exists P, dot [A2 r (b * n) X; A3 b c n Y; A2 (c * n) d Z] = Ok (A2 r d P) /\
            is_matmul r (c * n) d XY Z P.
Proof.
  intros HX HY HZ HD [WXY EXY]. eexists. split.
  { simpl. rewrite !Nat.eqb_refl. simpl. reflexivity. }
  unfold dense_dot_sparse_dot_dense. split.
  - split; [rewrite map_length; apply HX|]. intros row Hin. apply in_map_iff in Hin as [x [<- _]]. apply length_tab.
  - intros i j Hi Hj. unfold el2 at 1. rewrite nth_map_lt with (d := []) by (destruct HX as [-> _]; exact Hi).
    rewrite nth_tab by exact Hj.
    assert (Hv : wf1 (c * n) (col j Z)) by (unfold wf1; rewrite length_col; apply HZ).
    destruct (sparse_dot_vec_correct b c n Y (col j Z) DY HY Hv HD) as [WL E].
    rewrite (vdot_Rsum (b * n)); [|eapply wf2_row; eauto|exact WL].
    rewrite (Rsum_ext (b * n) _ (fun l => Rsum (c * n) (fun k => el2 X i l * el2 DY l k * el2 Z k j))).
    2:{ intros l Hl. rewrite (E l Hl). rewrite <- Rsum_scal. apply Rsum_ext. intros k Hk.
        rewrite el_col by (destruct HZ as [-> _]; exact Hk). unfold el, el2. ring. }
    rewrite Rsum_swap. apply Rsum_ext. intros k Hk. rewrite EXY by auto.
    rewrite <- Rsum_scal_r. reflexivity.
Qed.

(** ** inverse *)
Lemma is_slice_slice a b k s : is_slice a b k s (slice a b k s).
Proof. split; [apply wf2_tab2|]. intros. unfold slice. now rewrite el2_tab. Qed.

Lemma wf3_inv_data linv a n s : wf3 a a n (inv_data linv a n s).
Proof.
  apply wf3_tab. intros i Hi. apply wf2_tab. intros j Hj. apply length_tab.
Qed.

Lemma el3_inv_data linv a n s i j k : (i < a)%nat -> (j < a)%nat -> (k < n)%nat ->
  el3 (inv_data linv a n s) i j k = el2 (linv a (slice a a k s)) i j.
Proof.
  intros Hi Hj Hk. unfold el3, inv_data. rewrite !nth_tab by assumption. reflexivity.
Qed.

Lemma inv_correct linv a n s : linv_ok linv -> wf3 a a n s ->
  (forall k, (k < n)%nat -> exists m, is_slice a a k s m /\ invertible a m) ->
  exists t, inv linv (A3 a a n s) = Ok (A3 a a n t) /\ wf3 a a n t /\
  forall D DT, denotes a a n s D -> denotes a a n t DT -> is_inverse (a * n) D DT.
Proof.
  intros HL H Hinv. exists (inv_data linv a n s). split.
  { unfold inv, check_sparse. rewrite Nat.eqb_refl. reflexivity. }
  split; [apply wf3_inv_data|].
  assert (HI : forall k, (k < n)%nat -> is_inverse a (slice a a k s) (linv a (slice a a k s))).
  { intros k Hk. destruct (Hinv k Hk) as [m [Hm Hi]].
    assert (m = slice a a k s) as ->.
    { destruct Hm as [W E]. eapply mat_ext; [exact W|apply wf2_tab2|]. intros i j Hi' Hj'.
      rewrite E by auto. symmetry. now apply (is_slice_slice a a k s). }
    apply HL; auto. apply wf2_tab2. }
  intros D DT [WD ED] [WT ET].
  assert (Heq : forall i j, (i < a * n)%nat -> (j < a * n)%nat -> Nat.eqb (i mod n) (j mod n) = true ->
      Nat.eqb (i / n) (j / n) = Nat.eqb i j).
  { intros i j Hi Hj E. apply Nat.eqb_eq in E. assert (n <> 0)%nat by (intros ->; lia).
    destruct (Nat.eqb_spec i j) as [->|Hne]; [apply Nat.eqb_refl|].
    apply Nat.eqb_neq. intros E'. apply Hne.
    rewrite (Nat.div_mod i n), (Nat.div_mod j n) by lia. now rewrite E, E'. }
  assert (Hne : forall i j, Nat.eqb (i mod n) (j mod n) = false -> Nat.eqb i j = false).
  { intros i j E. apply Nat.eqb_neq. intros ->. now rewrite Nat.eqb_refl in E. }
  split; [exact WT|]. split.
  - intros i j Hi Hj.
    destruct (mod_div_lt i a n Hi) as [Hid Him]. destruct (mod_div_lt j a n Hj) as [Hjd Hjm].
    rewrite (Rsum_ext _ _ (fun l => dense_entry n s i l * dense_entry n (inv_data linv a n s) l j))
      by (intros l Hl; now rewrite ED, ET).
    rewrite dense_entry_prod by lia.
    destruct (Nat.eqb (i mod n) (j mod n)) eqn:E; [|now rewrite (Hne i j E)].
    rewrite <- (Heq i j) by assumption.
    destruct (HI (i mod n) Him) as [_ [HR _]]. rewrite <- (HR (i / n) (j / n))%nat by assumption.
    apply Rsum_ext. intros l Hl. rewrite el3_inv_data by assumption. unfold slice. now rewrite el2_tab.
  - intros i j Hi Hj.
    destruct (mod_div_lt i a n Hi) as [Hid Him]. destruct (mod_div_lt j a n Hj) as [Hjd Hjm].
    rewrite (Rsum_ext _ _ (fun l => dense_entry n (inv_data linv a n s) i l * dense_entry n s l j))
      by (intros l Hl; now rewrite ED, ET).
    rewrite dense_entry_prod by lia.
    destruct (Nat.eqb (i mod n) (j mod n)) eqn:E; [|now rewrite (Hne i j E)].
    rewrite <- (Heq i j) by assumption.
    destruct (HI (i mod n) Him) as [_ [_ HR]]. rewrite <- (HR (i / n) (j / n))%nat by assumption.
    apply Rsum_ext. intros l Hl. rewrite el3_inv_data by assumption. unfold slice. now rewrite el2_tab.
Qed.

(** ** validation of dot *)
Lemma dot_argcount args : length args <> 2%nat -> length args <> 3%nat -> dot args = Err ValueError.
Proof.
  destruct args as [|A [|B [|C [|D args]]]]; simpl; intros H2 H3; try reflexivity; congruence.
Qed.

Lemma dot2_rank A B : (ndim A = 0 \/ 3 < ndim A \/ ndim B = 0 \/ 3 < ndim B)%nat -> wf_arr A -> wf_arr B ->
  dot [A; B] = Err ValueError.
Proof.
  intros H WA WB. simpl. unfold dot2. destruct A, B; simpl in *; try reflexivity; try lia.
Qed.

Lemma dot3_rank A B C : (ndim A <> 2 \/ ndim B <> 3 \/ ndim C <> 2)%nat -> wf_arr A -> wf_arr B -> wf_arr C ->
  dot [A; B; C] = Err ValueError.
Proof.
  intros H WA WB WC. simpl. destruct A, B, C; simpl in *; try reflexivity; try lia.
Qed.

Lemma dot2_mismatch A B p q : left_inner A = Some p -> right_inner B = Some q -> p <> q ->
  dot [A; B] = Err ValueError.
Proof.
  intros HA HB Hpq. simpl. unfold dot2. assert (E : Nat.eqb p q = false) by now apply Nat.eqb_neq.
  destruct A, B; simpl in *; try discriminate; injection HA as <-; injection HB as <-; now rewrite E.
Qed.

Lemma dot3_mismatch r k X b c n Y k' d Z : (k <> b * n \/ c * n <> k')%nat ->
  dot [A2 r k X; A3 b c n Y; A2 k' d Z] = Err ValueError.
Proof.
  intros H. simpl. destruct (Nat.eqb_spec k (b * n)); [|reflexivity].
  destruct (Nat.eqb_spec (c * n) k'); [|reflexivity]. lia.
Qed.

Lemma dot_accepts A B : compatible A B -> ndim A = 3%nat \/ ndim B = 3%nat -> wf_arr A -> wf_arr B ->
  exists P, dot [A; B] = Ok P /\ wf_arr P.
Proof.
  intros [p [HA [HB HS]]] H3 WA WB. simpl. unfold dot2.
  destruct A as [x|na v|r c m|a b n s|da], B as [x'|nb v'|r' c' m'|a' b' n' s'|db]; simpl in *;
    try discriminate; try lia; injection HA as E1; injection HB as E2; subst p.
  - (* vec, sparse *) rewrite E2, Nat.eqb_refl. simpl. eexists; split; [reflexivity|].
    apply length_vec_dot_sparse; [exact WB|]. unfold wf1 in *. lia.
  - rewrite E2, Nat.eqb_refl. simpl. eexists; split; [reflexivity|].
    rewrite <- E2 in WA.
    apply (dense_dot_sparse_correct r a' b' n' s' m (dense_of n' s') WB WA (dense_of_denotes _ _ _ _ WB)).
  - rewrite E2, Nat.eqb_refl. simpl. eexists; split; [reflexivity|].
    apply (length_sparse_dot_vec a b n s v' WA). unfold wf1 in *. lia.
  - rewrite E2, Nat.eqb_refl. simpl. eexists; split; [reflexivity|].
    rewrite E2 in WB.
    apply (sparse_dot_dense_correct a b n c' s m' (dense_of n s) WA WB (dense_of_denotes _ _ _ _ WA)).
  - destruct HS as [<- Hn]. assert (a' = b) as -> by nia. rewrite Nat.eqb_refl. simpl.
    rewrite sds_eq. eexists; split; [reflexivity|]. now apply sds_correct.
Qed.

Lemma dot_broadcast_wrong :
  let A := A3 1 1 2 [[[1; 2]]] in let B := A3 2 1 1 [[[3]]; [[4]]] in
  dot [A; B] = Ok (A3 1 1 2 [[[7; 14]]]).
Proof.
  simpl. unfold dot2. simpl. unfold sparse_dot_sparse, stack1. simpl. unfold mul_sum0, tab. simpl. unfold sum0, vadd, el2. simpl.
  repeat f_equal; ring.
Qed.
