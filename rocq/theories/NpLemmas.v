(** * Lemmas about the list-array primitives of Np.v (proofs only, no modelling) *)
From Verif Require Import Np.

Lemma length_map2 {A B C} (f : A -> B -> C) l m :
  length (map2 f l m) = Nat.min (length l) (length m).
Proof. revert m; induction l as [|x l IH]; intros [|y m]; simpl; auto. Qed.

Lemma nth_map2 {A B C} (f : A -> B -> C) l m i da db dc :
  (i < length l)%nat -> (i < length m)%nat ->
  nth i (map2 f l m) dc = f (nth i l da) (nth i m db).
Proof.
  revert m i; induction l as [|x l IH]; intros [|y m] [|i]; simpl; intros; try lia; auto.
  apply IH; lia.
Qed.

Lemma length_tab {A} n (f : nat -> A) : length (tab n f) = n.
Proof. unfold tab. now rewrite map_length, seq_length. Qed.

Lemma nth_tab {A} n (f : nat -> A) i d : (i < n)%nat -> nth i (tab n f) d = f i.
Proof.
  intros H. unfold tab.
  rewrite nth_indep with (d' := f 0%nat) by (rewrite map_length, seq_length; lia).
  rewrite map_nth, seq_nth by lia. reflexivity.
Qed.

Lemma tab_ext {A} n (f g : nat -> A) : (forall i, (i < n)%nat -> f i = g i) -> tab n f = tab n g.
Proof. intros H. unfold tab. apply map_ext_in. intros i Hi. apply in_seq in Hi. apply H; lia. Qed.

Lemma In_tab {A} n (f : nat -> A) x : In x (tab n f) <-> exists i, (i < n)%nat /\ f i = x.
Proof.
  unfold tab. rewrite in_map_iff. split.
  - intros [i [E Hi]]. apply in_seq in Hi. exists i; split; auto; lia.
  - intros [i [Hi E]]. exists i; split; auto. apply in_seq; lia.
Qed.

Lemma tab_S {A} n (f : nat -> A) : tab (S n) f = f 0%nat :: tab n (fun i => f (S i)).
Proof. unfold tab. simpl. f_equal. rewrite <- seq_shift, map_map. reflexivity. Qed.

Lemma tab_snoc {A} n (f : nat -> A) : tab (S n) f = tab n f ++ [f n].
Proof. unfold tab. rewrite seq_S, map_app. reflexivity. Qed.

Lemma map_tab {A B} (g : A -> B) n f : map g (tab n f) = tab n (fun i => g (f i)).
Proof. unfold tab. now rewrite map_map. Qed.

Lemma list_tab {A} (l : list A) d : l = tab (length l) (fun i => nth i l d).
Proof.
  apply nth_ext with (d := d) (d' := d).
  - now rewrite length_tab.
  - intros n Hn. now rewrite nth_tab.
Qed.

Lemma nth_map_lt {A B} (f : A -> B) l i d d' :
  (i < length l)%nat -> nth i (map f l) d' = f (nth i l d).
Proof.
  intros H. rewrite nth_indep with (d' := f d) by (now rewrite map_length).
  apply map_nth.
Qed.

Lemma list_eq_nth {A} (d : A) l m :
  length l = length m -> (forall i, (i < length l)%nat -> nth i l d = nth i m d) -> l = m.
Proof. intros; eapply nth_ext; eauto. Qed.

(** ** Rsum *)
Lemma Rsum_ext n f g : (forall i, (i < n)%nat -> f i = g i) -> Rsum n f = Rsum n g.
Proof. induction n as [|n IH]; simpl; intros H; auto. rewrite IH, H; auto. Qed.

Lemma Rsum_0 n : Rsum n (fun _ => 0) = 0.
Proof. induction n as [|n IH]; simpl; auto. rewrite IH; lra. Qed.

Lemma Rsum_0_ext n f : (forall i, (i < n)%nat -> f i = 0) -> Rsum n f = 0.
Proof. intros H. rewrite (Rsum_ext n f (fun _ => 0)); auto. apply Rsum_0. Qed.

Lemma Rsum_plus n f g : Rsum n (fun i => f i + g i) = Rsum n f + Rsum n g.
Proof. induction n as [|n IH]; simpl; [lra|]. rewrite IH; lra. Qed.

Lemma Rsum_minus n f g : Rsum n (fun i => f i - g i) = Rsum n f - Rsum n g.
Proof. induction n as [|n IH]; simpl; [lra|]. rewrite IH; lra. Qed.

Lemma Rsum_scal n c f : Rsum n (fun i => c * f i) = c * Rsum n f.
Proof. induction n as [|n IH]; simpl; [lra|]. rewrite IH; lra. Qed.

Lemma Rsum_scal_r n c f : Rsum n (fun i => f i * c) = Rsum n f * c.
Proof. induction n as [|n IH]; simpl; [lra|]. rewrite IH; lra. Qed.

Lemma Rsum_const n c : Rsum n (fun _ => c) = INR n * c.
Proof. induction n as [|n IH]; [simpl; lra|]. rewrite S_INR. simpl Rsum. rewrite IH. lra. Qed.

Lemma Rsum_S_l n f : Rsum (S n) f = f 0%nat + Rsum n (fun i => f (S i)).
Proof. induction n as [|n IH]; simpl in *; [lra|]. rewrite IH. lra. Qed.

Lemma Rsum_add n m f : Rsum (n + m) f = Rsum n f + Rsum m (fun i => f (n + i)%nat).
Proof.
  induction m as [|m IH]; simpl.
  - rewrite Nat.add_0_r; lra.
  - rewrite Nat.add_succ_r; simpl. rewrite IH; lra.
Qed.

Lemma Rsum_mul b n f : Rsum (b * n) f = Rsum b (fun j => Rsum n (fun q => f (j * n + q)%nat)).
Proof.
  induction b as [|b IH]; [reflexivity|].
  replace (S b * n)%nat with (b * n + n)%nat by lia.
  rewrite Rsum_add, IH. simpl. reflexivity.
Qed.

Lemma Rsum_swap n m f :
  Rsum n (fun i => Rsum m (fun j => f i j)) = Rsum m (fun j => Rsum n (fun i => f i j)).
Proof.
  induction n as [|n IH]; simpl.
  - symmetry; apply Rsum_0.
  - rewrite IH, <- Rsum_plus. reflexivity.
Qed.

Lemma Rsum_delta n k f : (k < n)%nat -> Rsum n (fun i => if Nat.eqb i k then f i else 0) = f k.
Proof.
  induction n as [|n IH]; intros H; [lia|]. simpl.
  destruct (Nat.eqb_spec n k) as [->|E].
  - rewrite Rsum_0_ext; [lra|]. intros i Hi. destruct (Nat.eqb_spec i k); auto; lia.
  - rewrite IH by lia. lra.
Qed.

Lemma Rsum_delta_r n k f : (k < n)%nat -> Rsum n (fun i => if Nat.eqb k i then f i else 0) = f k.
Proof.
  intros H. rewrite <- (Rsum_delta n k f H). apply Rsum_ext. intros i _. now rewrite Nat.eqb_sym.
Qed.

Lemma Rsum_nonneg n f : (forall i, (i < n)%nat -> 0 <= f i) -> 0 <= Rsum n f.
Proof.
  induction n as [|n IH]; simpl; intros H; [lra|].
  assert (0 <= f n) by (apply H; lia). assert (0 <= Rsum n f) by (apply IH; auto). lra.
Qed.

Lemma Rsum_le n f g : (forall i, (i < n)%nat -> f i <= g i) -> Rsum n f <= Rsum n g.
Proof.
  induction n as [|n IH]; simpl; intros H; [lra|].
  assert (f n <= g n) by (apply H; lia). assert (Rsum n f <= Rsum n g) by (apply IH; auto). lra.
Qed.

Lemma Rsum_abs n f : Rabs (Rsum n f) <= Rsum n (fun i => Rabs (f i)).
Proof.
  induction n as [|n IH]; simpl; [rewrite Rabs_R0; lra|].
  eapply Rle_trans; [apply Rabs_triang|]. lra.
Qed.

Lemma Rsum_rev n f : Rsum n f = Rsum n (fun i => f (n - 1 - i)%nat).
Proof.
  induction n as [|n IH]; [reflexivity|].
  rewrite (Rsum_S_l n (fun i => f (S n - 1 - i)%nat)).
  change (Rsum (S n) f) with (Rsum n f + f n). rewrite IH.
  replace (S n - 1 - 0)%nat with n by lia. rewrite Rplus_comm. f_equal.
  apply Rsum_ext. intros i Hi. f_equal. lia.
Qed.

Lemma Rsum_telescope n (f : nat -> R) : Rsum n (fun i => f (S i) - f i) = f n - f 0%nat.
Proof. induction n as [|n IH]; simpl; [lra|]. rewrite IH; lra. Qed.

Lemma vsum_app u v : vsum (u ++ v) = vsum u + vsum v.
Proof. induction u as [|x u IH]; simpl; [unfold vsum; simpl; lra|]. unfold vsum in *; simpl. rewrite IH; lra. Qed.

Lemma vsum_Rsum v : vsum v = Rsum (length v) (fun i => el v i).
Proof.
  induction v as [|x v IH]; [reflexivity|].
  simpl length. rewrite Rsum_S_l. unfold vsum in *. simpl. rewrite IH. reflexivity.
Qed.

Lemma vsum_tab n f : vsum (tab n f) = Rsum n f.
Proof.
  rewrite vsum_Rsum, length_tab. apply Rsum_ext. intros i Hi. unfold el. now rewrite nth_tab.
Qed.

(** ** vectors *)
Lemma length_vadd u v : length u = length v -> length (vadd u v) = length u.
Proof. intros H. unfold vadd. rewrite length_map2. lia. Qed.

Lemma el_vadd u v i : length u = length v -> el (vadd u v) i = el u i + el v i.
Proof.
  intros H. unfold el, vadd. destruct (Nat.lt_ge_cases i (length u)).
  - rewrite nth_map2 with (da := 0) (db := 0) by lia. reflexivity.
  - rewrite !nth_overflow; try lia; try lra. rewrite length_map2; lia.
Qed.

Lemma length_vmul u v : length u = length v -> length (vmul u v) = length u.
Proof. intros H. unfold vmul. rewrite length_map2. lia. Qed.

Lemma el_vmul u v i : length u = length v -> el (vmul u v) i = el u i * el v i.
Proof.
  intros H. unfold el, vmul. destruct (Nat.lt_ge_cases i (length u)).
  - rewrite nth_map2 with (da := 0) (db := 0) by lia. reflexivity.
  - rewrite !nth_overflow; try lia; try lra. rewrite length_map2; lia.
Qed.

Lemma vdot_Rsum n u v : length u = n -> length v = n ->
  vdot u v = Rsum n (fun i => el u i * el v i).
Proof.
  intros Hu Hv. unfold vdot. rewrite vsum_Rsum, length_vmul by lia. rewrite Hu.
  apply Rsum_ext. intros i _. apply el_vmul; lia.
Qed.

Lemma length_sum0 n rows : (forall r, In r rows -> length r = n) -> length (sum0 n rows) = n.
Proof.
  induction rows as [|r rows IH]; intros H; simpl.
  - apply repeat_length.
  - rewrite length_vadd; [apply H; now left|]. rewrite IH; [apply H; now left|]. intros; apply H; now right.
Qed.

Lemma el_repeat0 n k : el (repeat 0 n) k = 0.
Proof. unfold el. revert k; induction n as [|n IH]; intros [|k]; simpl; auto. Qed.

Lemma el_sum0 n rows k : (forall r, In r rows -> length r = n) ->
  el (sum0 n rows) k = Rsum (length rows) (fun j => el (nth j rows []) k).
Proof.
  induction rows as [|r rows IH]; intros H.
  - simpl. apply el_repeat0.
  - simpl length. rewrite Rsum_S_l. simpl sum0.
    rewrite el_vadd.
    + rewrite IH; [reflexivity|]. intros; apply H; now right.
    + rewrite length_sum0; [apply H; now left|]. intros; apply H; now right.
Qed.

(** ** chunk and concat *)
Lemma length_chunk {A} n b (v : list A) : length (chunk n b v) = b.
Proof. revert v; induction b as [|b IH]; intros v; simpl; auto. Qed.

Lemma nth_firstn_lt {A} (l : list A) : forall n i d, (i < n)%nat -> nth i (firstn n l) d = nth i l d.
Proof.
  induction l as [|x l IH]; intros [|n] [|i] d H; simpl; auto; try lia. apply IH; lia.
Qed.

Lemma nth_skipn' {A} (l : list A) : forall n i d, nth i (skipn n l) d = nth (n + i) l d.
Proof.
  induction l as [|x l IH]; intros [|n] i d; simpl; auto. destruct i; auto.
Qed.

Lemma chunk_row_length {A} n b (v : list A) row :
  (b * n <= length v)%nat -> In row (chunk n b v) -> length row = n.
Proof.
  revert v; induction b as [|b IH]; intros v H; simpl; [easy|]. intros [<-|Hin].
  - rewrite firstn_length. simpl in H. lia.
  - apply (IH (skipn n v)); auto. rewrite skipn_length. simpl in H. lia.
Qed.

Lemma nth_chunk {A} n b (v : list A) j k d d' :
  (j < b)%nat -> (k < n)%nat -> nth k (nth j (chunk n b v) d') d = nth (j * n + k) v d.
Proof.
  revert v j; induction b as [|b IH]; intros v j Hj Hk; [lia|].
  destruct j as [|j]; simpl.
  - now apply nth_firstn_lt.
  - rewrite IH by lia. rewrite nth_skipn'. f_equal. lia.
Qed.

Lemma length_concat_const {A} n (ls : list (list A)) :
  (forall r, In r ls -> length r = n) -> length (concat ls) = (length ls * n)%nat.
Proof.
  induction ls as [|l ls IH]; intros H; simpl; auto.
  rewrite app_length, IH; [|intros; apply H; now right]. rewrite (H l); [lia|now left].
Qed.

Lemma nth_concat_const {A} n (ls : list (list A)) i d :
  (forall r, In r ls -> length r = n) -> (i < length ls * n)%nat ->
  nth i (concat ls) d = nth (i mod n) (nth (i / n) ls []) d.
Proof.
  revert i; induction ls as [|l ls IH]; intros i H Hi; simpl in *; [lia|].
  assert (Hl : length l = n) by (apply H; now left).
  assert (n <> 0)%nat by (intros ->; lia).
  destruct (Nat.lt_ge_cases i n).
  - rewrite app_nth1 by lia. rewrite Nat.div_small, Nat.mod_small by lia. reflexivity.
  - rewrite app_nth2 by lia. rewrite Hl, IH; [|intros; apply H; now right|lia].
    replace i with ((i - n) + 1 * n)%nat at 3 4 by lia.
    rewrite Nat.mod_add, Nat.div_add by lia. rewrite Nat.add_1_r. reflexivity.
Qed.

Lemma nth_concat_jk {A} n (ls : list (list A)) j k d :
  (forall r, In r ls -> length r = n) -> (j < length ls)%nat -> (k < n)%nat ->
  nth (j * n + k) (concat ls) d = nth k (nth j ls []) d.
Proof.
  intros H Hj Hk. rewrite nth_concat_const with (n := n); auto; [|nia].
  rewrite Nat.add_comm, Nat.mod_add, Nat.div_add by lia.
  rewrite Nat.div_small, Nat.mod_small by lia. reflexivity.
Qed.

Lemma mod_div_lt i b n : (i < b * n)%nat -> (i / n < b)%nat /\ (i mod n < n)%nat.
Proof.
  intros H. assert (n <> 0)%nat by (intros ->; lia). split.
  - apply Nat.div_lt_upper_bound; lia.
  - apply Nat.mod_upper_bound; lia.
Qed.

(** ** well-shapedness *)
Lemma wf2_row r c m i : wf2 r c m -> (i < r)%nat -> length (nth i m []) = c.
Proof. intros [H1 H2] Hi. apply H2. apply nth_In. lia. Qed.

Lemma wf3_row a b n s i : wf3 a b n s -> (i < a)%nat -> wf2 b n (nth i s []).
Proof. intros [H1 H2] Hi. apply H2. apply nth_In. lia. Qed.

Lemma wf2_tab r c (f : nat -> list R) : (forall i, (i < r)%nat -> length (f i) = c) -> wf2 r c (tab r f).
Proof.
  intros H. split; [apply length_tab|]. intros row Hin. apply In_tab in Hin as [i [Hi <-]]. auto.
Qed.

Lemma el2_tab r c f i j : (i < r)%nat -> (j < c)%nat -> el2 (tab r (fun i => tab c (f i))) i j = f i j.
Proof. intros. unfold el2. rewrite nth_tab by lia. now rewrite nth_tab by lia. Qed.

Lemma wf2_tab2 r c (f : nat -> nat -> R) : wf2 r c (tab r (fun i => tab c (f i))).
Proof. apply wf2_tab. intros; apply length_tab. Qed.

Lemma mat_ext r c m1 m2 : wf2 r c m1 -> wf2 r c m2 ->
  (forall i j, (i < r)%nat -> (j < c)%nat -> el2 m1 i j = el2 m2 i j) -> m1 = m2.
Proof.
  intros [H1 H1'] [H2 H2'] H. apply (list_eq_nth []); [lia|]. intros i Hi.
  apply (list_eq_nth 0).
  - rewrite H1' by (apply nth_In; lia). rewrite H2' by (apply nth_In; lia). reflexivity.
  - intros j Hj. apply H; [lia|]. rewrite H1' in Hj by (apply nth_In; lia). exact Hj.
Qed.

Lemma wf3_tab a b n (f : nat -> list (list R)) :
  (forall i, (i < a)%nat -> wf2 b n (f i)) -> wf3 a b n (tab a f).
Proof.
  intros H. split; [apply length_tab|]. intros row Hin. apply In_tab in Hin as [i [Hi <-]]. auto.
Qed.

Lemma length_col j m : length (col j m) = length m.
Proof. apply map_length. Qed.
Lemma el_col j m i : (i < length m)%nat -> el (col j m) i = el2 m i j.
Proof. intros. unfold el, col, el2. rewrite nth_map_lt with (d := []); auto. Qed.
Lemma wf2_col3 a b n s j : wf3 a b n s -> (j < b)%nat -> wf2 a n (col3 j s).
Proof.
  intros [H1 H2] Hj. split; [unfold col3; now rewrite map_length|].
  intros row Hin. apply in_map_iff in Hin as [r [<- Hr]]. apply (H2 r Hr). apply nth_In.
  destruct (H2 r Hr) as [-> _]. exact Hj.
Qed.
Lemma el2_col3 j s i k : (i < length s)%nat -> el2 (col3 j s) i k = el3 s i j k.
Proof. intros. unfold el2, col3, el3. rewrite nth_map_lt with (d := []); auto. Qed.
