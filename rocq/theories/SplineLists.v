(** * List lemmas for the spline model *)
From Verif Require Import Np NpLemmas Interp OdeSpec InterpProofs SparseSpec Spline SplineSpec.

Lemma length_tl' (v : list R) : length (tl v) = (length v - 1)%nat.
Proof. destruct v; simpl; lia. Qed.
Lemma el_tl v i : el (tl v) i = el v (S i).
Proof. destruct v; simpl; [ unfold el; destruct i; reflexivity | reflexivity ]. Qed.
Lemma length_init v : length (init v) = (length v - 1)%nat.
Proof. unfold init. rewrite firstn_length. lia. Qed.
Lemma el_init v i : (i < length v - 1)%nat -> el (init v) i = el v i.
Proof. intros H. unfold el, init. now apply nth_firstn_lt. Qed.
Lemma length_diff v : length (diff v) = (length v - 1)%nat.
Proof. induction v as [ | a [ | b v] IH]; simpl in *; lia. Qed.
Lemma el_diff v : forall i, (S i < length v)%nat -> el (diff v) i = el v (S i) - el v i.
Proof.
  induction v as [ | a [ | b v] IH]; intros i Hi; [ simpl in Hi; lia | simpl in Hi; lia | ].
  destruct i as [ | i]; [ reflexivity | ]. change (el (diff (b :: v)) i = el (b :: v) (S i) - el (b :: v) i). apply IH. simpl in *. lia.
Qed.
Lemma length_cumsum_from v : forall a, length (cumsum_from a v) = length v.
Proof. induction v as [ | x v IH]; intros a; simpl; [ reflexivity | now rewrite IH ]. Qed.
Lemma el_cumsum_from v : forall a i, (i < length v)%nat -> el (cumsum_from a v) i = a + Rsum (S i) (el v).
Proof.
  induction v as [ | x v IH]; intros a i Hi; [ simpl in Hi; lia | ]. destruct i as [ | i].
  - simpl. unfold el; simpl. ring.
  - change (el (cumsum_from (a + x) v) i = a + Rsum (S (S i)) (el (x :: v))). rewrite IH by (simpl in Hi; lia).
    rewrite (Rsum_S_l (S i)). change (el (x :: v) 0) with x. ring_simplify. f_equal.
Qed.
Lemma length_cumsum v : length (cumsum v) = length v.
Proof. apply length_cumsum_from. Qed.
(** np.concatenate([zeros(1), cumsum(v)]) *)
Lemma el_cst v i : (i <= length v)%nat -> el (0 :: cumsum v) i = Rsum i (el v).
Proof.
  intros H. destruct i as [ | i]; [ reflexivity | ]. change (el (cumsum v) i = Rsum (S i) (el v)). unfold cumsum. rewrite el_cumsum_from by lia. ring.
Qed.
Lemma el_map2 f u v i : length u = length v -> (i < length u)%nat -> el (map2 f u v) i = f (el u i) (el v i).
Proof. intros H K. unfold el. apply nth_map2; lia. Qed.
Lemma len_map2 (f : R -> R -> R) u v : length u = length v -> length (map2 f u v) = length u.
Proof. intros H. rewrite length_map2. lia. Qed.
Lemma el_map f (v : list R) i : (i < length v)%nat -> el (map f v) i = f (el v i).
Proof. intros H. unfold el. now apply nth_map_lt. Qed.
Lemma el_app1 u v i : (i < length u)%nat -> el (u ++ v) i = el u i.
Proof. intros. unfold el. now apply app_nth1. Qed.
Lemma el_app2 u v i : (length u <= i)%nat -> el (u ++ v) i = el v (i - length u).
Proof. intros. unfold el. now apply app_nth2. Qed.
Lemma el_cons x v i : el (x :: v) (S i) = el v i. Proof. reflexivity. Qed.
Lemma el_cons0 x v : el (x :: v) 0 = x. Proof. reflexivity. Qed.
Lemma el_vzeros n i : el (vzeros n) i = 0.
Proof. apply el_repeat0. Qed.
Lemma getZ_0 v : (1 <= length v)%nat -> getZ 0 v 0 = el v 0.
Proof. intros. apply (getZ_nat v 0). lia. Qed.
Lemma getZ_1 v : (2 <= length v)%nat -> getZ 0 v 1 = el v 1.
Proof. intros. apply (getZ_nat v 1). lia. Qed.

(** ** digitize *)
Lemma digitize_spec q v : incr v -> (digitize q v <= length v)%nat /\ forall i, (i < length v)%nat -> (i < digitize q v)%nat <-> el v i <= q.
Proof.
  unfold digitize. induction v as [ | a v IH]; intros Hi; [ split; [ simpl; lia | simpl; intros; lia ] | ].
  assert (Hv : incr v) by (intros i j H; apply (Hi (S i) (S j)); simpl; lia). destruct (IH Hv) as [L IH']. simpl. destruct (Rle_dec a q) as [Ha | Ha]; simpl.
  - split; [ lia | ]. intros [ | i] H; [ rewrite el_cons0; split; [ trivial | lia ] | ]. rewrite el_cons, <- IH' by lia. lia.
  - assert (Z : forall b, In b v -> q < b).
    { intros b Hb. destruct (In_nth v b 0 Hb) as (i & Hl & <-). pose proof (Hi 0%nat (S i) ltac:(simpl; lia)) as X. unfold el in X; simpl in X. lra. }
    assert (E : filter (fun b => if Rle_dec b q then true else false) v = []).
    { clear - Z. induction v as [ | b v IH]; [ reflexivity | ]. simpl. destruct (Rle_dec b q) as [H | H]; [ pose proof (Z b (or_introl eq_refl)); lra | ]. apply IH. intros c Hc. apply Z. now right. }
    rewrite E. simpl. split; [ lia | ]. intros [ | i] H; [ rewrite el_cons0; split; [ lia | lra ] | ]. rewrite el_cons. split; [ lia | ]. intros K. assert (q < el v i) by (apply Z, nth_In; lia). lra.
Qed.
Definition pidx (v : list R) (q : R) : nat := Z.to_nat (piece_index v q).
Lemma piece_index_nat v q : (2 <= length v)%nat -> piece_index v q = Z.of_nat (pidx v q) /\ (pidx v q < length v - 1)%nat.
Proof. intros H. unfold pidx, piece_index, clipZ. split; [ rewrite Z2Nat.id; lia | ]. lia. Qed.
Lemma pidx_spec v q : (2 <= length v)%nat -> incr v ->
  (pidx v q < length v - 1)%nat /\ (pidx v q = O \/ el v (pidx v q) <= q) /\ (S (pidx v q) = (length v - 1)%nat \/ q < el v (S (pidx v q))).
Proof.
  intros Hn Hi. destruct (digitize_spec q v Hi) as [L D]. destruct (piece_index_nat v q Hn) as [_ P]. split; [ exact P | ].
  assert (E : pidx v q = Nat.min (digitize q v - 1) (length v - 2)) by (unfold pidx, piece_index, clipZ; lia).
  split.
  - destruct (Nat.eq_dec (pidx v q) 0) as [e | n]; [ now left | right ]. apply D; lia.
  - destruct (Nat.eq_dec (S (pidx v q)) (length v - 1)) as [e | n]; [ now left | right ].
    destruct (Rlt_le_dec q (el v (S (pidx v q)))) as [K | K]; [ exact K | ]. apply D in K; lia.
Qed.

(** ** the knots *)
Lemma length_quad_knots x : (2 <= length x)%nat -> length (quad_knots x) = S (length x).
Proof. intros H. unfold quad_knots. rewrite !app_length, map_length. unfold vadd. rewrite len_map2; rewrite ?length_tl', ?length_init; simpl; lia. Qed.
Lemma el_quad_knots x i : (2 <= length x)%nat -> (i <= length x)%nat -> el (quad_knots x) i = knot 2 x i.
Proof.
  intros H Hi. unfold quad_knots, knot. change (Nat.eqb 2 2) with true. cbv iota.
  assert (L : length (vadd (tl x) (init x)) = (length x - 1)%nat) by (unfold vadd; rewrite len_map2; rewrite ?length_tl', ?length_init; lia).
  destruct (Nat.eqb_spec i 0) as [-> | n].
  - simpl app. rewrite el_cons0, getZ_0, getZ_1 by lia. lra.
  - destruct i as [ | i]; [ lia | ]. simpl app. rewrite el_cons. destruct (Nat.eqb_spec (S i) (length x)) as [e | n'].
    + rewrite el_app2 by (rewrite map_length, L; lia). rewrite map_length, L. replace (i - (length x - 1))%nat with 0%nat by lia. rewrite el_cons0.
      rewrite getZ_m1, getZ_m2 by lia. lra.
    + rewrite el_app1 by (rewrite map_length, L; lia). rewrite el_map by (rewrite L; lia). unfold vadd. rewrite el_map2 by (rewrite ?length_tl', ?length_init; lia).
      rewrite el_tl, el_init by lia. replace (S i - 1)%nat with i by lia. lra.
Qed.
Lemma incr_knot k x i j : incr x -> (2 <= length x)%nat -> (i < j)%nat -> (j <= n_pieces k x)%nat -> knot k x i < knot k x j.
Proof.
  intros Hx H2 Hij Hj. unfold knot, n_pieces in *. destruct (Nat.eqb k 2).
  - assert (X : forall a b, (a < b < length x)%nat -> el x a < el x b) by exact Hx.
    assert (Y : forall a b, (a <= b < length x)%nat -> el x a <= el x b) by (intros; apply incr_le; assumption).
    destruct (Nat.eqb_spec i 0) as [-> | ni]; destruct (Nat.eqb_spec j 0) as [e | _]; try lia.
    + destruct (Nat.eqb_spec j (length x)) as [-> | nj].
      * pose proof (X (length x - 2)%nat (length x - 1)%nat ltac:(lia)). pose proof (X 0%nat 1%nat ltac:(lia)). pose proof (Y 0%nat (length x - 1)%nat ltac:(lia)). lra.
      * pose proof (X 0%nat 1%nat ltac:(lia)). pose proof (Y 0%nat (j - 1)%nat ltac:(lia)). pose proof (Y 0%nat j ltac:(lia)). lra.
    + destruct (Nat.eqb_spec i (length x)) as [e | _]; [ lia | ]. destruct (Nat.eqb_spec j (length x)) as [-> | nj].
      * pose proof (X (length x - 2)%nat (length x - 1)%nat ltac:(lia)). pose proof (Y i (length x - 1)%nat ltac:(lia)). pose proof (Y (i - 1)%nat (length x - 1)%nat ltac:(lia)). lra.
      * pose proof (X (i - 1)%nat (j - 1)%nat ltac:(lia)). pose proof (X i j ltac:(lia)). lra.
  - apply Hx. lia.
Qed.

Definition kz (k : nat) : Z := Z.of_nat k.
Lemma length_knots k x : (2 <= length x)%nat -> length (spline_knots (kz k) x) = S (n_pieces k x).
Proof.
  intros H. unfold spline_knots, n_pieces, kz. destruct (Nat.eqb_spec k 2) as [-> | n].
  - change (Z.of_nat 2 =? 2)%Z with true. cbv iota. now apply length_quad_knots.
  - destruct (Z.eqb_spec (Z.of_nat k) 2); [ lia | lia ].
Qed.
Lemma el_knots k x i : (2 <= length x)%nat -> (i <= n_pieces k x)%nat -> el (spline_knots (kz k) x) i = knot k x i.
Proof.
  intros H Hi. unfold spline_knots, n_pieces, kz in *. destruct (Nat.eqb_spec k 2) as [-> | n].
  - change (Z.of_nat 2 =? 2)%Z with true. cbv iota. now apply el_quad_knots.
  - destruct (Z.eqb_spec (Z.of_nat k) 2); [ lia | ]. unfold knot. destruct (Nat.eqb_spec k 2); [ lia | reflexivity ].
Qed.
Lemma incr_knots k x : (2 <= length x)%nat -> incr x -> incr (spline_knots (kz k) x).
Proof. intros H Hx i j Hij. rewrite length_knots in Hij by exact H. rewrite !el_knots by (assumption || lia). apply incr_knot; (assumption || lia). Qed.
Lemma pieces_pos k x : (2 <= length x)%nat -> (0 < n_pieces k x)%nat.
Proof. unfold n_pieces. destruct (Nat.eqb k 2); lia. Qed.

(** the piece serving a query point *)
Definition index (k : nat) (x : list R) (q : R) : nat := pidx (spline_knots (kz k) x) q.
Lemma index_spec k x q : (2 <= length x)%nat -> incr x ->
  (index k x q < n_pieces k x)%nat /\ (index k x q = O \/ knot k x (index k x q) <= q) /\ (S (index k x q) = n_pieces k x \/ q < knot k x (S (index k x q))).
Proof.
  intros H Hx. pose proof (pieces_pos k x H) as HP. destruct (pidx_spec (spline_knots (kz k) x) q) as (A & B & C); [ rewrite length_knots by exact H; lia | now apply incr_knots | ].
  rewrite length_knots in A, C by exact H. fold (index k x q) in A, B, C. rewrite el_knots in B by (assumption || lia). rewrite el_knots in C by (assumption || lia).
  replace (S (n_pieces k x) - 1)%nat with (n_pieces k x) in * by lia. exact (conj A (conj B C)).
Qed.
Lemma index_Z k x q : (2 <= length x)%nat -> piece_index (spline_knots (kz k) x) q = Z.of_nat (index k x q).
Proof. intros H. apply piece_index_nat. rewrite length_knots by exact H. pose proof (pieces_pos k x H). lia. Qed.
