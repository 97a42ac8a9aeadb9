(** * det on a matrix with a zero trailing pivot (C10) *)
From Verif Require Import Np NpLemmas Sparse SparseSpec SparseX.

Lemma xmul_zero_l y : xmul (Fin 0) y = Fin 0 \/ xmul (Fin 0) y = NaN.
Proof.
  destruct y as [y| | |]; simpl.
  - left. f_equal. ring.
  - right. unfold inf_of, Rsgn. repeat destruct Rlt_dec; try lra; reflexivity.
  - right. unfold inf_of, Rsgn. repeat destruct Rlt_dec; try lra; reflexivity.
  - now right.
Qed.

Definition swapmat : list (list (list R)) := [[[0]; [1]]; [[1]; [0]]].

Lemma xdet_swap xinv : xdet xinv 2 1 (fin3 swapmat) = Fin 0 \/ xdet xinv 2 1 (fin3 swapmat) = NaN.
Proof.
  unfold xdet, xslogdet.
  change (nth (2 - 1) (nth (2 - 1) (fin3 swapmat) []) []) with [Fin 0].
  change (seq 0 (2 - 1)) with [0%nat]. unfold fold_left.
  destruct (xblock_det xinv (fin3 swapmat) 0 2 1) as [sg ld].
  assert (E : xprod (map xsign [Fin 0]) = Fin 0).
  { simpl. f_equal. unfold Rsgn. repeat destruct Rlt_dec; lra. }
  rewrite E. unfold fst, snd.
  destruct (xmul_zero_l sg) as [-> | ->]; [apply xmul_zero_l|].
  right. destruct (xexp (xadd (xsum (map (fun x => xlog (xabs x)) [Fin 0])) ld)); reflexivity.
Qed.

(** ** any zero among the last diagonal block *)
Definition zero_or_nan (x : XR) : Prop := x = Fin 0 \/ x = NaN.
Definition ninf_or_nan (x : XR) : Prop := x = NInf \/ x = NaN.
Lemma xmul_nan_l y : xmul NaN y = NaN.
Proof. destruct y; reflexivity. Qed.
Lemma xmul_nan_r x : xmul x NaN = NaN.
Proof. destruct x as [x | | | ]; simpl; try reflexivity. Qed.
Lemma xmul_zero_r x : zero_or_nan (xmul x (Fin 0)).
Proof.
  destruct x as [x| | |]; simpl.
  - left. f_equal. ring.
  - right. unfold inf_of, Rsgn. repeat destruct Rlt_dec; try lra; reflexivity.
  - right. unfold inf_of, Rsgn. repeat destruct Rlt_dec; try lra; reflexivity.
  - now right.
Qed.
Lemma zn_mul_l x y : zero_or_nan x -> zero_or_nan (xmul x y).
Proof. intros [-> | ->]; [ apply xmul_zero_l | right; apply xmul_nan_l ]. Qed.
Lemma zn_mul_r x y : zero_or_nan y -> zero_or_nan (xmul x y).
Proof. intros [-> | ->]; [ apply xmul_zero_r | right; apply xmul_nan_r ]. Qed.
Lemma nn_add_l x y : ninf_or_nan x -> ninf_or_nan (xadd x y).
Proof. intros [-> | ->]; destruct y; unfold ninf_or_nan; simpl; auto. Qed.
Lemma nn_add_r x y : ninf_or_nan y -> ninf_or_nan (xadd x y).
Proof. intros [-> | ->]; destruct x; unfold ninf_or_nan; simpl; auto. Qed.
Lemma zn_prod v : In (Fin 0) v -> zero_or_nan (xprod (map xsign v)).
Proof.
  induction v as [ | x v IH]; [ intros [] | intros [E | E]]; simpl.
  - subst x. apply zn_mul_l. left. unfold xsign. simpl. f_equal. unfold Rsgn. repeat destruct Rlt_dec; lra.
  - apply zn_mul_r. now apply IH.
Qed.
Lemma nn_sum v : In (Fin 0) v -> ninf_or_nan (xsum (map (fun x => xlog (xabs x)) v)).
Proof.
  induction v as [ | x v IH]; [ intros [] | intros [E | E]]; simpl.
  - subst x. apply nn_add_l. left. simpl. rewrite Rabs_R0. destruct Rlt_dec; [ lra | ]. destruct Req_EM_T; [ reflexivity | lra ].
  - apply nn_add_r. now apply IH.
Qed.
Lemma xdet_zero_pivot xinv N P s : In (Fin 0) (nth (N - 1) (nth (N - 1) s []) []) ->
  zero_or_nan (fst (xslogdet xinv N P s)) /\ ninf_or_nan (snd (xslogdet xinv N P s)) /\ zero_or_nan (xdet xinv N P s).
Proof.
  intros HI. unfold xdet.
  assert (A : zero_or_nan (fst (xslogdet xinv N P s)) /\ ninf_or_nan (snd (xslogdet xinv N P s))).
  { unfold xslogdet. set (l := seq 0 (N - 1)). clearbody l.
    pose proof (zn_prod _ HI) as Z. pose proof (nn_sum _ HI) as S. revert Z S.
    generalize (xprod (map xsign (nth (N - 1) (nth (N - 1) s []) []))) (xsum (map (fun x => xlog (xabs x)) (nth (N - 1) (nth (N - 1) s []) []))).
    induction l as [ | i l IH]; intros sg ld Z S; [ now split | ]. simpl.
    destruct (xblock_det xinv s i N P) as [sg' ld']. apply IH; [ now apply zn_mul_l | now apply nn_add_l ]. }
  destruct A as [A B]. split; [ exact A | split; [ exact B | ]].
  destruct (xslogdet xinv N P s) as [sg ld]. simpl in *. now apply zn_mul_l.
Qed.
(** for a well-formed real array *)
Lemma zero_pivot : forall xinv a n s k, wf3 a a n s -> (1 <= a)%nat -> (k < n)%nat -> el3 s (a - 1) (a - 1) k = 0 ->
  let '(sg, ld) := xslogdet xinv a n (fin3 s) in
  (sg = Fin 0 \/ sg = NaN) /\ (ld = NInf \/ ld = NaN) /\ (xdet xinv a n (fin3 s) = Fin 0 \/ xdet xinv a n (fin3 s) = NaN).
Proof.
  intros xinv a n s k Hw Ha Hk Hz.
  assert (HI : In (Fin 0) (nth (a - 1) (nth (a - 1) (fin3 s) []) [])).
  { unfold fin3. change (@nil (list XR)) with (map (map Fin) []) at 1. rewrite map_nth.
    change (@nil XR) with (map Fin []). rewrite map_nth. apply in_map_iff. exists 0. split; [ reflexivity | ].
    rewrite <- Hz. unfold el3. apply nth_In.
    destruct Hw as [Hl Hw]. destruct (Hw (nth (a - 1) s [])) as [Hl2 Hr]; [ apply nth_In; lia | ].
    rewrite (Hr (nth (a - 1) (nth (a - 1) s []) [])); [ exact Hk | apply nth_In; lia ]. }
  pose proof (xdet_zero_pivot xinv a n (fin3 s) HI) as (A & B & C).
  destruct (xslogdet xinv a n (fin3 s)) as [sg ld]. simpl in *. auto.
Qed.
Lemma ex_zero_pivot : wf3 2 2 1 swapmat /\ (1 <= 2)%nat /\ (0 < 1)%nat /\ el3 swapmat (2 - 1) (2 - 1) 0 = 0.
Proof.
  split; [ | repeat split; auto ]. split; [ reflexivity | ].
  intros r [<- | [<- | []]]; (split; [ reflexivity | intros x [<- | [<- | []]]; reflexivity ]).
Qed.
