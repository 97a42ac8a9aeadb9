(** * Proofs about the tables of background.py, for any number of nodes *)
From Coquelicot Require Import Coquelicot.
From Verif Require Import Np NpLemmas Core Ode OdeSpec OdeProofs Interp InterpProofs Background BgSpec BgAlgebra.

(** ** Scale-factor nodes *)
Definition anode (la : R) (n i : nat) : R := pow10 (la + INR i * ((0.0 - la) / INR (n - 1))).

Lemma ln10_pos : 0 < ln 10.
Proof. rewrite <- ln_1. apply ln_increasing; lra. Qed.
Lemma pow10_pos x : 0 < pow10 x.
Proof. apply exp_pos. Qed.
Lemma pow10_lt x y : x < y -> pow10 x < pow10 y.
Proof. intros H. unfold pow10. apply exp_increasing. apply Rmult_lt_compat_r; [ apply ln10_pos | assumption ]. Qed.
Lemma pow10_0 : pow10 0 = 1.
Proof. unfold pow10. rewrite Rmult_0_l. apply exp_0. Qed.
Lemma ln_pow10 x : ln (pow10 x) = x * ln 10.
Proof. unfold pow10. apply ln_exp. Qed.

Lemma anode_table n i : anode (-3) n i = table_node n i.
Proof. unfold anode, table_node. repeat f_equal. lra. Qed.

Lemma length_logspace la n : length (logspace la 0.0 n) = n.
Proof. unfold logspace, linspace. now rewrite map_length, length_tab. Qed.
Lemma logspace_el la n i : (i < n)%nat -> el (logspace la 0.0 n) i = anode la n i.
Proof. intros H. unfold logspace, linspace, el. rewrite map_tab, nth_tab by assumption. reflexivity. Qed.
Lemma anode_pos la n i : 0 < anode la n i.
Proof. apply pow10_pos. Qed.
Lemma anode_lt la n i j : la < 0 -> (2 <= n)%nat -> (i < j)%nat -> anode la n i < anode la n j.
Proof.
  intros Hla Hn Hij. unfold anode. apply pow10_lt.
  assert (0 < INR (n - 1)) by (apply lt_0_INR; lia).
  assert (0 < (0.0 - la) / INR (n - 1)) by (apply Rdiv_lt_0_compat; lra).
  apply lt_INR in Hij. nra.
Qed.
Lemma anode_last la n : (2 <= n)%nat -> anode la n (n - 1) = 1.
Proof.
  intros Hn. unfold anode. rewrite <- pow10_0. f_equal.
  assert (0 < INR (n - 1)) by (apply lt_0_INR; lia). field_simplify; lra.
Qed.
Lemma logspace_incr la n : la < 0 -> (2 <= n)%nat -> incr (logspace la 0.0 n).
Proof.
  intros Hla Hn i j. rewrite length_logspace. intros Hij. rewrite !logspace_el by lia. apply anode_lt; auto; lia.
Qed.
Lemma lnlogspace_el la n i : (i < n)%nat -> el (map ln (logspace la 0.0 n)) i = ln (anode la n i).
Proof.
  intros H. unfold el. rewrite (nth_map_lt ln _ _ 0) by (now rewrite length_logspace).
  fold (el (logspace la 0.0 n) i). now rewrite logspace_el.
Qed.
Lemma ln_anode_step la n i : ln (anode la n (i + 1)) - ln (anode la n i) = (0.0 - la) / INR (n - 1) * ln 10.
Proof. unfold anode. rewrite !ln_pow10, plus_INR. simpl INR. ring. Qed.
Lemma ln_step_pos la n : la < 0 -> (2 <= n)%nat -> 0 < (0.0 - la) / INR (n - 1) * ln 10.
Proof.
  intros Hla Hn. assert (0 < INR (n - 1)) by (apply lt_0_INR; lia).
  apply Rmult_lt_0_compat; [ apply Rdiv_lt_0_compat; lra | apply ln10_pos ].
Qed.

Lemma lastR_el v : (1 <= length v)%nat -> lastR v = el v (length v - 1).
Proof. intros H. apply getZ_m1, H. Qed.

(** ** The quadrature tables: cumulative Simpson sums over ln a *)
Definition qstep (g : R -> R) (la : R) (n j : nat) : R :=
  let s := ln (anode la n j) in let t := ln (anode la n (j + 1)) in
  (t - s) / 6 * (g s + 4 * g ((s + t) / 2) + g t).

Lemma quad_el g y0 la n i : (i < n)%nat ->
  el (odeint1 (fun _ => g) y0 (map ln (logspace la 0.0 n))) i = y0 + Rsum i (qstep g la n).
Proof.
  intros Hi. assert (Hl : length (map ln (logspace la 0.0 n)) = n) by (rewrite map_length; apply length_logspace).
  rewrite odeint1_sum; [ | intros E; rewrite E in Hl; simpl in Hl; lia | lia ].
  f_equal. apply Rsum_ext. intros j Hj. rewrite !lnlogspace_el by lia. reflexivity.
Qed.
Lemma quad_length g y0 la n : length (odeint1 (fun _ => g) y0 (map ln (logspace la 0.0 n))) = n.
Proof.
  destruct n as [ | n]; [ reflexivity | ].
  assert (Hl : length (map ln (logspace la 0.0 (S n))) = S n) by (rewrite map_length; apply length_logspace).
  rewrite (proj1 (odeint1_spec (fun _ => g) y0 _ ltac:(intros E; rewrite E in Hl; discriminate Hl))). exact Hl.
Qed.
Lemma qstep_pos g la n j : la < 0 -> (2 <= n)%nat -> (forall x, 0 < g x) -> 0 < qstep g la n j.
Proof.
  intros Hla Hn Hg. unfold qstep. rewrite ln_anode_step. pose proof (ln_step_pos la n Hla Hn).
  set (s := ln (anode la n j)). set (t := ln (anode la n (j + 1))). pose proof (Hg s). pose proof (Hg t). pose proof (Hg ((s + t) / 2)).
  apply Rmult_lt_0_compat; lra.
Qed.
Lemma qstep_const k la n j : qstep (fun _ => k) la n j = k * (ln (anode la n (j + 1)) - ln (anode la n j)).
Proof. unfold qstep. field. Qed.
Lemma qstep_ext g h la n j : (forall x, g x = h x) -> qstep g la n j = qstep h la n j.
Proof. intros E. unfold qstep. now rewrite !E. Qed.

(** ** Distance table *)
Lemma chi_table_fst c la n : fst (chi_table c la n) = logspace la 0.0 n.
Proof. reflexivity. Qed.
Lemma chi_table_length c la n : length (fst (chi_table c la n)) = n /\ length (snd (chi_table c la n)) = n.
Proof.
  split; [ apply length_logspace | ]. unfold chi_table. simpl snd. rewrite map_length.
  apply (quad_length (fun x => dchioverda c (exp x) * exp x)).
Qed.
Definition chistep (c : cosmology) (la : R) (n : nat) : nat -> R := qstep (fun x => dchioverda c (exp x) * exp x) la n.
Lemma chi_table_el c la n i : (i < n)%nat ->
  el (snd (chi_table c la n)) i = Rsum (n - 1) (chistep c la n) - Rsum i (chistep c la n).
Proof.
  intros Hi. unfold chi_table. simpl snd.
  set (q := odeint1 (dchioverdlna c) 0.0 (map ln (logspace la 0.0 n))).
  assert (Hq : length q = n) by (apply (quad_length (fun x => dchioverda c (exp x) * exp x))).
  unfold el at 1. rewrite (nth_map_lt _ q i 0) by lia. fold (el q i). rewrite lastR_el, Hq by lia.
  unfold q, dchioverdlna. cbv zeta. rewrite !(quad_el (fun x => dchioverda c (exp x) * exp x)) by lia.
  unfold chistep. lra.
Qed.
Lemma chistep_pos c la n j : expanding c -> la < 0 -> (2 <= n)%nat -> 0 < chistep c la n j.
Proof.
  intros HE Hla Hn. apply qstep_pos; auto. intros x.
  apply Rmult_lt_0_compat; [ apply dchioverda_pos; [ assumption | ] | ]; apply exp_pos.
Qed.
Lemma Rsum_lt_mono f i j : (forall k, 0 < f k) -> (i < j)%nat -> Rsum i f < Rsum j f.
Proof.
  intros Hf Hij. induction j as [ | j IH]; [ lia | ]. change (Rsum (S j) f) with (Rsum j f + f j).
  pose proof (Hf j). destruct (Nat.eq_dec i j) as [-> | Hne]; [ lra | ]. specialize (IH ltac:(lia)). lra.
Qed.
Lemma chi_table_decr c la n : expanding c -> la < 0 -> (2 <= n)%nat -> decr (snd (chi_table c la n)).
Proof.
  intros HE Hla Hn i j. rewrite (proj2 (chi_table_length c la n)). intros Hij.
  rewrite !chi_table_el by lia. assert (Rsum i (chistep c la n) < Rsum j (chistep c la n)); [ | lra ].
  apply Rsum_lt_mono; [ intros k; now apply chistep_pos | lia ].
Qed.
Lemma chi_table_last c la n : (2 <= n)%nat -> el (snd (chi_table c la n)) (n - 1) = 0.
Proof. intros Hn. rewrite chi_table_el by lia. ring. Qed.

(** value of the distance function, as a function of the table *)
Definition chi_of (c : cosmology) (la : R) (n : nat) (q : R) : R :=
  clip_lo (interp1 q (fst (chi_table c la n)) (snd (chi_table c la n))) 0.0.

Lemma chi_of_nonneg c la n q : 0 <= chi_of c la n q.
Proof. unfold chi_of, clip_lo. eapply Rle_trans; [ | apply Rmax_r ]. lra. Qed.
Lemma chi_of_antitone c la n p q : expanding c -> la < 0 -> (3 <= n)%nat -> p <= q -> chi_of c la n q <= chi_of c la n p.
Proof.
  intros HE Hla Hn Hpq. unfold chi_of, clip_lo. apply Rle_max_compat_r.
  destruct (chi_table_length c la n) as [L1 L2].
  apply interp1_antitone; rewrite ?L1; auto; [ rewrite chi_table_fst; apply logspace_incr; auto; lia | ].
  intros k _ Hk. rewrite L2 in Hk. apply decr_le; [ apply chi_table_decr; auto; lia | rewrite L2; lia ].
Qed.
Lemma chi_of_node c la n i : expanding c -> la < 0 -> (3 <= n)%nat -> (1 <= i < n)%nat ->
  chi_of c la n (anode la n i) = el (snd (chi_table c la n)) i.
Proof.
  intros HE Hla Hn Hi. unfold chi_of. destruct (chi_table_length c la n) as [L1 L2].
  assert (HI : interp1 (anode la n i) (fst (chi_table c la n)) (snd (chi_table c la n)) = el (snd (chi_table c la n)) i).
  { rewrite <- (logspace_el la n i) by lia. rewrite chi_table_fst. apply interp1_node; rewrite ?length_logspace; auto; try lia.
    apply logspace_incr; auto; lia. }
  rewrite HI. unfold clip_lo. apply Rmax_left.
  assert (el (snd (chi_table c la n)) (n - 1) <= el (snd (chi_table c la n)) i).
  { apply decr_le; [ apply chi_table_decr; auto; lia | rewrite L2; lia ]. }
  rewrite chi_table_last in H by lia. lra.
Qed.
Lemma chi_of_1 c la n : expanding c -> la < 0 -> (3 <= n)%nat -> chi_of c la n 1 = 0.
Proof.
  intros HE Hla Hn. rewrite <- (anode_last la n) by lia. rewrite chi_of_node by (auto; lia). apply chi_table_last; lia.
Qed.
(** strictly decreasing up to today *)
Lemma chi_of_pos c la n q : expanding c -> la < 0 -> (3 <= n)%nat -> q < 1 -> 0 < chi_of c la n q.
Proof.
  intros HE Hla Hn Hq. unfold chi_of, clip_lo. eapply Rlt_le_trans; [ | apply Rmax_l ].
  destruct (chi_table_length c la n) as [L1 L2].
  assert (HI : incr (logspace la 0.0 n)) by (apply logspace_incr; auto; lia).
  assert (Hd : decr (snd (chi_table c la n))) by (apply chi_table_decr; auto; lia).
  set (p := Rmax q (anode la n (n - 2))).
  assert (Hp : p < 1).
  { apply Rmax_lub_lt; [ assumption | ]. rewrite <- (anode_last la n) by lia. apply anode_lt; auto; lia. }
  apply Rlt_le_trans with (interp1 p (fst (chi_table c la n)) (snd (chi_table c la n))).
  2: { apply interp1_antitone; rewrite ?L1; auto.
       - intros k _ Hk. rewrite L2 in Hk. apply decr_le; [ auto | rewrite L2; lia ].
       - apply Rmax_l. }
  rewrite chi_table_fst in *.
  assert (HN : el (logspace la 0.0 n) (n - 2) <= p) by (rewrite logspace_el by lia; apply Rmax_r).
  rewrite interp1_above; rewrite ?L1, ?L2; auto.
  unfold cell, line. replace (n - 2 + 1)%nat with (n - 1)%nat by lia.
  rewrite chi_table_last by lia. rewrite !logspace_el in * by lia. rewrite anode_last by lia.
  assert (0 < el (snd (chi_table c la n)) (n - 2)).
  { rewrite <- (chi_table_last c la n) by lia. apply Hd. rewrite L2. lia. }
  assert (anode la n (n - 2) < 1) by (rewrite <- (anode_last la n) by lia; apply anode_lt; auto; lia).
  set (x0 := anode la n (n - 2)) in *. set (y0 := el (snd (chi_table c la n)) (n - 2)) in *.
  replace (y0 + (0 - y0) / (1 - x0) * (p - x0)) with (y0 * ((1 - p) / (1 - x0))) by (field; lra).
  apply Rmult_lt_0_compat; [ assumption | apply Rdiv_lt_0_compat; lra ].
Qed.

(** a_of_chi at the table nodes, and near them *)
Lemma chi_inverse_node c la n i : expanding c -> la < 0 -> (4 <= n)%nat -> (1 <= i < n)%nat ->
  interp1 (chi_of c la n (anode la n i)) (snd (chi_table c la n)) (fst (chi_table c la n)) = anode la n i.
Proof.
  intros HE Hla Hn Hi. rewrite chi_of_node by (auto; lia). destruct (chi_table_length c la n) as [L1 L2].
  rewrite interp1_decr_node; rewrite ?L2; auto; try lia; [ | apply chi_table_decr; auto; lia ].
  rewrite chi_table_fst. apply logspace_el; lia.
Qed.
