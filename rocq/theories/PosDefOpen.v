(** * Positive definite symmetric matrices that move with a parameter stay positive definite nearby *)
From Verif Require Import Np NpLemmas Sparse SparseSpec Deriv DetProofs2.
Local Open Scope R_scope.

Lemma Rsum_sq_bound n (x : nat -> R) i j : (i < n)%nat -> (j < n)%nat -> Rabs (x i) * Rabs (x j) <= Rsum n (fun k => x k ^ 2).
Proof.
  assert (G : forall n k, (k < n)%nat -> x k ^ 2 <= Rsum n (fun k => x k ^ 2)).
  { clear. induction n as [ | n IH]; intros k Hk; [ lia | ]. cbn [Rsum].
    assert (0 <= Rsum n (fun k => x k ^ 2)) by (clear IH Hk; induction n as [ | n IH]; cbn [Rsum]; [ lra | pose proof (pow2_ge_0 (x n)); lra ]).
    pose proof (pow2_ge_0 (x n)). destruct (Nat.eq_dec k n) as [-> | ]; [ lra | ]. pose proof (IH k ltac:(lia)). lra. }
  intros Hi Hj. pose proof (G n i Hi). pose proof (G n j Hj). rewrite <- (pow2_abs (x i)) in *. rewrite <- (pow2_abs (x j)) in *.
  pose proof (pow2_ge_0 (Rabs (x i) - Rabs (x j))). lra.
Qed.
Lemma Rsum_c n c : Rsum n (fun _ => c) = INR n * c.
Proof. induction n as [ | n IH]; [ cbn [Rsum INR]; lra | ]. rewrite S_INR. cbn [Rsum]. rewrite IH. lra. Qed.
Lemma Rsum_pos n f : (forall i, (i < n)%nat -> 0 <= f i) -> 0 <= Rsum n f.
Proof. intros E. pose proof (Rsum_le n (fun _ => 0) f E). rewrite Rsum_c in H. lra. Qed.

Lemma quad_bound n m x e : (forall i j, (i < n)%nat -> (j < n)%nat -> Rabs (el2 m i j) <= e) -> quad n m x <= INR n * (INR n * e) * Rsum n (fun k => x k ^ 2).
Proof.
  intros HE. unfold quad. set (S := Rsum n (fun k => x k ^ 2)). assert (0 <= S) by (apply Rsum_pos; intros; apply pow2_ge_0).
  replace (INR n * (INR n * e) * S) with (Rsum n (fun _ => Rsum n (fun _ => e * S))) by (rewrite !Rsum_c; ring).
  apply Rsum_le. intros i Hi. apply Rsum_le. intros j Hj. pose proof (HE i j Hi Hj). pose proof (Rsum_sq_bound n x i j Hi Hj). fold S in H1.
  apply Rle_trans with (Rabs (x i * el2 m i j * x j)); [ apply Rle_abs | ]. rewrite !Rabs_mult.
  replace (Rabs (x i) * Rabs (el2 m i j) * Rabs (x j)) with (Rabs (el2 m i j) * (Rabs (x i) * Rabs (x j))) by ring.
  pose proof (Rabs_pos (el2 m i j)). apply Rmult_le_compat; try assumption; [ apply Rmult_le_pos; apply Rabs_pos ].
Qed.
Lemma max_entry n (m : list (list R)) : exists e, 0 < e /\ forall i j, (i < n)%nat -> (j < n)%nat -> Rabs (el2 m i j) <= e.
Proof.
  exists (1 + Rsum n (fun i => Rsum n (fun j => Rabs (el2 m i j)))).
  assert (N : 0 <= Rsum n (fun i => Rsum n (fun j => Rabs (el2 m i j)))) by (apply Rsum_pos; intros; apply Rsum_pos; intros; apply Rabs_pos).
  split; [ lra | ]. intros i j Hi Hj.
  assert (G : forall n (f : nat -> R) i, (forall i, 0 <= f i) -> (i < n)%nat -> f i <= Rsum n f).
  { clear. induction n as [ | n IH]; intros f i P Hi; [ lia | ]. cbn [Rsum]. assert (Q := Rsum_pos n f (fun i _ => P i)). pose proof (P n). destruct (Nat.eq_dec i n) as [-> | ]; [ lra | ]. pose proof (IH f i P ltac:(lia)). lra. }
  assert (Q1 := G n (fun i => Rsum n (fun j => Rabs (el2 m i j))) i (fun i => Rsum_pos n _ (fun j _ => Rabs_pos _)) Hi).
  assert (Q2 := G n (fun j => Rabs (el2 m i j)) j (fun j => Rabs_pos _) Hj). cbv beta in *. lra.
Qed.
Lemma coercive n C : symmetric n C -> pos_def n C -> exists b, 0 < b /\ forall x, b * Rsum n (fun k => x k ^ 2) <= quad n C x.
Proof.
  intros SY PD. destruct (pos_def_invertible PD) as [P HI]. destruct HI as [WP [HR HL]].
  destruct (max_entry n P) as (e & He & HE). set (M := INR n * (INR n * e) + 1). assert (0 < M).
  { unfold M. pose proof (pos_INR n). assert (0 <= INR n * e) by (apply Rmult_le_pos; lra). assert (0 <= INR n * (INR n * e)) by (apply Rmult_le_pos; lra). lra. }
  exists (/ M). split; [ now apply Rinv_0_lt_compat | ]. intros x. set (S := Rsum n (fun k => x k ^ 2)).
  set (y := fun k => Rsum n (fun l => el2 P k l * x l)).
  assert (EY : forall k, (k < n)%nat -> Rsum n (fun l => el2 C k l * y l) = x k).
  { intros k Hk. unfold y. rewrite (Rsum_ext n _ (fun l => Rsum n (fun q => el2 C k l * el2 P l q * x q))) by (intros l _; rewrite <- Rsum_scal; apply Rsum_ext; intros; ring).
    rewrite Rsum_swap. rewrite (Rsum_ext n _ (fun q => if Nat.eqb q k then x q else 0)).
    - now apply Rsum_delta.
    - intros q Hq. transitivity (Rsum n (fun l => el2 C k l * el2 P l q) * x q); [ rewrite Rmult_comm, <- Rsum_scal; apply Rsum_ext; intros; ring | ].
      rewrite HR by assumption. rewrite (Nat.eqb_sym k q). destruct (Nat.eqb q k); ring. }
  assert (Q : Rsum n (fun k => x k * y k) <= M * S).
  { assert (QB := quad_bound n P x e HE). fold S in QB. unfold quad in QB. assert (0 <= S) by (apply Rsum_pos; intros; apply pow2_ge_0).
    rewrite (Rsum_ext n (fun k => x k * y k) (fun i => Rsum n (fun j => x i * el2 P i j * x j))) by (intros i _; unfold y; rewrite <- Rsum_scal; apply Rsum_ext; intros; ring). unfold M. nra. }
  set (z := fun k => x k - / M * y k).
  assert (Z : 0 <= quad n C z).
  { destruct (Rle_dec 0 (quad n C z)) as [ | NZ]; [ assumption | ]. exfalso.
    assert (AZ : forall i, (i < n)%nat -> z i = 0).
    { intros i Hi. destruct (Req_dec (z i) 0) as [ | NE]; [ assumption | ]. exfalso. apply NZ. left. apply PD. now exists i. }
    apply NZ. right. unfold quad. symmetry. transitivity (Rsum n (fun _ => 0)); [ | rewrite Rsum_c; ring ]. apply Rsum_ext. intros i Hi.
    transitivity (Rsum n (fun _ => 0)); [ | rewrite Rsum_c; ring ]. apply Rsum_ext. intros j Hj. rewrite (AZ i Hi). ring. }
  assert (E : quad n C z = quad n C x - 2 * / M * S + / M * / M * Rsum n (fun k => x k * y k)).
  { assert (E1 : forall k, (k < n)%nat -> Rsum n (fun l => el2 C k l * z l) = Rsum n (fun l => el2 C k l * x l) - / M * x k).
    { intros k Hk. transitivity (Rsum n (fun l => el2 C k l * x l) - / M * Rsum n (fun l => el2 C k l * y l)); [ | now rewrite EY ].
      rewrite <- Rsum_scal, <- Rsum_minus. apply Rsum_ext. intros l _. unfold z. ring. }
    assert (E2 : forall u, quad n C u = Rsum n (fun i => u i * Rsum n (fun j => el2 C i j * u j))) by (intros u; unfold quad; apply Rsum_ext; intros i _; rewrite <- Rsum_scal; apply Rsum_ext; intros; ring).
    assert (E3 : Rsum n (fun i => y i * Rsum n (fun j => el2 C i j * x j)) = S).
    { transitivity (Rsum n (fun j => x j * Rsum n (fun i => el2 C j i * y i))).
      - rewrite (Rsum_ext n _ (fun i => Rsum n (fun j => y i * el2 C i j * x j))) by (intros i _; rewrite <- Rsum_scal; apply Rsum_ext; intros; ring). rewrite Rsum_swap.
        apply Rsum_ext. intros j Hj. rewrite <- Rsum_scal. apply Rsum_ext. intros i Hi. rewrite (SY i j) by assumption. ring.
      - unfold S. apply Rsum_ext. intros j Hj. rewrite EY by assumption. ring. }
    rewrite (E2 z). rewrite (Rsum_ext n _ (fun i => z i * (Rsum n (fun l => el2 C i l * x l) - / M * x i))) by (intros i Hi; now rewrite E1).
    rewrite (Rsum_ext n _ (fun i => x i * Rsum n (fun l => el2 C i l * x l) + (- / M * (y i * Rsum n (fun l => el2 C i l * x l)) + (- / M * x i ^ 2 + / M * / M * (x i * y i))))) by (intros i _; unfold z; ring).
    rewrite !Rsum_plus, !Rsum_scal, E3, <- E2. fold S. ring. }
  rewrite E in Z. assert (0 < / M) by (now apply Rinv_0_lt_compat). assert (/ M * Rsum n (fun k => x k * y k) <= S).
  { apply (Rmult_le_reg_l M); [ assumption | ]. rewrite <- Rmult_assoc, Rinv_r, Rmult_1_l by lra. exact Q. }
  assert (/ M * (/ M * Rsum n (fun k => x k * y k)) <= / M * S) by (apply Rmult_le_compat_l; lra). lra.
Qed.
Lemma near_below n t (P : nat -> R -> Prop) : (forall i, (i < n)%nat -> near t (P i)) -> near t (fun s => forall i, (i < n)%nat -> P i s).
Proof.
  induction n as [ | n IH]; intros E; [ apply near_all; intros; lia | ].
  apply (near_imp (P := fun s => (forall i, (i < n)%nat -> P i s) /\ P n s)); [ | apply near_and; [ apply IH; intros; apply E; lia | apply E; lia ] ].
  intros s [K1 K2] i Hi. destruct (Nat.eq_dec i n) as [-> | ]; [ exact K2 | apply K1; lia ].
Qed.
Lemma pos_def_open n (V : R -> list (list R)) V' t : symmetric n (V t) -> pos_def n (V t) ->
  (forall i j, (i < n)%nat -> (j < n)%nat -> dv (fun s => el2 (V s) i j) t (el2 V' i j)) -> near t (fun s => pos_def n (V s)).
Proof.
  intros SY PD DV. destruct (coercive n (V t) SY PD) as (b & Hb & HB). set (e := b / (2 * (INR n * INR n + 1))).
  assert (NN : 0 <= INR n * INR n) by (pose proof (pos_INR n); apply Rmult_le_pos; lra).
  assert (He : 0 < e) by (apply Rdiv_lt_0_compat; lra).
  assert (NE : near t (fun s => forall i, (i < n)%nat -> forall j, (j < n)%nat -> Rabs (el2 (V s) i j - el2 (V t) i j) < e)).
  { apply near_below. intros i Hi. apply (near_below n t (fun j s => Rabs (el2 (V s) i j - el2 (V t) i j) < e)). intros j Hj. exact (dv_small (DV i j Hi Hj) He). }
  apply (near_imp (P := fun s => forall i, (i < n)%nat -> forall j, (j < n)%nat -> Rabs (el2 (V s) i j - el2 (V t) i j) < e)); [ | exact NE ].
  intros s HS x NZ. set (Df := tab n (fun i => tab n (fun j => el2 (V t) i j - el2 (V s) i j))).
  assert (ED : forall i j, (i < n)%nat -> (j < n)%nat -> el2 Df i j = el2 (V t) i j - el2 (V s) i j) by (intros; unfold Df; now rewrite el2_tab).
  assert (QB := quad_bound n Df x e). assert (QB' : quad n Df x <= INR n * (INR n * e) * Rsum n (fun k => x k ^ 2)).
  { apply QB. intros i j Hi Hj. rewrite ED by assumption. rewrite <- Rabs_Ropp. replace (- (el2 (V t) i j - el2 (V s) i j)) with (el2 (V s) i j - el2 (V t) i j) by ring. left. now apply HS. }
  assert (EQ : quad n (V s) x = quad n (V t) x - quad n Df x).
  { unfold quad. unfold Rminus. replace (- Rsum n (fun i => Rsum n (fun j => x i * el2 Df i j * x j))) with (-1 * Rsum n (fun i => Rsum n (fun j => x i * el2 Df i j * x j))) by ring.
    rewrite <- Rsum_scal, <- Rsum_plus. apply Rsum_ext. intros i Hi. rewrite <- Rsum_scal, <- Rsum_plus. apply Rsum_ext. intros j Hj. rewrite ED by assumption. ring. }
  assert (SP : 0 < Rsum n (fun k => x k ^ 2)).
  { destruct NZ as (i & Hi & NZ). pose proof (Rsum_sq_bound n x i i Hi Hi). assert (0 < Rabs (x i)) by (now apply Rabs_pos_lt). nra. }
  pose proof (HB x). set (S := Rsum n (fun k => x k ^ 2)) in *.
  assert (INR n * (INR n * e) * S <= b / 2 * S).
  { apply Rmult_le_compat_r; [ lra | ]. unfold e. apply (Rmult_le_reg_r (2 * (INR n * INR n + 1))); [ lra | ].
    replace (INR n * (INR n * (b / (2 * (INR n * INR n + 1)))) * (2 * (INR n * INR n + 1))) with (INR n * INR n * b) by (field; lra). nra. }
  rewrite EQ. assert (0 < b * S) by (apply Rmult_lt_0_compat; lra). lra.
Qed.
