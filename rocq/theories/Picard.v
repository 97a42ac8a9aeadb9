(** * Existence and uniqueness for y'' = p y' + r y with bounded continuous coefficients *)
From Coquelicot Require Import Coquelicot.
From Verif Require Import Np.

Section Picard.
Variables (p r : R -> R) (K a0 : R) (y0 : bool -> R).
Hypothesis HK : 0 <= K.
Hypothesis Cp : forall t, continuous p t.
Hypothesis Cr : forall t, continuous r t.
Hypothesis Bp : forall t, Rabs (p t) <= K.
Hypothesis Br : forall t, Rabs (r t) <= K.
Let L := 1 + K.
Let B (t : R) : R := exp (2 * L * Rabs (t - a0)).

(** true: y, false: y' *)
Definition rhs (y : bool -> R -> R) (b : bool) (t : R) : R := if b then y false t else p t * y false t + r t * y true t.
Definition cont (y : bool -> R -> R) : Prop := forall b t, continuous (y b) t.
Lemma rhs_cont y : cont y -> cont (rhs y).
Proof.
  intros H [ | ] t; unfold rhs; [ apply H | ]. apply (continuous_plus (V := R_NormedModule) (fun t => p t * y false t) (fun t => r t * y true t));
    apply (continuous_mult (K := R_AbsRing)); auto; apply H.
Qed.
Lemma ex_int (h : R -> R) (x z : R) : (forall t, continuous h t) -> ex_RInt h x z.
Proof. intros H. apply (ex_RInt_continuous (V := R_CompleteNormedModule)). auto. Qed.
Definition step (y : bool -> R -> R) (b : bool) (t : R) : R := y0 b + RInt (rhs y b) a0 t.
Lemma step_derive y b t : cont y -> is_derive (step y b) t (rhs y b t).
Proof.
  intros H. unfold step. evar_last.
  - apply (is_derive_plus (fun _ => y0 b) (fun t => RInt (rhs y b) a0 t)); [ apply is_derive_const | ].
    apply (is_derive_RInt (V := R_CompleteNormedModule) (rhs y b) _ a0 t); [ | now apply rhs_cont ].
    exists (mkposreal 1 Rlt_0_1). intros z _. apply (RInt_correct (V := R_CompleteNormedModule)). apply ex_int. now apply rhs_cont.
  - unfold plus, zero; simpl. ring.
Qed.
Lemma step_cont y : cont y -> cont (step y).
Proof. intros H b t. apply (ex_derive_continuous (V := R_NormedModule)). eexists. now apply step_derive. Qed.
Fixpoint iter (n : nat) : bool -> R -> R := match n with O => fun b _ => y0 b | S n => step (iter n) end.
Lemma iter_cont n : cont (iter n).
Proof. induction n; [ intros b t; apply continuous_const | now apply step_cont ]. Qed.

Definition gap (y z : bool -> R -> R) (t : R) : R := Rabs (y true t - z true t) + Rabs (y false t - z false t).
Lemma gap_b y z b t : Rabs (y b t - z b t) <= gap y z t.
Proof. unfold gap. pose proof (Rabs_pos (y true t - z true t)). pose proof (Rabs_pos (y false t - z false t)). destruct b; lra. Qed.
Lemma Lpos : 1 <= L. Proof. unfold L. lra. Qed.
Lemma B_pos t : 0 < B t. Proof. apply exp_pos. Qed.

(** integral of an exponentially bounded function *)
Lemma int_bound (h : R -> R) (C t : R) : (forall s, continuous h s) -> 0 <= C -> (forall s, Rabs (h s) <= C * B s) -> Rabs (RInt h a0 t) <= C / (2 * L) * B t.
Proof.
  intros Hc HC Hb. pose proof Lpos as PL.
  assert (G : forall sg, (sg = 1 \/ sg = -1) -> 0 <= sg * (t - a0) -> Rabs (RInt h a0 t) <= C / (2 * L) * B t).
  { intros sg Hsg Hs.
    set (W := fun s => sg * (C / (2 * L)) * exp (2 * L * (sg * (s - a0)))).
    assert (DW : forall s, is_derive W s (C * exp (2 * L * (sg * (s - a0))))).
    { intros s. unfold W. auto_derive; [ exact I | ]. unfold Rminus. destruct Hsg as [-> | ->]; field; lra. }
    assert (IW : is_RInt (fun s => C * exp (2 * L * (sg * (s - a0)))) a0 t (W t - W a0)).
    { apply (is_RInt_derive (V := R_CompleteNormedModule) W); [ intros; apply DW | ]. intros s _. apply (ex_derive_continuous (V := R_NormedModule)). auto_derive. exact I. }
    assert (EB : forall s, 0 <= sg * (s - a0) -> exp (2 * L * (sg * (s - a0))) = B s).
    { intros s H. unfold B. f_equal. f_equal. destruct Hsg as [-> | ->]; [ rewrite Rabs_pos_eq by lra | rewrite Rabs_left1 by lra ]; ring. }
    assert (WD : sg * (W t - W a0) <= C / (2 * L) * B t).
    { rewrite <- (EB t Hs). unfold W. replace (a0 - a0) with 0 by ring. replace (2 * L * (sg * 0)) with 0 by ring. rewrite exp_0.
      assert (0 <= C / (2 * L)) by (apply Rmult_le_pos; [ lra | left; apply Rinv_0_lt_compat; lra ]). destruct Hsg as [-> | ->]; lra. }
    apply Rle_trans with (2 := WD). destruct Hsg as [-> | ->].
    - rewrite Rmult_1_l. rewrite <- (is_RInt_unique (V := R_CompleteNormedModule) _ _ _ _ IW).
      apply Rle_trans with (RInt (fun s => Rabs (h s)) a0 t); [ apply abs_RInt_le; [ lra | now apply ex_int ] | ].
      apply RInt_le; [ lra | apply ex_int; intros s; apply (continuous_comp h Rabs); [ apply Hc | apply continuous_Rabs ] | eexists; exact IW | ].
      intros s Hs'. rewrite EB by lra. apply Hb.
    - assert (IW' : is_RInt (fun s => C * exp (2 * L * (-1 * (s - a0)))) t a0 (-1 * (W t - W a0))).
      { replace (-1 * (W t - W a0)) with (opp (W t - W a0)) by (unfold opp; simpl; ring). apply (is_RInt_swap (V := R_NormedModule)). exact IW. }
      rewrite <- (is_RInt_unique (V := R_CompleteNormedModule) _ _ _ _ IW'). rewrite <- (opp_RInt_swap (V := R_CompleteNormedModule) h t a0) by (now apply ex_int). unfold opp; simpl. rewrite Rabs_Ropp.
      apply Rle_trans with (RInt (fun s => Rabs (h s)) t a0); [ apply abs_RInt_le; [ lra | now apply ex_int ] | ].
      apply RInt_le; [ lra | apply ex_int; intros s; apply (continuous_comp h Rabs); [ apply Hc | apply continuous_Rabs ] | eexists; exact IW' | ].
      intros s Hs'. rewrite EB by lra. apply Hb. }
  destruct (Rle_lt_dec a0 t); [ apply (G 1); [ now left | lra ] | apply (G (-1)); [ now right | lra ]].
Qed.

Lemma step_gap y z C t : cont y -> cont z -> 0 <= C -> (forall s, gap y z s <= C * B s) -> gap (step y) (step z) t <= C / 2 * B t.
Proof.
  intros Hy Hz HC H. pose proof Lpos as PL. pose proof (rhs_cont y Hy) as Ry. pose proof (rhs_cont z Hz) as Rz.
  assert (E : forall b, step y b t - step z b t = RInt (fun s => rhs y b s - rhs z b s) a0 t).
  { intros b. unfold step. rewrite (RInt_minus (V := R_CompleteNormedModule) (rhs y b) (rhs z b)) by (apply ex_int; first [ apply Ry | apply Rz ]). unfold minus, plus, opp; simpl. ring. }
  unfold gap. rewrite !E.
  assert (CM : forall b s, continuous (fun s => rhs y b s - rhs z b s) s) by (intros b s; apply (continuous_minus (V := R_NormedModule)); [ apply Ry | apply Rz ]).
  assert (I1 : Rabs (RInt (fun s => rhs y true s - rhs z true s) a0 t) <= C / (2 * L) * B t).
  { apply int_bound; auto. intros s. unfold rhs. apply Rle_trans with (2 := H s). apply (gap_b y z false). }
  assert (I2 : Rabs (RInt (fun s => rhs y false s - rhs z false s) a0 t) <= (K * C) / (2 * L) * B t).
  { apply int_bound; auto; [ now apply Rmult_le_pos | ]. intros s. unfold rhs.
    replace (p s * y false s + r s * y true s - (p s * z false s + r s * z true s)) with (p s * (y false s - z false s) + r s * (y true s - z true s)) by ring.
    apply Rle_trans with (1 := Rabs_triang _ _). rewrite !Rabs_mult. specialize (H s). unfold gap in H. pose proof (Bp s). pose proof (Br s).
    pose proof (Rabs_pos (y true s - z true s)). pose proof (Rabs_pos (y false s - z false s)). pose proof (Rabs_pos (p s)). pose proof (Rabs_pos (r s)).
    apply Rle_trans with (K * (Rabs (y true s - z true s) + Rabs (y false s - z false s))); [ nra | ]. rewrite Rmult_assoc. now apply Rmult_le_compat_l. }
  replace (C / 2 * B t) with (C / (2 * L) * B t + K * C / (2 * L) * B t) by (unfold L in *; field; lra). lra.
Qed.
Let M := Rabs (y0 true) + Rabs (y0 false).
Lemma M_pos : 0 <= M. Proof. unfold M. pose proof (Rabs_pos (y0 true)). pose proof (Rabs_pos (y0 false)). lra. Qed.
Lemma B_ge1 t : 1 <= B t.
Proof. unfold B. pose proof Lpos. pose proof (Rabs_pos (t - a0)). pose proof (exp_ineq1_le (2 * L * Rabs (t - a0))). assert (0 <= 2 * L * Rabs (t - a0)) by (apply Rmult_le_pos; lra). lra. Qed.
Lemma pow2_pos n : 0 < (/ 2) ^ n. Proof. apply pow_lt. lra. Qed.
Lemma iter_gap n t : gap (iter (S n)) (iter n) t <= M * (/ 2) ^ n * B t.
Proof.
  pose proof M_pos as PM. revert t. induction n as [ | n IH ]; intros t.
  - pose proof Lpos as PL. unfold gap. simpl iter.
    assert (E : forall b, step (fun b _ => y0 b) b t - y0 b = RInt (rhs (fun b _ => y0 b) b) a0 t) by (intros b; unfold step; ring). rewrite !E.
    assert (C0 : cont (fun b _ => y0 b)) by (intros b s; apply continuous_const).
    assert (I1 : Rabs (RInt (rhs (fun b _ => y0 b) true) a0 t) <= Rabs (y0 false) / (2 * L) * B t).
    { apply int_bound; [ apply rhs_cont; exact C0 | apply Rabs_pos | ]. intros s. unfold rhs. pose proof (B_ge1 s). pose proof (Rabs_pos (y0 false)). nra. }
    assert (I2 : Rabs (RInt (rhs (fun b _ => y0 b) false) a0 t) <= (K * M) / (2 * L) * B t).
    { apply int_bound; [ apply rhs_cont; exact C0 | apply Rmult_le_pos; lra | ]. intros s. unfold rhs.
      apply Rle_trans with (1 := Rabs_triang _ _). rewrite !Rabs_mult. pose proof (Bp s). pose proof (Br s). unfold M in *. pose proof (Rabs_pos (y0 true)). pose proof (Rabs_pos (y0 false)).
      apply Rle_trans with (K * (Rabs (y0 true) + Rabs (y0 false))); [ nra | ]. pose proof (B_ge1 s). assert (0 <= K * (Rabs (y0 true) + Rabs (y0 false))) by (apply Rmult_le_pos; lra). nra. }
    simpl pow. rewrite Rmult_1_r. pose proof (B_pos t). pose proof (Rabs_pos (y0 true)).
    assert (F1 : Rabs (y0 false) / (2 * L) <= M / (2 * L)) by (apply Rmult_le_compat_r; [ left; apply Rinv_0_lt_compat; lra | unfold M; lra ]).
    assert (F2 : M / (2 * L) + K * M / (2 * L) = M / 2) by (unfold L in *; field; lra).
    assert (Rabs (y0 false) / (2 * L) * B t <= M / (2 * L) * B t) by (apply Rmult_le_compat_r; lra).
    assert (M / (2 * L) * B t + K * M / (2 * L) * B t = M / 2 * B t) by (rewrite <- F2; ring). assert (0 <= M * B t) by (apply Rmult_le_pos; lra). lra.
  - change (iter (S (S n))) with (step (iter (S n))). change (iter (S n)) with (step (iter n)) at 2. replace (M * (/ 2) ^ S n * B t) with (M * (/ 2) ^ n / 2 * B t) by (simpl; field).
    apply step_gap; [ apply iter_cont | apply iter_cont | apply Rmult_le_pos; [ lra | left; apply pow2_pos ] | exact IH ].
Qed.
Lemma iter_far n k b t : Rabs (iter (n + k) b t - iter n b t) <= 2 * M * (/ 2) ^ n * B t - 2 * M * (/ 2) ^ (n + k) * B t.
Proof.
  induction k as [ | k IH ]; [ rewrite Nat.add_0_r, !Rminus_eq_0, Rabs_R0; lra | ].
  replace (iter (n + S k) b t - iter n b t) with ((iter (S (n + k)) b t - iter (n + k) b t) + (iter (n + k) b t - iter n b t)) by (rewrite Nat.add_succ_r; ring).
  apply Rle_trans with (1 := Rabs_triang _ _). pose proof (gap_b (iter (S (n + k))) (iter (n + k)) b t). pose proof (iter_gap (n + k) t). rewrite Nat.add_succ_r. simpl pow.
  replace (2 * M * (/ 2 * (/ 2) ^ (n + k)) * B t) with (M * (/ 2) ^ (n + k) * B t) by field. lra.
Qed.
Lemma iter_far' n m b t : (n <= m)%nat -> Rabs (iter m b t - iter n b t) <= 2 * M * (/ 2) ^ n * B t.
Proof.
  intros H. replace m with (n + (m - n))%nat by lia. pose proof (iter_far n (m - n) b t). pose proof M_pos. pose proof (pow2_pos (n + (m - n))). pose proof (B_pos t).
  assert (0 <= 2 * M * (/ 2) ^ (n + (m - n)) * B t) by (repeat apply Rmult_le_pos; lra). lra.
Qed.
Lemma half_small e : 0 < e -> exists N, forall n, (N <= n)%nat -> (/ 2) ^ n < e.
Proof.
  intros He. destruct (pow_lt_1_zero (/ 2) ltac:(rewrite Rabs_pos_eq; lra) e He) as (N & HN). exists N. intros n Hn. specialize (HN n Hn). rewrite Rabs_pos_eq in HN by (left; apply pow2_pos). exact HN.
Qed.
Lemma half_scaled C e : 0 <= C -> 0 < e -> exists N, forall n, (N <= n)%nat -> C * (/ 2) ^ n < e.
Proof.
  intros HC He. destruct (half_small (e / (C + 1)) ltac:(apply Rdiv_lt_0_compat; lra)) as (N & HN). exists N. intros n Hn. specialize (HN n Hn). pose proof (pow2_pos n).
  apply Rle_lt_trans with ((C + 1) * (/ 2) ^ n); [ nra | ]. apply Rlt_le_trans with ((C + 1) * (e / (C + 1))); [ apply Rmult_lt_compat_l; lra | ]. right. field. lra.
Qed.
Definition lim (b : bool) (t : R) : R := real (Lim_seq (fun n => iter n b t)).
Lemma iter_lim b t : is_lim_seq (fun n => iter n b t) (lim b t).
Proof.
  unfold lim. apply Lim_seq_correct'. apply ex_lim_seq_cauchy_corr. intros [e He]. simpl. pose proof M_pos. pose proof (B_pos t).
  destruct (half_scaled (4 * M * B t) e ltac:(repeat apply Rmult_le_pos; lra) He) as (N & HN). exists N. intros n m Hn Hm.
  pose proof (iter_far' N n b t Hn) as H1. pose proof (iter_far' N m b t Hm) as H2. specialize (HN N (le_n _)).
  replace (iter n b t - iter m b t) with ((iter n b t - iter N b t) + - (iter m b t - iter N b t)) by ring. apply Rle_lt_trans with (1 := Rabs_triang _ _). rewrite Rabs_Ropp. lra.
Qed.
Lemma lim_far n b t : Rabs (lim b t - iter n b t) <= 2 * M * (/ 2) ^ n * B t.
Proof.
  apply Rabs_le. pose proof (iter_lim b t) as H.
  assert (D : is_lim_seq (fun m => iter (m + n) b t - iter n b t) (lim b t - iter n b t)).
  { apply is_lim_seq_minus'; [ now apply (is_lim_seq_incr_n (fun m => iter m b t) n) | apply is_lim_seq_const ]. }
  assert (FB : forall m, - (2 * M * (/ 2) ^ n * B t) <= iter (m + n) b t - iter n b t <= 2 * M * (/ 2) ^ n * B t).
  { intros m. apply Rabs_le_between. apply iter_far'. lia. }
  split; [ apply (is_lim_seq_le (fun _ => - (2 * M * (/ 2) ^ n * B t)) (fun m => iter (m + n) b t - iter n b t) (Finite _) (Finite _)); [ intros m; apply FB | apply is_lim_seq_const | exact D ]
         | apply (is_lim_seq_le (fun m => iter (m + n) b t - iter n b t) (fun _ => 2 * M * (/ 2) ^ n * B t) (Finite _) (Finite _)); [ intros m; apply FB | exact D | apply is_lim_seq_const ] ].
Qed.
Lemma lim_cont : cont lim.
Proof.
  intros b t. pose proof Lpos as PL. pose proof M_pos as PM. apply continuity_pt_filterlim.
  assert (BB : forall s, Rabs (s - t) < 1 -> B s <= exp (2 * L * (Rabs (t - a0) + 1))).
  { intros s Hs. unfold B. assert (Rabs (s - a0) <= Rabs (t - a0) + 1) by (replace (s - a0) with ((s - t) + (t - a0)) by ring; apply Rle_trans with (1 := Rabs_triang _ _); lra).
    assert (2 * L * Rabs (s - a0) <= 2 * L * (Rabs (t - a0) + 1)) by (apply Rmult_le_compat_l; lra).
    destruct (Req_dec (2 * L * Rabs (s - a0)) (2 * L * (Rabs (t - a0) + 1))) as [-> | N]; [ lra | left; apply exp_increasing; lra ]. }
  set (BT := exp (2 * L * (Rabs (t - a0) + 1))) in *. assert (PB : 0 < BT) by apply exp_pos.
  intros e He. destruct (half_scaled (2 * M * BT) (e / 3) ltac:(repeat apply Rmult_le_pos; lra) ltac:(lra)) as (n & Hn). specialize (Hn n (le_n _)).
  pose proof (iter_cont n b t) as Cn. apply continuity_pt_filterlim in Cn. destruct (Cn (e / 3) ltac:(lra)) as (d & Hd & HC).
  exists (Rmin d 1). split; [ apply Rmin_pos; lra | ]. intros s [HD Hs]. unfold dist in *. simpl in *. unfold R_dist in *.
  pose proof (Rmin_l d 1). pose proof (Rmin_r d 1).
  assert (A1 : Rabs (lim b s - iter n b s) < e / 3).
  { apply Rle_lt_trans with (1 := lim_far n b s). apply Rle_lt_trans with (2 := Hn). pose proof (BB s ltac:(lra)). pose proof (pow2_pos n). replace (2 * M * BT * (/ 2) ^ n) with (2 * M * (/ 2) ^ n * BT) by ring.
    apply Rmult_le_compat_l; [ repeat apply Rmult_le_pos; lra | assumption ]. }
  assert (A2 : Rabs (lim b t - iter n b t) < e / 3).
  { apply Rle_lt_trans with (1 := lim_far n b t). apply Rle_lt_trans with (2 := Hn). pose proof (BB t ltac:(rewrite Rminus_eq_0, Rabs_R0; lra)). pose proof (pow2_pos n). replace (2 * M * BT * (/ 2) ^ n) with (2 * M * (/ 2) ^ n * BT) by ring.
    apply Rmult_le_compat_l; [ repeat apply Rmult_le_pos; lra | assumption ]. }
  assert (A3 : Rabs (iter n b s - iter n b t) < e / 3) by (apply HC; split; [ exact HD | lra ]).
  apply Rabs_def2 in A1. apply Rabs_def2 in A2. apply Rabs_def2 in A3. apply Rabs_def1; lra.
Qed.
Lemma gap_lim n t : gap lim (iter n) t <= 4 * M * (/ 2) ^ n * B t.
Proof. unfold gap. pose proof (lim_far n true t). pose proof (lim_far n false t). lra. Qed.
Lemma lim_fixed b t : lim b t = step lim b t.
Proof.
  pose proof M_pos as PM. pose proof (B_pos t) as PB. apply Rminus_diag_uniq. apply Rabs_eq_0. apply Rle_antisym; [ | apply Rabs_pos ]. apply Rnot_lt_le. intros H.
  destruct (half_scaled (4 * M * B t) _ ltac:(repeat apply Rmult_le_pos; lra) H) as (n & Hn). specialize (Hn n (le_n _)).
  assert (A : Rabs (step lim b t - iter (S n) b t) <= 4 * M * (/ 2) ^ n / 2 * B t).
  { change (iter (S n)) with (step (iter n)). apply Rle_trans with (1 := gap_b (step lim) (step (iter n)) b t). apply step_gap; [ apply lim_cont | apply iter_cont | pose proof (pow2_pos n); repeat apply Rmult_le_pos; lra | intros s; apply gap_lim ]. }
  pose proof (lim_far (S n) b t) as A'. simpl pow in A'.
  assert (X : Rabs (lim b t - step lim b t) <= 2 * M * (/ 2 * (/ 2) ^ n) * B t + 4 * M * (/ 2) ^ n / 2 * B t).
  { replace (lim b t - step lim b t) with ((lim b t - iter (S n) b t) + - (step lim b t - iter (S n) b t)) by ring. apply Rle_trans with (1 := Rabs_triang _ _). rewrite Rabs_Ropp. lra. }
  pose proof (pow2_pos n). assert (0 <= M * (/ 2) ^ n * B t) by (repeat apply Rmult_le_pos; lra). lra.
Qed.
Theorem linear_exists : exists u v : R -> R, u a0 = y0 true /\ v a0 = y0 false /\ forall t, is_derive u t (v t) /\ is_derive v t (p t * v t + r t * u t).
Proof.
  exists (lim true), (lim false). assert (I : forall b, lim b a0 = y0 b).
  { intros b. rewrite lim_fixed. unfold step. replace (RInt (rhs lim b) a0 a0) with 0 by (symmetry; exact (RInt_point (V := R_CompleteNormedModule) a0 (rhs lim b))). ring. }
  split; [ apply I | ]. split; [ apply I | ]. intros t.
  assert (D : forall b, is_derive (lim b) t (rhs lim b t)). { intros b. apply (is_derive_ext (step lim b)); [ intros s; symmetry; apply lim_fixed | apply step_derive, lim_cont ]. }
  split; [ exact (D true) | exact (D false) ].
Qed.
End Picard.
