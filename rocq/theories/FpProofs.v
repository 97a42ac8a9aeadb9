(** * Rounded arithmetic: two calculi of errors *)
From Coq Require Import Reals Lra Lia Permutation.
From Verif Require Import Np NpLemmas Core Ode Integrate Background BgSpec Ad AdSpec Fp FpSpec.
Local Open Scope R_scope.

Lemma abs_between x y : Rabs x <= y -> - y <= x <= y.
Proof. unfold Rabs. destruct (Rcase_abs x); lra. Qed.

(** ** absolute errors relative to a magnitude: |x' - x| <= (g - 1) m with |x| <= m *)
Definition upto (g m x' x : R) : Prop := 1 <= g /\ Rabs x <= m /\ Rabs (x' - x) <= (g - 1) * m.
Lemma upto_m g m x' x : upto g m x' x -> 0 <= m.
Proof. intros (_ & B & _). pose proof (Rabs_pos x). lra. Qed.
Lemma upto_size g m x' x : upto g m x' x -> Rabs x' <= g * m.
Proof. intros (A & B & C). replace x' with ((x' - x) + x) by ring. eapply Rle_trans; [apply Rabs_triang|]. lra. Qed.
Lemma upto_refl x : upto 1 (Rabs x) x x.
Proof. unfold upto. rewrite Rminus_diag_eq by reflexivity. rewrite Rabs_R0. lra. Qed.
Lemma upto_grow g g' m m' x' x : g <= g' -> m <= m' -> upto g m x' x -> upto g' m' x' x.
Proof.
  intros G M H. pose proof (upto_m _ _ _ _ H). destruct H as (A & B & C). split; [lra|]. split; [lra|].
  eapply Rle_trans; [exact C|]. apply Rmult_le_compat; lra.
Qed.
Lemma upto_near u g m z z' x : 0 <= u -> near u z' z -> upto g m z x -> upto (g * (1 + u)) m z' x.
Proof.
  intros U Nr H. pose proof (upto_size _ _ _ _ H) as Sz. pose proof (upto_m _ _ _ _ H). destruct H as (A & B & C). unfold near in Nr.
  split; [nra|]. split; [exact B|].
  replace (z' - x) with ((z' - z) + (z - x)) by ring. eapply Rle_trans; [apply Rabs_triang|].
  assert (u * Rabs z <= u * (g * m)) by (apply Rmult_le_compat_l; assumption). nra.
Qed.
Lemma upto_add g m1 m2 x' x y' y : upto g m1 x' x -> upto g m2 y' y -> upto g (m1 + m2) (x' + y') (x + y).
Proof.
  intros (A & B & C) (_ & B' & C'). split; [exact A|]. split; [eapply Rle_trans; [apply Rabs_triang|lra]|].
  replace (x' + y' - (x + y)) with ((x' - x) + (y' - y)) by ring. eapply Rle_trans; [apply Rabs_triang|]. lra.
Qed.
Lemma upto_opp g m x' x : upto g m x' x -> upto g m (- x') (- x).
Proof. intros (A & B & C). split; [exact A|]. rewrite Rabs_Ropp. split; [exact B|]. replace (- x' - - x) with (- (x' - x)) by ring. rewrite Rabs_Ropp. exact C. Qed.
Lemma upto_sub g m1 m2 x' x y' y : upto g m1 x' x -> upto g m2 y' y -> upto g (m1 + m2) (x' - y') (x - y).
Proof. intros H1 H2. apply (upto_add g m1 m2 x' x (- y') (- y) H1 (upto_opp _ _ _ _ H2)). Qed.
Lemma upto_mul g1 g2 m1 m2 x' x y' y : upto g1 m1 x' x -> upto g2 m2 y' y -> upto (g1 * g2) (m1 * m2) (x' * y') (x * y).
Proof.
  intros H1 H2. pose proof (upto_m _ _ _ _ H1). pose proof (upto_m _ _ _ _ H2). pose proof (upto_size _ _ _ _ H2) as S2.
  destruct H1 as (A1 & B1 & C1), H2 as (A2 & B2 & C2).
  split; [nra|]. split; [rewrite Rabs_mult; apply Rmult_le_compat; auto using Rabs_pos|].
  replace (x' * y' - x * y) with ((x' - x) * y' + x * (y' - y)) by ring.
  eapply Rle_trans; [apply Rabs_triang|]. rewrite !Rabs_mult.
  assert (Rabs (x' - x) * Rabs y' <= ((g1 - 1) * m1) * (g2 * m2)) by (apply Rmult_le_compat; auto using Rabs_pos).
  assert (Rabs x * Rabs (y' - y) <= m1 * ((g2 - 1) * m2)) by (apply Rmult_le_compat; auto using Rabs_pos).
  nra.
Qed.

(** ** relative errors of non-negative numbers, in logarithms *)
Definition close (k x' x : R) : Prop := 0 <= k /\ 0 <= x /\ x * exp (- k) <= x' <= x * exp k.
Lemma exp_ge1 k : 0 <= k -> 1 <= exp k.
Proof. intros H. pose proof (exp_ineq1_le k). lra. Qed.
Lemma exp_le x y : x <= y -> exp x <= exp y.
Proof. intros [H|H]; [left; apply exp_increasing; exact H|subst; lra]. Qed.
Lemma close_0 k x' x : close k x' x -> 0 <= x'.
Proof. intros (_ & H & A & _). pose proof (exp_pos (- k)). nra. Qed.
Lemma close_pos k x' x : close k x' x -> 0 < x -> 0 < x'.
Proof. intros (_ & _ & A & _) H. pose proof (exp_pos (- k)). nra. Qed.
Lemma close_refl x : 0 <= x -> close 0 x x.
Proof. intros H. unfold close. rewrite Ropp_0, exp_0. lra. Qed.
Lemma close_grow k k' x' x : k <= k' -> close k x' x -> close k' x' x.
Proof.
  intros K (P & H & A & B). split; [lra|]. split; [exact H|]. pose proof (exp_le k k' K). pose proof (exp_le (- k') (- k) ltac:(lra)).
  split; [eapply Rle_trans; [|exact A]|eapply Rle_trans; [exact B|]]; apply Rmult_le_compat_l; assumption.
Qed.
Lemma close_trans k1 k2 x y z : close k1 x y -> close k2 y z -> close (k1 + k2) x z.
Proof.
  intros (P1 & H1 & A1 & B1) (P2 & H2 & A2 & B2). split; [lra|]. split; [exact H2|].
  rewrite Ropp_plus_distr, !exp_plus. pose proof (exp_pos (- k1)). pose proof (exp_pos k1). split; nra.
Qed.
Lemma close_rel k x' x : close k x' x -> Rabs (x' - x) <= (exp k - 1) * x.
Proof.
  intros (P & H & A & B). apply Rabs_le. split; [|lra].
  assert (2 <= exp k + exp (- k)).
  { pose proof (exp_pos k). assert (E : exp k * exp (- k) = 1) by (rewrite <- exp_plus, Rplus_opp_r; apply exp_0).
    pose proof (exp_pos (- k)). pose proof (Rle_0_sqr (exp k - 1)) as Q. unfold Rsqr in Q.
    apply Rmult_le_reg_l with (exp k); [assumption|]. rewrite Rmult_plus_distr_l, E. lra. }
  assert (x * 2 <= x * (exp k + exp (- k))) by (apply Rmult_le_compat_l; assumption). lra.
Qed.
Lemma loss_exp r : r < 1 -> exp (- loss r) = 1 - r.
Proof. intros H. unfold loss. rewrite Ropp_involutive. apply exp_ln. lra. Qed.
Lemma loss_0 r : 0 <= r < 1 -> 0 <= loss r.
Proof. intros [H0 H1]. unfold loss. destruct H0 as [H0|<-]; [|rewrite Rminus_0_r, ln_1; lra]. assert (ln (1 - r) < ln 1) by (apply ln_increasing; lra). rewrite ln_1 in *. lra. Qed.
Lemma loss_up r : 0 <= r < 1 -> 1 + r <= exp (loss r).
Proof.
  intros [H0 H1]. assert (E : exp (loss r) * (1 - r) = 1) by (rewrite <- (loss_exp r H1), <- exp_plus, Rplus_opp_r; apply exp_0).
  pose proof (exp_pos (loss r)). nra.
Qed.
Lemma close_of_rel r x' x : 0 <= r < 1 -> 0 <= x -> Rabs (x' - x) <= r * x -> close (loss r) x' x.
Proof.
  intros R0 H A. pose proof (loss_up r R0). apply abs_between in A. split; [apply loss_0; exact R0|]. split; [exact H|].
  rewrite loss_exp by lra. split; nra.
Qed.
Lemma close_near u k z z' x : 0 <= u < 1 -> near u z' z -> close k z x -> close (k + loss u) z' x.
Proof.
  intros U Nr C. rewrite Rplus_comm. eapply close_trans; [|exact C]. pose proof (close_0 _ _ _ C).
  apply close_of_rel; [exact U|assumption|]. unfold near in Nr. rewrite (Rabs_right z) in Nr by lra. exact Nr.
Qed.
Lemma close_mul k1 k2 x' x y' y : close k1 x' x -> close k2 y' y -> close (k1 + k2) (x' * y') (x * y).
Proof.
  intros H1 H2. pose proof (close_0 _ _ _ H1). pose proof (close_0 _ _ _ H2). destruct H1 as (P1 & Q1 & A1 & B1), H2 as (P2 & Q2 & A2 & B2).
  split; [lra|]. split; [nra|]. rewrite Ropp_plus_distr, !exp_plus. pose proof (exp_pos (- k1)). pose proof (exp_pos k1). pose proof (exp_pos k2). pose proof (exp_pos (- k2)).
  split.
  - replace (x * y * (exp (- k1) * exp (- k2))) with ((x * exp (- k1)) * (y * exp (- k2))) by ring. apply Rmult_le_compat; nra.
  - replace (x * y * (exp k1 * exp k2)) with ((x * exp k1) * (y * exp k2)) by ring. apply Rmult_le_compat; nra.
Qed.
Lemma close_inv k x' x : 0 < x -> close k x' x -> close k (/ x') (/ x).
Proof.
  intros X C. pose proof (close_pos _ _ _ C X). destruct C as (P & Q & A & B). split; [exact P|].
  assert (E : exp k * exp (- k) = 1) by (rewrite <- exp_plus, Rplus_opp_r; apply exp_0).
  pose proof (exp_pos k). pose proof (exp_pos (- k)).
  split; [left; apply Rinv_0_lt_compat; exact X|].
  assert (E1 : exp (- k) = / exp k) by (rewrite exp_Ropp; reflexivity).
  assert (E2 : exp k = / exp (- k)) by (rewrite E1; rewrite Rinv_inv; reflexivity).
  split.
  - rewrite E1, <- Rinv_mult. apply Rinv_le_contravar; assumption.
  - rewrite E2, <- Rinv_mult. apply Rinv_le_contravar; [nra|exact A].
Qed.
Lemma close_div k1 k2 x' x y' y : 0 < y -> close k1 x' x -> close k2 y' y -> close (k1 + k2) (x' / y') (x / y).
Proof. intros Y H1 H2. apply close_mul; [exact H1|]. apply close_inv; assumption. Qed.
Lemma close_add k x' x y' y : close k x' x -> close k y' y -> close k (x' + y') (x + y).
Proof. intros (P & Q & A & B) (_ & Q' & A' & B'). split; [exact P|]. split; lra. Qed.
Lemma close_sqrt k x' x : close k x' x -> close (k / 2) (sqrt x') (sqrt x).
Proof.
  intros C. pose proof (close_0 _ _ _ C). destruct C as (P & Q & A & B). split; [lra|]. split; [apply sqrt_pos|].
  assert (S : forall a, sqrt (exp a) = exp (a / 2)).
  { intros a. apply sqrt_lem_1; [left; apply exp_pos|left; apply exp_pos|]. rewrite <- exp_plus. f_equal. field. }
  replace (- (k / 2)) with (- k / 2) by field. rewrite <- !S, <- !sqrt_mult by (auto; left; apply exp_pos). split; apply sqrt_le_1_alt; assumption.
Qed.
Lemma close_pow k x' x n : close k x' x -> close (INR n * k) (x' ^ n) (x ^ n).
Proof.
  intros C. induction n; [simpl; rewrite Rmult_0_l; apply close_refl; lra|].
  rewrite S_INR. replace ((INR n + 1) * k) with (k + INR n * k) by ring. apply (close_mul k (INR n * k) x' x (x' ^ n) (x ^ n)); assumption.
Qed.
Lemma close_exp d t' t : Rabs (t' - t) <= d -> close d (exp t') (exp t).
Proof.
  intros H. pose proof (Rabs_pos (t' - t)). apply abs_between in H. split; [lra|]. split; [left; apply exp_pos|]. rewrite <- !exp_plus. split; apply exp_le; lra.
Qed.
Lemma close_ln k x' x : 0 < x -> close k x' x -> Rabs (ln x' - ln x) <= k.
Proof.
  intros X C. pose proof (close_pos _ _ _ C X). destruct C as (P & Q & A & B). pose proof (exp_pos k). pose proof (exp_pos (- k)).
  assert (ln (x * exp (- k)) <= ln x').
  { destruct (Rle_lt_or_eq_dec _ _ A) as [L|L]; [left; apply ln_increasing; nra|rewrite L; lra]. }
  assert (ln x' <= ln (x * exp k)).
  { destruct (Rle_lt_or_eq_dec _ _ B) as [L|L]; [left; apply ln_increasing; nra|rewrite L; lra]. }
  rewrite ln_mult, ln_exp in * by assumption. apply Rabs_le. lra.
Qed.
