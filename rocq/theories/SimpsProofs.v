(** * Proofs about simps *)
From Verif Require Import Np NpLemmas Integrate IntegrateSpec.
From Coquelicot Require Import Coquelicot.

Lemma evens_tab {A} (g : nat -> A) M :
  evens (tab (2 * M) g) = tab M (fun i => g (2 * i)%nat) /\
  evens (tab (2 * M + 1) g) = tab (M + 1) (fun i => g (2 * i)%nat).
Proof.
  revert g; induction M as [ | M IH]; intros g; [ split; reflexivity | ].
  replace (2 * S M)%nat with (S (S (2 * M))) by lia. replace (S (S (2 * M)) + 1)%nat with (S (S (2 * M + 1))) by lia.
  rewrite !tab_S. replace (S M + 1)%nat with (S (M + 1)) by lia.
  change (evens (?x :: ?y :: ?l)) with (x :: evens l).
  destruct (IH (fun i => g (S (S i)))) as [E1 E2]. split.
  - rewrite E1. f_equal. apply tab_ext; intros i _. f_equal; lia.
  - rewrite E2, (tab_S (M + 1)). f_equal. apply tab_ext; intros i _. f_equal; lia.
Qed.

Lemma removelast_tab {A} (g : nat -> A) n : removelast (tab (n + 1) g) = tab n g.
Proof. replace (n + 1)%nat with (S n) by lia. rewrite tab_snoc. apply removelast_last. Qed.

Lemma tl_tab {A} (g : nat -> A) n : tl (tab (n + 1) g) = tab n (fun i => g (S i)).
Proof. replace (n + 1)%nat with (S n) by lia. now rewrite tab_S. Qed.

Lemma skipn2_tab {A} (g : nat -> A) n : skipn 2 (tab (n + 2) g) = tab n (fun i => g (S (S i))).
Proof. replace (n + 2)%nat with (S (S n)) by lia. rewrite !tab_S. reflexivity. Qed.

(** the three slices of simps on an array with 2M+1 entries *)
Lemma simps_slices {A} (g : nat -> A) M : (1 <= M)%nat ->
  evens (removelast (tab (2 * M + 1) g)) = tab M (fun i => g (2 * i)%nat) /\
  odds (tab (2 * M + 1) g) = tab M (fun i => g (2 * i + 1)%nat) /\
  evens (skipn 2 (tab (2 * M + 1) g)) = tab M (fun i => g (2 * i + 2)%nat).
Proof.
  intros HM. unfold odds. rewrite removelast_tab, tl_tab.
  assert (E : skipn 2 (tab (2 * M + 1) g) = tab (2 * (M - 1) + 1) (fun i => g (S (S i)))).
  { rewrite <- skipn2_tab. do 2 f_equal. lia. }
  rewrite E.
  split; [ apply (evens_tab g M) | split ].
  - rewrite (proj1 (evens_tab (fun i => g (S i)) M)). apply tab_ext; intros; f_equal; lia.
  - rewrite (proj2 (evens_tab (fun i => g (S (S i))) (M - 1))).
    replace (M - 1 + 1)%nat with M by lia. apply tab_ext; intros; f_equal; lia.
Qed.

Lemma linspace_node a b N : linspace a b (N + 1) = tab (N + 1) (node a b N).
Proof. unfold linspace, node. replace (N + 1 - 1)%nat with N by lia. reflexivity. Qed.

Lemma even_half N : Nat.even N = true -> exists M, N = (2 * M)%nat.
Proof. intros H. apply Nat.even_spec in H as [M ->]. now exists M. Qed.

Lemma even_mod N : Nat.even N = true -> Nat.eqb (N mod 2) 1 = false.
Proof.
  intros H. destruct (even_half N H) as [M ->]. rewrite Nat.mul_comm, Nat.mod_mul by lia. reflexivity.
Qed.
Lemma odd_mod N : Nat.odd N = true -> Nat.eqb (N mod 2) 1 = true.
Proof.
  intros H. apply Nat.odd_spec in H as [M ->].
  replace (2 * M + 1)%nat with (1 + M * 2)%nat by lia. rewrite Nat.mod_add by lia. reflexivity.
Qed.

Lemma vadd_tab n f g : vadd (tab n f) (tab n g) = tab n (fun i => f i + g i).
Proof.
  apply (list_eq_nth 0).
  - rewrite length_vadd; rewrite ?length_tab; reflexivity.
  - intros i Hi. rewrite length_vadd in Hi by (now rewrite !length_tab). rewrite length_tab in Hi.
    change (el (vadd (tab n f) (tab n g)) i = el (tab n (fun i => f i + g i)) i).
    rewrite el_vadd by (now rewrite !length_tab). unfold el. now rewrite !nth_tab.
Qed.

Lemma simps_eq f a b N : Nat.even N = true -> (2 <= N)%nat -> simps f a b N = Ok (simpson f a b N).
Proof.
  intros He HN. unfold simps. rewrite (even_mod N He). cbv zeta. f_equal.
  destruct (even_half N He) as [M ->]. rewrite linspace_node, map_tab.
  destruct (simps_slices (fun i => f (node a b (2 * M) i)) M ltac:(lia)) as (-> & -> & ->).
  unfold vscale. rewrite map_tab, !vadd_tab, vsum_tab.
  unfold simpson. replace (2 * M / 2)%nat with M by (rewrite Nat.mul_comm, Nat.div_mul; lia).
  f_equal. 
Qed.

Lemma simps_odd f a b N : Nat.odd N = true -> simps f a b N = Err ValueError.
Proof. intros H. unfold simps. now rewrite (odd_mod N H). Qed.

Lemma simpson_ext f g a b N : (forall i, (i <= N)%nat -> f (node a b N i) = g (node a b N i)) ->
  simpson f a b N = simpson g a b N.
Proof.
  intros H. unfold simpson. f_equal. apply Rsum_ext; intros i Hi.
  assert (2 * i + 2 <= N)%nat.
  { pose proof (Nat.div_mod N 2 ltac:(lia)). lia. }
  rewrite !H by lia. reflexivity.
Qed.

Lemma simpson_plus f g a b N : simpson (fun x => f x + g x) a b N = simpson f a b N + simpson g a b N.
Proof.
  unfold simpson. rewrite <- Rmult_plus_distr_l. f_equal. rewrite <- Rsum_plus. apply Rsum_ext; intros; ring.
Qed.
Lemma simpson_scal c f a b N : simpson (fun x => c * f x) a b N = c * simpson f a b N.
Proof.
  unfold simpson.
  rewrite (Rsum_ext _ _ (fun i => c * (f (node a b N (2 * i)) + 4 * f (node a b N (2 * i + 1)) + f (node a b N (2 * i + 2)))))
    by (intros; ring).
  rewrite Rsum_scal. ring.
Qed.
Lemma simpson_Rsum n (F : nat -> R -> R) a b N :
  simpson (fun x => Rsum n (fun i => F i x)) a b N = Rsum n (fun i => simpson (F i) a b N).
Proof.
  induction n as [ | n IH]; simpl.
  - unfold simpson. rewrite Rsum_0_ext; [ ring | intros; ring ].
  - rewrite <- IH. now rewrite <- simpson_plus.
Qed.

Lemma simpson_nonneg f a b N : a <= b -> (0 < N)%nat -> (forall i, (i <= N)%nat -> 0 <= f (node a b N i)) ->
  0 <= simpson f a b N.
Proof.
  intros Hab HN Hf. unfold simpson. apply Rmult_le_pos.
  - apply Rmult_le_pos; [ | lra ]. apply Rmult_le_pos; [ lra | ].
    left; apply Rinv_0_lt_compat. now apply lt_0_INR.
  - apply Rsum_nonneg; intros i Hi.
    assert (2 * i + 2 <= N)%nat by (pose proof (Nat.div_mod N 2 ltac:(lia)); lia).
    pose proof (Hf (2 * i)%nat ltac:(lia)). pose proof (Hf (2 * i + 1)%nat ltac:(lia)).
    pose proof (Hf (2 * i + 2)%nat ltac:(lia)). lra.
Qed.

Lemma simpson_pos f a b N : a < b -> (2 <= N)%nat -> (forall i, (i <= N)%nat -> 0 < f (node a b N i)) ->
  0 < simpson f a b N.
Proof.
  intros Hab HN Hf. unfold simpson. apply Rmult_lt_0_compat.
  - apply Rmult_lt_0_compat; [ | lra ]. apply Rmult_lt_0_compat; [ lra | ].
    apply Rinv_0_lt_compat. apply lt_0_INR; lia.
  - assert (HM : (1 <= N / 2)%nat) by (apply Nat.div_le_lower_bound; lia).
    destruct (N / 2)%nat as [ | M] eqn:EM; [ lia | ].
    change (Rsum (S M) ?g) with (Rsum M g + g M).
    assert (H2 : forall i, (i < S M)%nat -> (2 * i + 2 <= N)%nat)
      by (intros; pose proof (Nat.div_mod N 2 ltac:(lia)); lia).
    assert (HP : forall i, (i < S M)%nat -> 0 < f (node a b N (2 * i)) + 4 * f (node a b N (2 * i + 1)) + f (node a b N (2 * i + 2))).
    { intros i Hi. specialize (H2 i Hi). pose proof (Hf (2 * i)%nat ltac:(lia)).
      pose proof (Hf (2 * i + 1)%nat ltac:(lia)). pose proof (Hf (2 * i + 2)%nat ltac:(lia)). lra. }
    pose proof (HP M ltac:(lia)).
    assert (0 <= Rsum M (fun i => f (node a b N (2 * i)) + 4 * f (node a b N (2 * i + 1)) + f (node a b N (2 * i + 2)))).
    { apply Rsum_nonneg; intros i Hi. left; apply HP; lia. }
    cbv beta. lra.
Qed.

(** reversal *)
Lemma node_rev a b N i : (0 < N)%nat -> (i <= N)%nat -> node b a N i = node a b N (N - i).
Proof.
  intros HN Hi. unfold node. rewrite minus_INR by assumption. field. apply not_0_INR; lia.
Qed.

Lemma simpson_reverse f a b N : Nat.even N = true -> (2 <= N)%nat -> simpson f b a N = - simpson f a b N.
Proof.
  intros He HN. destruct (even_half N He) as [M ->]. unfold simpson.
  replace (2 * M / 2)%nat with M by (rewrite Nat.mul_comm, Nat.div_mul; lia).
  rewrite (Rsum_rev M).
  rewrite (Rsum_ext M _ (fun i => f (node a b (2 * M) (2 * i)) + 4 * f (node a b (2 * M) (2 * i + 1)) + f (node a b (2 * M) (2 * i + 2)))).
  - unfold Rdiv. ring.
  - intros i Hi. rewrite !(node_rev a b) by lia.
    replace (2 * M - 2 * (M - 1 - i))%nat with (2 * i + 2)%nat by lia.
    replace (2 * M - (2 * (M - 1 - i) + 1))%nat with (2 * i + 1)%nat by lia.
    replace (2 * M - (2 * (M - 1 - i) + 2))%nat with (2 * i)%nat by lia. ring.
Qed.

(** one panel pair is exact on cubics, with exact antiderivative differences *)
Lemma node_0 a b N : node a b N 0 = a.
Proof. unfold node. simpl. ring. Qed.
Lemma node_N a b N : (0 < N)%nat -> node a b N N = b.
Proof. intros HN. unfold node. field. apply not_0_INR; lia. Qed.

Lemma simpson_telescope f F a b N : Nat.even N = true -> (2 <= N)%nat ->
  (forall i, (i < N / 2)%nat ->
     (b - a) / INR N / 3 * (f (node a b N (2 * i)) + 4 * f (node a b N (2 * i + 1)) + f (node a b N (2 * i + 2)))
     = F (node a b N (2 * i + 2)) - F (node a b N (2 * i))) ->
  simpson f a b N = F b - F a.
Proof.
  intros He HN H. destruct (even_half N He) as [M ->]. unfold simpson.
  replace (2 * M / 2)%nat with M in * by (rewrite Nat.mul_comm, Nat.div_mul; lia).
  rewrite <- Rsum_scal.
  rewrite (Rsum_ext M _ (fun i => F (node a b (2 * M) (2 * S i)) - F (node a b (2 * M) (2 * i)))).
  - rewrite (Rsum_telescope M (fun i => F (node a b (2 * M) (2 * i)))).
    rewrite node_N by lia. now rewrite Nat.mul_0_r, node_0.
  - intros i Hi. rewrite H by assumption. do 3 f_equal. lia.
Qed.

Lemma simpson_cubic c a b N : Nat.even N = true -> (2 <= N)%nat ->
  simpson (poly c 3) a b N = poly_int c 3 a b.
Proof.
  intros He HN.
  rewrite (simpson_telescope (poly c 3) (fun x => c 0%nat * x + c 1%nat * x ^ 2 / 2 + c 2%nat * x ^ 3 / 3 + c 3%nat * x ^ 4 / 4));
    try assumption.
  - unfold poly_int. simpl. field.
  - intros i Hi. unfold poly, node. rewrite !plus_INR, !mult_INR. simpl INR.
    assert (INR N <> 0) by (apply not_0_INR; lia).
    simpl Rsum. simpl pow. field. assumption.
Qed.

Lemma poly_int_RInt c d a b : RInt (poly c d) a b = poly_int c d a b.
Proof.
  assert (H : is_RInt (poly c d) a b (poly_int c d a b)).
  { unfold poly, poly_int. induction d as [ | d IH].
    - simpl. apply (is_RInt_ext (fun _ => c 0%nat)); [ intros; simpl; ring | ].
      replace (0 + c 0%nat * (b * 1 - a * 1) / 1) with (scal (b - a) (c 0%nat)) by (unfold scal; simpl; unfold mult; simpl; field).
      apply @is_RInt_const.
    - set (f := fun x => Rsum (S d) (fun k => c k * x ^ k)) in *.
      apply (is_RInt_ext (fun x => plus (f x) (scal (c (S d)) (x ^ (S d))))); [ intros; reflexivity | ].
      change (Rsum (S (S d)) ?g) with (plus (Rsum (S d) g) (g (S d))).
      apply @is_RInt_plus; [ exact IH | ].
      assert (E : c (S d) * (b ^ S (S d) - a ^ S (S d)) / INR (S (S d))
                  = scal (c (S d)) (minus (b ^ S (S d) / INR (S (S d))) (a ^ S (S d) / INR (S (S d))))).
      { unfold scal, minus, plus, opp; simpl; unfold mult; simpl; unfold Rdiv; ring. }
      rewrite E.
      apply @is_RInt_scal.
      apply (is_RInt_derive (fun x => x ^ S (S d) / INR (S (S d)))).
      + intros x _. auto_derive; [ exact I | ].
        change (match d with O => 1 | S _ => INR d + 1 end + 1) with (INR (S (S d))).
        assert (INR (S (S d)) <> 0) by (apply not_0_INR; lia). change (x ^ S d) with (x * x ^ d).
        generalize dependent (INR (S (S d))). intros; field; assumption.
      + intros x _. apply continuity_pt_filterlim. apply derivable_continuous_pt. apply derivable_pt_pow. }
  now apply is_RInt_unique.
Qed.
