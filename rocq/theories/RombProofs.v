(** * Proofs about romb *)
From Coquelicot Require Import Coquelicot.
From Verif Require Import Np NpLemmas Integrate IntegrateSpec SimpsProofs.

(** ** trapezoid refinement *)
Lemma node_refine a b N i : (0 < N)%nat -> node a b (2 * N) (2 * i) = node a b N i.
Proof. intros HN. unfold node. rewrite !mult_INR. simpl (INR 2). assert (0 < INR N) by (now apply lt_0_INR). field. lra. Qed.

Lemma Rsum_even_odd n f : Rsum (2 * n) f = Rsum n (fun i => f (2 * i)%nat + f (2 * i + 1)%nat).
Proof.
  induction n as [ | n IH]; [ reflexivity | ].
  replace (2 * S n)%nat with (S (S (2 * n))) by lia. change (Rsum (S (S (2 * n))) f) with (Rsum (2 * n) f + f (2 * n)%nat + f (S (2 * n))).
  change (Rsum (S n) ?g) with (Rsum n g + g n). rewrite IH. replace (S (2 * n)) with (2 * n + 1)%nat by lia. ring.
Qed.
Lemma trapezoid_refine f a b N : (0 < N)%nat ->
  trapezoid f a b (2 * N) = trapezoid f a b N / 2 + (b - a) / INR (2 * N) * Rsum N (fun i => f (node a b (2 * N) (2 * i + 1))).
Proof.
  intros HN. unfold trapezoid. rewrite Rsum_even_odd.
  rewrite (Rsum_ext N _ (fun i => (f (node a b N i) + f (node a b N (i + 1))) / 2 + f (node a b (2 * N) (2 * i + 1)))).
  - rewrite Rsum_plus, mult_INR. simpl (INR 2). assert (0 < INR N) by (now apply lt_0_INR). field. lra.
  - intros i _. replace (2 * i + 1 + 1)%nat with (2 * (i + 1))%nat by lia. rewrite !node_refine by assumption. field.
Qed.
Lemma difftrapn_mid f a b N : (0 < N)%nat -> difftrapn f a b (2 * N) = Rsum N (fun i => f (node a b (2 * N) (2 * i + 1))).
Proof.
  intros HN. unfold difftrapn. replace (Nat.div (2 * N) 2) with N by (rewrite Nat.mul_comm, Nat.div_mul; lia).
  rewrite map_tab, vsum_tab. apply Rsum_ext. intros i _. f_equal. unfold node. rewrite plus_INR, !mult_INR. simpl (INR 2). simpl (INR 1).
  assert (0 < INR N) by (now apply lt_0_INR). replace (1.0) with 1 by lra. replace (0.5) with (1 / 2) by lra. field. lra.
Qed.
Lemma trapezoid_1 f a b : trapezoid f a b 1 = (b - a) * (0.5 * (f a + f b)).
Proof.
  unfold trapezoid. simpl Rsum. unfold node. simpl INR. replace (a + 0 * ((b - a) / 1)) with a by ring.
  replace (a + 1 * ((b - a) / 1)) with b by field. lra.
Qed.

(** ** the work array *)
Lemma length_scan_romb l : forall c, length (snd (scan romb_scan c l)) = length l.
Proof.
  induction l as [ | y l IH]; intros [x k]; [ reflexivity | ]. simpl.
  specialize (IH (romberg_diff y x (k + 1), (k + 1)%nat)). destruct (scan romb_scan _ l). simpl in *. now rewrite IH.
Qed.
Lemma scan_romb_el l : forall x k j, (j < length l)%nat ->
  el (snd (scan romb_scan (x, k) l)) j = romberg_diff (el l j) (el (x :: snd (scan romb_scan (x, k) l)) j) (k + j + 1).
Proof.
  induction l as [ | y l IH]; intros x k j Hj; [ simpl in Hj; lia | ].
  simpl. pose proof (IH (romberg_diff y x (k + 1)) (k + 1)%nat) as I.
  destruct (scan romb_scan (romberg_diff y x (k + 1), (k + 1)%nat) l) as [c2 ys]. simpl in *.
  destruct j as [ | j].
  - unfold el; simpl. now rewrite Nat.add_0_r.
  - change (el (romberg_diff y x (k + 1) :: ys) (S j)) with (el ys j). change (el (y :: l) (S j)) with (el l j).
    change (el (x :: romberg_diff y x (k + 1) :: ys) (S j)) with (el (romberg_diff y x (k + 1) :: ys) j).
    rewrite I by lia. f_equal. lia.
Qed.
Lemma el_removelast l j : (j + 1 < length l)%nat -> el (removelast l) j = el l j.
Proof.
  intros H. destruct (exists_last (l := l)) as (l' & x & ->); [ intros ->; simpl in H; lia | ].
  rewrite removelast_last. rewrite app_length in H. simpl in H. unfold el. now rewrite app_nth1 by lia.
Qed.
Lemma length_removelast' {A} (l : list A) : length (removelast l) = (length l - 1)%nat.
Proof.
  destruct l as [ | y l]; [ reflexivity | ]. destruct (exists_last (l := y :: l)) as (l' & x & E); [ discriminate | ].
  rewrite E, removelast_last, app_length. simpl. lia.
Qed.
Lemma romb_row_spec x state d : length state = (d + 1)%nat ->
  length (romb_row x state) = (d + 1)%nat /\ el (romb_row x state) 0 = x /\
  forall j, (j < d)%nat -> el (romb_row x state) (S j) = romberg_diff (el state j) (el (romb_row x state) j) (j + 1).
Proof.
  intros L. unfold romb_row. split; [ | split ].
  - simpl. rewrite length_scan_romb, length_removelast'. lia.
  - reflexivity.
  - intros j Hj. unfold el at 1. simpl nth. fold (el (snd (scan romb_scan (x, 0%nat) (removelast state))) j).
    rewrite scan_romb_el by (rewrite length_removelast'; lia). rewrite el_removelast by lia. reflexivity.
Qed.

Lemma romberg_step f a b i k : romberg f a b (S i) (S k) = romberg_diff (romberg f a b i k) (romberg f a b (S i) k) (S k).
Proof. reflexivity. Qed.

Lemma pow2_pos i : (0 < 2 ^ i)%nat.
Proof. induction i as [ | i IH]; simpl; lia. Qed.

Lemma romb_loop_spec f a b d fuel : forall i ordsum state err,
  (1 <= i)%nat -> (i + fuel = d + 1)%nat -> length state = (d + 1)%nat ->
  (b - a) * ordsum / INR (2 ^ (i - 1)) = trapezoid f a b (2 ^ (i - 1)) ->
  (forall j, (j <= i - 1)%nat -> el state j = romberg f a b (i - 1) j) ->
  let '(i', st, err') := romb_loop f a b fuel i ordsum state err in
  i' = d /\ el st d = romberg f a b d d /\
  ((1 <= fuel)%nat -> err' = Rabs (romberg f a b (d - 1) (d - 1) - romberg f a b d d)).
Proof.
  induction fuel as [ | fuel IH]; intros i ordsum state err Hi Hd L HT HS.
  - simpl. replace (i - 1)%nat with d in * by lia. split; [ lia | split; [ apply HS; lia | lia ]].
  - simpl romb_loop. set (x := (b - a) * (ordsum + difftrapn f a b (2 ^ i)) / INR (2 ^ i)).
    assert (E2 : (2 ^ i = 2 * 2 ^ (i - 1))%nat) by (replace i with (S (i - 1)) at 1 by lia; reflexivity).
    assert (HX : x = trapezoid f a b (2 ^ i)).
    { unfold x. rewrite E2, difftrapn_mid, trapezoid_refine, <- HT by apply pow2_pos. rewrite mult_INR. simpl (INR 2).
      assert (0 < INR (2 ^ (i - 1))) by (apply lt_0_INR, pow2_pos). field. lra. }
    destruct (romb_row_spec x state d L) as (RL & R0 & RS).
    assert (ROW : forall j, (j <= i)%nat -> el (romb_row x state) j = romberg f a b i j).
    { induction j as [ | j IHj]; intros Hj.
      - rewrite R0, HX. destruct i; reflexivity.
      - rewrite RS by lia. rewrite IHj, HS by lia. replace i with (S (i - 1)) at 2 3 by lia. rewrite romberg_step, Nat.add_1_r.
        replace (S (i - 1)) with i by lia. reflexivity. }
    specialize (IH (i + 1)%nat (ordsum + difftrapn f a b (2 ^ i)) (romb_row x state)
      (Rabs (el state (i - 1) - el (romb_row x state) i)) ltac:(lia) ltac:(lia) RL).
    replace (i + 1 - 1)%nat with i in IH by lia. specialize (IH HX ROW).
    destruct (romb_loop f a b fuel (i + 1) (ordsum + difftrapn f a b (2 ^ i)) (romb_row x state) (Rabs (el state (i - 1) - el (romb_row x state) i)))
      as [[i' st] err'] eqn:EL. destruct IH as (I1 & I2 & I3). split; [ exact I1 | split; [ exact I2 | ]].
    intros _. destruct fuel as [ | fuel]; [ | apply I3; lia ].
    simpl in EL. injection EL as _ _ <-. replace d with i in * by lia. now rewrite HS, ROW by lia.
Qed.
Lemma el_repeat x n j : (j < n)%nat -> el (repeat x n) j = x.
Proof. unfold el. revert j; induction n as [ | n IH]; intros [ | j] H; simpl; try lia; auto. apply IH; lia. Qed.

Lemma romb_value f a b d : (1 <= d)%nat ->
  romb f a b d = Ok (romberg f a b d d, Rabs (romberg f a b (d - 1) (d - 1) - romberg f a b d d)).
Proof.
  intros Hd. unfold romb. destruct d as [ | d']; [ lia | ]. set (d := S d') in *.
  pose proof (romb_loop_spec f a b d d 1 (difftrap1 f a b) (repeat ((b - a) * difftrap1 f a b) (d + 1)) 0
    ltac:(lia) ltac:(lia) (repeat_length _ _)) as P. simpl (1 - 1)%nat in P. change (2 ^ 0)%nat with 1%nat in P.
  assert (T1 : (b - a) * difftrap1 f a b = trapezoid f a b 1) by (rewrite trapezoid_1; reflexivity).
  assert (HT : (b - a) * difftrap1 f a b / INR 1 = trapezoid f a b 1) by (rewrite T1; simpl INR; field).
  specialize (P HT). 
  destruct (romb_loop f a b d 1 (difftrap1 f a b) (repeat ((b - a) * difftrap1 f a b) (d + 1)) 0) as [[i st] err] eqn:E.
  destruct P as (P1 & P2 & P3).
  { intros j Hj. replace j with 0%nat by lia. rewrite el_repeat by lia. exact T1. }
  rewrite P1, P2, P3 by lia. reflexivity.
Qed.
Lemma romb_zero f a b : romb f a b 0 = Err NameError.
Proof. reflexivity. Qed.

(** ** Expansion of the trapezoid sums of a polynomial in even powers of 1/N *)
Lemma pow_neg_even u k : Nat.Even k -> (- u) ^ k = u ^ k.
Proof. intros [m ->]. rewrite !pow_mult. f_equal. ring. Qed.
Lemma pow_neg_odd u k : Nat.Odd k -> (- u) ^ k = - u ^ k.
Proof. intros [m ->]. rewrite Nat.add_1_r. simpl pow. rewrite pow_neg_even by (now exists m). ring. Qed.

Lemma zero_derivative (F : R -> R) : (forall x, is_derive F x 0) -> forall x y, F x = F y.
Proof.
  intros HD. assert (L : forall x y, x < y -> F x = F y).
  { intros x y Hxy. destruct (MVT_cor2 F (fun _ => 0) x y Hxy) as (c & E & _); [ intros; apply is_derive_Reals, HD | lra ]. }
  intros x y. destruct (Rtotal_order x y) as [H | [-> | H]]; [ now apply L | reflexivity | symmetry; now apply L ].
Qed.

Lemma is_derive_Rsum n (f : nat -> R -> R) (f' : nat -> R) x :
  (forall j, (j < n)%nat -> is_derive (f j) x (f' j)) -> is_derive (fun x => Rsum n (fun j => f j x)) x (Rsum n f').
Proof.
  induction n as [ | n IH]; intros H; simpl.
  - apply (is_derive_const (V := R_NormedModule) 0 x).
  - apply (is_derive_plus (V := R_NormedModule) (fun x => Rsum n (fun j => f j x)) (f n)); [ apply IH; intros; apply H; lia | apply H; lia ].
Qed.
Lemma is_derive_shift_pow h k x : is_derive (fun x => (x + h) ^ k) x (INR k * (x + h) ^ (k - 1)).
Proof. auto_derive; [ exact I | ]. replace (Nat.pred k) with (k - 1)%nat by lia. ring. Qed.
Lemma is_derive_pow' k x : is_derive (fun x => x ^ k) x (INR k * x ^ (k - 1)).
Proof. auto_derive; [ exact I | ]. replace (Nat.pred k) with (k - 1)%nat by lia. ring. Qed.

Definition avg (x h : R) (k : nat) : R := ((x + h) ^ k + x ^ k) / 2.
Lemma is_derive_avg h k x : is_derive (fun x => avg x h k) x (INR k * avg x h (k - 1)).
Proof.
  unfold avg. pose proof (is_derive_plus (V := R_NormedModule) _ _ x _ _ (is_derive_shift_pow h k x) (is_derive_pow' k x)) as P.
  pose proof (is_derive_scal _ x (/ 2) _ P) as Q.
  eapply is_derive_ext; [ | match type of Q with is_derive _ _ ?l => replace (INR k * (((x + h) ^ (k - 1) + x ^ (k - 1)) / 2)) with l; [ exact Q | ] end ].
  - intros t. unfold plus; simpl. field.
  - unfold plus; simpl. field.
Qed.

Lemma telescoping n : exists al : nat -> R, al 0%nat = INR (n + 1) /\
  forall x h, (x + h) ^ (n + 1) - x ^ (n + 1) = Rsum (n / 2 + 1) (fun j => al j * h ^ (2 * j + 1) * avg x h (n - 2 * j)).
Proof.
  induction n as [ | n (al & A0 & HA)].
  - exists (fun _ => 1). split; [ reflexivity | ]. intros x h. simpl. unfold avg. simpl. field.
  - set (be := fun j => INR (n + 2) * al j / INR (n + 1 - 2 * j)).
    assert (Hj : forall j, (j < n / 2 + 1)%nat -> (2 * j <= n)%nat).
    { intros j Hj. assert (j <= n / 2)%nat by lia. pose proof (Nat.mul_div_le n 2). lia. }
    set (F := fun h x => (x + h) ^ (n + 2) - x ^ (n + 2) - Rsum (n / 2 + 1) (fun j => be j * h ^ (2 * j + 1) * avg x h (n + 1 - 2 * j))).
    assert (DF : forall h x, is_derive (F h) x 0).
    { intros h x. unfold F.
      assert (S1 : is_derive (fun x => Rsum (n / 2 + 1) (fun j => be j * h ^ (2 * j + 1) * avg x h (n + 1 - 2 * j))) x
                     (Rsum (n / 2 + 1) (fun j => be j * h ^ (2 * j + 1) * (INR (n + 1 - 2 * j) * avg x h (n + 1 - 2 * j - 1))))).
      { apply (is_derive_Rsum (n / 2 + 1) (fun j x => be j * h ^ (2 * j + 1) * avg x h (n + 1 - 2 * j))).
        intros j _. apply is_derive_scal, is_derive_avg. }
      pose proof (is_derive_minus (V := R_NormedModule) _ _ x _ _
        (is_derive_minus (V := R_NormedModule) _ _ x _ _ (is_derive_shift_pow h (n + 2) x) (is_derive_pow' (n + 2) x)) S1) as D.
      eapply is_derive_ext; [ | match type of D with is_derive _ _ ?l => replace 0 with l; [ exact D | ] end ].
      - intros t. reflexivity.
      - change (INR (n + 2) * (x + h) ^ (n + 2 - 1) - INR (n + 2) * x ^ (n + 2 - 1) -
          Rsum (n / 2 + 1) (fun j => be j * h ^ (2 * j + 1) * (INR (n + 1 - 2 * j) * avg x h (n + 1 - 2 * j - 1))) = 0).
        replace (n + 2 - 1)%nat with (n + 1)%nat by lia.
        rewrite (Rsum_ext _ _ (fun j => INR (n + 2) * (al j * h ^ (2 * j + 1) * avg x h (n - 2 * j)))).
        + rewrite Rsum_scal, <- HA. ring.
        + intros j Hjl. specialize (Hj j Hjl).
          unfold be. replace (n + 1 - 2 * j - 1)%nat with (n - 2 * j)%nat by lia.
          assert (INR (n + 1 - 2 * j) <> 0) by (apply not_0_INR; lia). field. assumption. }
    assert (HF : forall h x, F h x = F h (- (h / 2))) by (intros h x; apply zero_derivative; apply DF).
    assert (B0 : be 0%nat = INR (n + 2)).
    { unfold be. rewrite A0. replace (n + 1 - 2 * 0)%nat with (n + 1)%nat by lia. assert (INR (n + 1) <> 0) by (apply not_0_INR; lia). field. assumption. }
    destruct (Nat.Even_or_Odd n) as [He | Ho].
    + exists be. split; [ rewrite B0; f_equal; lia | ]. intros x h.
      assert (ED : (S n / 2 = n / 2)%nat).
      { destruct He as [m ->]. replace (S (2 * m)) with (1 + m * 2)%nat by lia. rewrite Nat.div_add by lia. rewrite (Nat.mul_comm 2 m), Nat.div_mul by lia. reflexivity. }
      assert (F0 : F h (- (h / 2)) = 0).
      { unfold F. replace (- (h / 2) + h) with (h / 2) by field.
        rewrite (pow_neg_even (h / 2) (n + 2)) by (destruct He as [m ->]; exists (m + 1)%nat; lia).
        rewrite Rsum_0_ext; [ ring | ]. intros j Hjl. specialize (Hj j Hjl). unfold avg. replace (- (h / 2) + h) with (h / 2) by field.
        rewrite (pow_neg_odd (h / 2) (n + 1 - 2 * j)) by (destruct He as [m ->]; exists (m - j)%nat; lia). field. }
      rewrite <- (HF h x) in F0. unfold F in F0. rewrite ED. replace (S n + 1)%nat with (n + 2)%nat by lia.
      rewrite (Rsum_ext _ (fun j => be j * h ^ (2 * j + 1) * avg x h (S n - 2 * j)) (fun j => be j * h ^ (2 * j + 1) * avg x h (n + 1 - 2 * j))).
      * lra.
      * intros j _. repeat f_equal. lia.
    + set (q := (n / 2 + 1)%nat).
      set (ka := 2 / 2 ^ (n + 2) - Rsum q (fun j => be j / 2 ^ (n + 1 - 2 * j))).
      exists (fun j => if Nat.eqb j q then ka else be j). split.
      { destruct (Nat.eqb_spec 0 q) as [E | _]; [ unfold q in E; lia | ]. rewrite B0. f_equal. lia. }
      intros x h.
      assert (ED : (S n / 2 = q)%nat).
      { unfold q. destruct Ho as [m ->]. replace (S (2 * m + 1)) with ((m + 1) * 2)%nat by lia. rewrite Nat.div_mul by lia.
        replace (2 * m + 1)%nat with (1 + m * 2)%nat by lia. rewrite Nat.div_add by lia. simpl. lia. }
      assert (Eq2 : (2 * q = n + 1)%nat).
      { unfold q. destruct Ho as [m ->]. replace (2 * m + 1)%nat with (1 + m * 2)%nat by lia. rewrite Nat.div_add by lia. simpl. lia. }
      assert (F0 : F h (- (h / 2)) = ka * h ^ (n + 2)).
      { unfold F. replace (- (h / 2) + h) with (h / 2) by field. fold q.
        rewrite (pow_neg_odd (h / 2) (n + 2)) by (destruct Ho as [m ->]; exists (m + 1)%nat; lia).
        rewrite (Rsum_ext q _ (fun j => be j / 2 ^ (n + 1 - 2 * j) * h ^ (n + 2))).
        - rewrite Rsum_scal_r. unfold ka. unfold Rdiv. rewrite !Rpow_mult_distr, !pow_inv. ring.
        - intros j Hjl. assert (Hj' := Hj j Hjl). unfold avg. replace (- (h / 2) + h) with (h / 2) by field.
          rewrite (pow_neg_even (h / 2) (n + 1 - 2 * j)) by (destruct Ho as [m ->]; exists (m + 1 - j)%nat; lia).
          unfold Rdiv. rewrite Rpow_mult_distr, pow_inv.
          replace (n + 2)%nat with (2 * j + 1 + (n + 1 - 2 * j))%nat by lia. rewrite (pow_add h (2 * j + 1)). field.
          apply pow_nonzero; lra. }
      rewrite <- (HF h x) in F0. unfold F in F0. rewrite ED. replace (S n + 1)%nat with (n + 2)%nat by lia.
      rewrite Nat.add_1_r. change (Rsum (S q) ?g) with (Rsum q g + g q). cbv beta. rewrite Nat.eqb_refl.
      replace (S n - 2 * q)%nat with 0%nat by lia. replace (2 * q + 1)%nat with (n + 2)%nat by lia.
      rewrite (Rsum_ext q _ (fun j => be j * h ^ (2 * j + 1) * avg x h (n + 1 - 2 * j))).
      2: { intros j Hjl. destruct (Nat.eqb_spec j q) as [E | _]; [ lia | ]. repeat f_equal; lia. }
      replace (avg x h 0) with 1 by (unfold avg; simpl; field). fold q in F0. lra.
Qed.

Definition expands (f : R -> R) (a b : R) (m : nat) (I : R) : Prop :=
  exists c : nat -> R, forall N, (1 <= N)%nat -> trapezoid f a b N = I + Rsum m (fun j => c j * / INR N ^ (2 * (j + 1))).

Lemma trapezoid_avg a b N n : (1 <= N)%nat ->
  trapezoid (fun x => x ^ n) a b N = (b - a) / INR N * Rsum N (fun i => avg (node a b N i) ((b - a) / INR N) n).
Proof.
  intros HN. unfold trapezoid. f_equal. apply Rsum_ext. intros i _. unfold avg.
  replace (node a b N (i + 1)) with (node a b N i + (b - a) / INR N); [ lra | ].
  unfold node. rewrite plus_INR. simpl (INR 1). ring.
Qed.

Lemma monomial_relation n : exists al : nat -> R, al 0%nat = INR (n + 1) /\
  forall a b N, (1 <= N)%nat ->
  b ^ (n + 1) - a ^ (n + 1) = Rsum (n / 2 + 1) (fun j => al j * ((b - a) / INR N) ^ (2 * j) * trapezoid (fun x => x ^ (n - 2 * j)) a b N).
Proof.
  destruct (telescoping n) as (al & A0 & HA). exists al. split; [ assumption | ]. intros a b N HN.
  set (h := (b - a) / INR N).
  transitivity (Rsum N (fun i => node a b N (S i) ^ (n + 1) - node a b N i ^ (n + 1))).
  { rewrite (Rsum_telescope N (fun i => node a b N i ^ (n + 1))). rewrite node_N, node_0 by lia. reflexivity. }
  rewrite (Rsum_ext N _ (fun i => Rsum (n / 2 + 1) (fun j => al j * h ^ (2 * j + 1) * avg (node a b N i) h (n - 2 * j)))).
  - rewrite Rsum_swap. apply Rsum_ext. intros j _. rewrite Rsum_scal, trapezoid_avg by assumption. fold h.
    rewrite pow_add. simpl (h ^ 1). ring.
  - intros i _. rewrite <- HA. replace (node a b N (S i)) with (node a b N i + h); [ reflexivity | ].
    unfold node, h. rewrite S_INR. ring.
Qed.

Lemma expands_more f a b m m' I : (m <= m')%nat -> expands f a b m I -> expands f a b m' I.
Proof.
  intros Hm (c & Hc). exists (fun j => if Nat.ltb j m then c j else 0). intros N HN. rewrite Hc by assumption. f_equal.
  replace m' with (m + (m' - m))%nat by lia. rewrite Rsum_add.
  rewrite (Rsum_0_ext (m' - m)) by (intros i _; destruct (Nat.ltb_spec (m + i) m); [ lia | ring ]).
  rewrite Rplus_0_r. apply Rsum_ext. intros i Hi. destruct (Nat.ltb_spec i m); [ reflexivity | lia ].
Qed.
Lemma trapezoid_scal k f a b N : trapezoid (fun x => k * f x) a b N = k * trapezoid f a b N.
Proof.
  unfold trapezoid. rewrite (Rsum_ext N _ (fun i => k * ((f (node a b N i) + f (node a b N (i + 1))) / 2))) by (intros; field).
  rewrite Rsum_scal. ring.
Qed.
Lemma trapezoid_plus f g a b N : trapezoid (fun x => f x + g x) a b N = trapezoid f a b N + trapezoid g a b N.
Proof.
  unfold trapezoid. rewrite (Rsum_ext N _ (fun i => (f (node a b N i) + f (node a b N (i + 1))) / 2 + (g (node a b N i) + g (node a b N (i + 1))) / 2)) by (intros; field).
  rewrite Rsum_plus. ring.
Qed.
Lemma expands_lin f g a b m I J k : expands f a b m I -> expands g a b m J -> expands (fun x => f x + k * g x) a b m (I + k * J).
Proof.
  intros (c & Hc) (d & Hd). exists (fun j => c j + k * d j). intros N HN.
  rewrite trapezoid_plus, trapezoid_scal, Hc, Hd by assumption.
  rewrite (Rsum_ext m (fun j => (c j + k * d j) * / INR N ^ (2 * (j + 1))) (fun j => c j * / INR N ^ (2 * (j + 1)) + k * (d j * / INR N ^ (2 * (j + 1))))) by (intros; ring).
  rewrite Rsum_plus, Rsum_scal. ring.
Qed.

(** multiplying an expansion by N^(-2s) and re-indexing *)
Lemma shift_expansion (T : nat -> R) m s M (I : R) (c : nat -> R) : (1 <= s)%nat -> (m + s <= M)%nat ->
  (forall N, (1 <= N)%nat -> T N = I + Rsum m (fun j => c j * / INR N ^ (2 * (j + 1)))) ->
  exists d : nat -> R, forall N, (1 <= N)%nat -> / INR N ^ (2 * s) * T N = Rsum M (fun j => d j * / INR N ^ (2 * (j + 1))).
Proof.
  intros Hs HM HT.
  exists (fun j => if Nat.ltb j (s - 1) then 0 else if Nat.eqb j (s - 1) then I else if Nat.ltb j (m + s) then c (j - s)%nat else 0).
  intros N HN. rewrite HT by assumption.
  assert (NZ : INR N <> 0) by (apply not_0_INR; lia).
  replace M with (s - 1 + (1 + (m + (M - m - s))))%nat by lia.
  rewrite Rsum_add, Rsum_add, Rsum_add.
  rewrite (Rsum_0_ext (s - 1)) by (intros i Hi; destruct (Nat.ltb_spec i (s - 1)); [ ring | lia ]).
  rewrite (Rsum_0_ext (M - m - s)).
  2: { intros i Hi. destruct (Nat.ltb_spec (s - 1 + (1 + (m + i))) (s - 1)); [ lia | ].
       destruct (Nat.eqb_spec (s - 1 + (1 + (m + i))) (s - 1)); [ lia | ]. destruct (Nat.ltb_spec (s - 1 + (1 + (m + i))) (m + s)); [ lia | ring ]. }
  change (Rsum 1 ?g) with (0 + g 0%nat). cbv beta. rewrite Nat.add_0_r.
  destruct (Nat.ltb_spec (s - 1) (s - 1)); [ lia | ]. rewrite Nat.eqb_refl. replace (s - 1 + 1)%nat with s by lia.
  match goal with |- _ = 0 + (_ + (Rsum m ?F + 0)) =>
    replace (Rsum m F) with (Rsum m (fun i => / INR N ^ (2 * s) * (c i * / INR N ^ (2 * (i + 1))))) end.
  - rewrite Rsum_scal. ring.
  - apply Rsum_ext. intros i Hi. destruct (Nat.ltb_spec (s - 1 + (1 + i)) (s - 1)); [ lia | ].
    destruct (Nat.eqb_spec (s - 1 + (1 + i)) (s - 1)); [ lia | ]. destruct (Nat.ltb_spec (s - 1 + (1 + i)) (m + s)); [ | lia ].
    replace (s - 1 + (1 + i) - s)%nat with i by lia. replace (2 * (s - 1 + (1 + i) + 1))%nat with (2 * s + 2 * (i + 1))%nat by lia.
    rewrite pow_add, Rinv_mult. ring.
Qed.

Lemma monomial_expands a b n : expands (fun x => x ^ n) a b (n / 2) ((b ^ (n + 1) - a ^ (n + 1)) / INR (n + 1)).
Proof.
  induction n as [n IH] using lt_wf_ind.
  destruct (monomial_relation n) as (al & A0 & HA).
  assert (Hj : forall j, (j < n / 2)%nat -> exists d : nat -> R, forall N, (1 <= N)%nat ->
     / INR N ^ (2 * (j + 1)) * trapezoid (fun x => x ^ (n - 2 * (j + 1))) a b N = Rsum (n / 2) (fun i => d i * / INR N ^ (2 * (i + 1)))).
  { intros j Hjl. assert (2 * (j + 1) <= n)%nat by (pose proof (Nat.mul_div_le n 2); lia).
    destruct (IH (n - 2 * (j + 1))%nat ltac:(lia)) as (c & Hc).
    apply (shift_expansion (fun N => trapezoid (fun x => x ^ (n - 2 * (j + 1))) a b N) ((n - 2 * (j + 1)) / 2) (j + 1) (n / 2)
      ((b ^ (n - 2 * (j + 1) + 1) - a ^ (n - 2 * (j + 1) + 1)) / INR (n - 2 * (j + 1) + 1)) c); [ lia | | exact Hc ].
    assert (E : (n / 2 = (n - 2 * (j + 1)) / 2 + (j + 1))%nat); [ | lia ].
    rewrite <- Nat.div_add by lia. f_equal. lia. }
  assert (CH : exists D : nat -> nat -> R, forall j, (j < n / 2)%nat -> forall N, (1 <= N)%nat ->
     / INR N ^ (2 * (j + 1)) * trapezoid (fun x => x ^ (n - 2 * (j + 1))) a b N = Rsum (n / 2) (fun i => D j i * / INR N ^ (2 * (i + 1)))).
  { clear - Hj. revert Hj. generalize (n / 2)%nat at 1 3. intros q. induction q as [ | q IHq]; intros Hj.
    - exists (fun _ _ => 0). intros; lia.
    - destruct IHq as (D & HD); [ intros; apply Hj; lia | ]. destruct (Hj q ltac:(lia)) as (d & Hd).
      exists (fun j => if Nat.eqb j q then d else D j). intros j Hjl N HN. destruct (Nat.eqb_spec j q) as [-> | Hne]; [ now apply Hd | apply HD; lia ]. }
  destruct CH as (D & HD).
  assert (NZ1 : INR (n + 1) <> 0) by (apply not_0_INR; lia).
  exists (fun i => - Rsum (n / 2) (fun j => al (S j) * (b - a) ^ (2 * (j + 1)) * D j i) / INR (n + 1)).
  intros N HN. assert (NZ : INR N <> 0) by (apply not_0_INR; lia).
  pose proof (HA a b N HN) as E. rewrite (Nat.add_1_r (n / 2)) in E. rewrite Rsum_S_l in E. rewrite A0 in E.
  replace (n - 2 * 0)%nat with n in E by lia. replace (2 * 0)%nat with 0%nat in E by lia. rewrite pow_O, Rmult_1_r in E.
  rewrite (Rsum_ext (n / 2) (fun i => al (S i) * ((b - a) / INR N) ^ (2 * S i) * trapezoid (fun x => x ^ (n - 2 * S i)) a b N)
     (fun j => Rsum (n / 2) (fun i => al (S j) * (b - a) ^ (2 * (j + 1)) * D j i * / INR N ^ (2 * (i + 1))))) in E.
  2: { intros j Hjl. replace (S j) with (j + 1)%nat by lia.
       rewrite (Rsum_ext _ _ (fun i => al (j + 1)%nat * (b - a) ^ (2 * (j + 1)) * (D j i * / INR N ^ (2 * (i + 1))))) by (intros; ring).
       rewrite Rsum_scal, <- (HD j Hjl N HN). unfold Rdiv. rewrite Rpow_mult_distr, pow_inv. ring. }
  rewrite Rsum_swap in E.
  rewrite (Rsum_ext (n / 2) (fun j => - Rsum (n / 2) (fun j0 => al (S j0) * (b - a) ^ (2 * (j0 + 1)) * D j0 j) / INR (n + 1) * / INR N ^ (2 * (j + 1)))
     (fun i => - / INR (n + 1) * Rsum (n / 2) (fun j => al (S j) * (b - a) ^ (2 * (j + 1)) * D j i * / INR N ^ (2 * (i + 1))))).
  2: { intros i _. rewrite Rsum_scal_r. field. split; [ apply pow_nonzero | ]; assumption. }
  rewrite Rsum_scal. rewrite E. field. assumption.
Qed.

Lemma poly_expands c a b deg : expands (poly c deg) a b (deg / 2) (poly_int c deg a b).
Proof.
  induction deg as [ | deg IH].
  - destruct (monomial_expands a b 0) as (d & Hd). exists (fun j => c 0%nat * d j). intros N HN.
    specialize (Hd N HN).
    rewrite <- (Rmult_1_l (trapezoid (poly c 0) a b N)). 
    replace (trapezoid (poly c 0) a b N) with (c 0%nat * trapezoid (fun x => x ^ 0) a b N).
    + rewrite Hd. simpl. unfold poly_int. simpl. field.
    + rewrite <- trapezoid_scal. unfold trapezoid. f_equal. apply Rsum_ext. intros i _. unfold poly. simpl. lra.
  - pose proof (expands_more _ a b _ (S deg / 2) _ (Nat.div_le_mono deg (S deg) 2 ltac:(lia) ltac:(lia)) IH) as E1.
    pose proof (expands_lin _ _ a b (S deg / 2) _ _ (c (S deg)) E1 (monomial_expands a b (S deg))) as E2.
    destruct E2 as (d & Hd). exists d. intros N HN. specialize (Hd N HN). 
    replace (poly_int c (S deg) a b) with (poly_int c deg a b + c (S deg) * ((b ^ (S deg + 1) - a ^ (S deg + 1)) / INR (S deg + 1))).
    + rewrite <- Hd. reflexivity.
    + unfold poly_int. change (Rsum (S (S deg)) ?g) with (Rsum (S deg) g + g (S deg)). cbv beta. rewrite !(Nat.add_1_r (S deg)). unfold Rdiv; ring.
Qed.

(** ** Richardson extrapolation removes one term per column *)
Lemma romberg_expansion f a b m I (c : nat -> R) :
  (forall i, trapezoid f a b (2 ^ i) = I + Rsum m (fun j => c j * / (4 ^ (j + 1)) ^ i)) ->
  forall k, exists d : nat -> R, (forall j, (j < k)%nat -> d j = 0) /\
    forall i, (k <= i)%nat -> romberg f a b i k = I + Rsum m (fun j => d j * / (4 ^ (j + 1)) ^ i).
Proof.
  intros HT. induction k as [ | k (d & D0 & HD)].
  - exists c. split; [ intros; lia | ]. intros i _. destruct i; apply HT.
  - assert (Q : 4 ^ S k - 1 <> 0).
    { assert (1 <= 4 ^ k) by (apply pow_R1_Rle; lra). simpl. lra. }
    exists (fun j => d j * (4 ^ S k - 4 ^ (j + 1)) / (4 ^ S k - 1)). split.
    + intros j Hj. destruct (Nat.eq_dec j k) as [-> | Hne].
      * replace (k + 1)%nat with (S k) by lia. unfold Rminus at 1. rewrite Rplus_opp_r. unfold Rdiv. ring.
      * rewrite D0 by lia. unfold Rdiv. ring.
    + intros [ | i] Hi; [ lia | ]. rewrite romberg_step. unfold romberg_diff. rewrite !HD by lia.
      rewrite (Rsum_ext m (fun j => d j * (4 ^ S k - 4 ^ (j + 1)) / (4 ^ S k - 1) * / (4 ^ (j + 1)) ^ S i)
        (fun j => / (4 ^ S k - 1) * (4 ^ S k * (d j * / (4 ^ (j + 1)) ^ S i) - d j * / (4 ^ (j + 1)) ^ i))).
      * rewrite Rsum_scal, Rsum_minus, Rsum_scal. field. exact Q.
      * intros j _. assert (P1 : 4 ^ (j + 1) <> 0) by (apply pow_nonzero; lra). assert (P2 : (4 ^ (j + 1)) ^ i <> 0) by (now apply pow_nonzero).
        change ((4 ^ (j + 1)) ^ S i) with (4 ^ (j + 1) * (4 ^ (j + 1)) ^ i). field. repeat split; assumption.
Qed.

Lemma romb_exact c a b deg d : (1 <= d)%nat -> (deg <= 2 * d + 1)%nat ->
  exists err, romb (poly c deg) a b d = Ok (RInt (poly c deg) a b, err).
Proof.
  intros Hd Hdeg. rewrite romb_value by assumption. eexists.
  enough (E : romberg (poly c deg) a b d d = RInt (poly c deg) a b) by (rewrite E; reflexivity). rewrite poly_int_RInt.
  assert (HQ : (deg / 2 <= d)%nat) by (apply Nat.lt_succ_r, Nat.div_lt_upper_bound; lia).
  destruct (expands_more _ a b _ d _ HQ (poly_expands c a b deg)) as (e & He).
  destruct (romberg_expansion (poly c deg) a b d (poly_int c deg a b) e) with (k := d) as (g & G0 & HG).
  - intros i. rewrite He by (pose proof (pow2_pos i); lia). f_equal. apply Rsum_ext. intros j _. f_equal. f_equal.
    rewrite pow_INR. simpl (INR 2). rewrite <- !pow_mult. replace 4 with ((1 + 1) ^ 2) by ring. rewrite <- pow_mult. f_equal. lia.
  - rewrite HG by lia. rewrite Rsum_0_ext; [ ring | ]. intros j Hj. rewrite G0 by assumption. ring.
Qed.
