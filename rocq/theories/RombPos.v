(** * Positivity of the Romberg weights, and what follows: bounds, near-best approximation, convergence *)
From Coquelicot Require Import Coquelicot.
From Verif Require Import Np NpLemmas Integrate IntegrateSpec SimpsProofs SimpsError RombProofs PowerProofs.

(** weight of the new midpoints of level i-m in the entry (i,k) of the Romberg table, relative to the trapezoid rule *)
Fixpoint rw (k m : nat) : R :=
  match k with
  | O => 1
  | S k' => (4 ^ k * rw k' m - 2 * match m with O => 0 | S m' => rw k' m' end) / (4 ^ k - 1)
  end.

Lemma pow4_pos k : 1 <= 4 ^ k.
Proof. apply pow_R1_Rle. lra. Qed.

Lemma rw_1 m : 2 / 3 <= rw 1 m <= 4 / 3.
Proof. destruct m; simpl; lra. Qed.
Lemma rw_bounds k : forall m, 2 / 5 + 13 / 15 * / 4 ^ (S k) <= rw (S k) m <= 3 / 2 - 1 / 2 * / 4 ^ (S k).
Proof.
  induction k as [ | k IH]; intros m.
  - pose proof (rw_1 m). simpl (4 ^ 1). lra.
  - set (q := 4 ^ S k) in *. assert (Hq : 4 <= q) by (unfold q; simpl; pose proof (pow4_pos k); lra).
    change (rw (S (S k)) m) with ((4 * q * rw (S k) m - 2 * match m with O => 0 | S m' => rw (S k) m' end) / (4 * q - 1)).
    change (4 ^ S (S k)) with (4 * q).
    assert (B : 0 <= match m with O => 0 | S m' => rw (S k) m' end <= 3 / 2).
    { destruct m as [ | m']; [ lra | ]. specialize (IH m'). assert (0 < / q) by (apply Rinv_0_lt_compat; lra). lra. }
    specialize (IH m). set (x := rw (S k) m) in *. set (y := match m with O => 0 | S m' => rw (S k) m' end) in *. clearbody x y.
    set (p := / q) in *. assert (Ep : p * q = 1) by (unfold p; field; lra). assert (Pp : 0 < p) by (apply Rinv_0_lt_compat; lra).
    replace (/ (4 * q)) with (p / 4) by (unfold p; field; lra).
    split; apply Rmult_le_reg_r with (4 * q - 1); try lra; replace ((4 * q * x - 2 * y) / (4 * q - 1) * (4 * q - 1)) with (4 * q * x - 2 * y) by (field; lra).
    + assert (q * (2 / 5 + 13 / 15 * p) <= q * x) by (apply Rmult_le_compat_l; lra).
      assert (q * (2 / 5 + 13 / 15 * p) = 2 / 5 * q + 13 / 15 * (p * q)) by ring.
      replace ((2 / 5 + 13 / 15 * (p / 4)) * (4 * q - 1)) with (8 / 5 * q + 13 / 15 * (p * q) - 2 / 5 - 13 / 60 * p) by field. lra.
    + assert (q * x <= q * (3 / 2 - 1 / 2 * p)) by (apply Rmult_le_compat_l; lra).
      assert (q * (3 / 2 - 1 / 2 * p) = 3 / 2 * q - 1 / 2 * (p * q)) by ring.
      replace ((3 / 2 - 1 / 2 * (p / 4)) * (4 * q - 1)) with (6 * q - 1 / 2 * (p * q) - 3 / 2 + 1 / 8 * p) by field. lra.
Qed.
Lemma rw_range k m : 2 / 5 <= rw k m <= 3 / 2.
Proof.
  destruct k as [ | k]; [ simpl; lra | ]. pose proof (rw_bounds k m). assert (0 < / 4 ^ S k) by (apply Rinv_0_lt_compat; pose proof (pow4_pos (S k)); lra). lra.
Qed.

(** contribution of the points added at level l *)
Definition new_points (f : R -> R) (a b : R) (l : nat) : R :=
  match l with
  | O => trapezoid f a b 1
  | S l' => trapezoid f a b (2 ^ S l') - trapezoid f a b (2 ^ l') / 2
  end.

Lemma romberg_weights f a b k : forall i, (k <= i)%nat ->
  romberg f a b i k = Rsum (S i) (fun l => new_points f a b l * / 2 ^ (i - l) * rw k (i - l)).
Proof.
  assert (Half : forall i l, (l < S i)%nat -> / 2 ^ (S i - l) = / 2 ^ (i - l) / 2).
  { intros i l Hl. replace (S i - l)%nat with (S (i - l)) by lia. simpl. field. apply pow_nonzero. lra. }
  induction k as [ | k IH].
  - intros i _. replace (romberg f a b i 0) with (trapezoid f a b (2 ^ i)) by (destruct i; reflexivity).
    induction i as [ | i IHi].
    + simpl. change (2 ^ 0)%nat with 1%nat. lra.
    + change (Rsum (S (S i)) ?g) with (Rsum (S i) g + g (S i)). cbv beta.
      rewrite (Rsum_ext (S i) _ (fun l => new_points f a b l * / 2 ^ (i - l) * rw 0 (i - l) * / 2)).
      * rewrite Rsum_scal_r, <- IHi. rewrite Nat.sub_diag. simpl (rw 0 0). simpl (2 ^ 0). unfold new_points. lra.
      * intros l Hl. rewrite Half by exact Hl. simpl (rw 0 _). field. apply pow_nonzero. lra.
  - intros [ | i] Hi; [ lia | ]. rewrite romberg_step. unfold romberg_diff. rewrite !IH by lia.
    change (Rsum (S (S i)) ?g) with (Rsum (S i) g + g (S i)). cbv beta. rewrite !Nat.sub_diag.
    assert (Q : 4 ^ S k - 1 <> 0) by (simpl; pose proof (pow4_pos k); lra).
    rewrite (Rsum_ext (S i) (fun l => new_points f a b l * / 2 ^ (S i - l) * rw (S k) (S i - l))
      (fun l => (4 ^ S k * (new_points f a b l * / 2 ^ (S i - l) * rw k (S i - l)) - new_points f a b l * / 2 ^ (i - l) * rw k (i - l)) * / (4 ^ S k - 1))).
    + rewrite Rsum_scal_r, Rsum_minus, Rsum_scal. change (rw (S k) 0) with ((4 ^ S k * rw k 0 - 2 * 0) / (4 ^ S k - 1)). simpl (2 ^ 0). field. exact Q.
    + intros l Hl. rewrite Half by exact Hl. replace (S i - l)%nat with (S (i - l)) by lia.
      change (rw (S k) (S (i - l))) with ((4 ^ S k * rw k (S (i - l)) - 2 * rw k (i - l)) / (4 ^ S k - 1)). field. split; [ exact Q | apply pow_nonzero; lra ].
Qed.
Lemma trapezoid_weights f a b i : trapezoid f a b (2 ^ i) = Rsum (S i) (fun l => new_points f a b l * / 2 ^ (i - l)).
Proof.
  replace (trapezoid f a b (2 ^ i)) with (romberg f a b i 0) by (destruct i; reflexivity).
  rewrite romberg_weights by lia. apply Rsum_ext. intros l _. simpl. lra.
Qed.

Lemma new_points_nonneg f a b l : a <= b -> (forall x, a <= x <= b -> 0 <= f x) -> 0 <= new_points f a b l.
Proof.
  intros Hab Hf. destruct l as [ | l].
  - unfold new_points. rewrite trapezoid_1. pose proof (Hf a ltac:(lra)). pose proof (Hf b ltac:(lra)). nra.
  - destruct (midpoints f a b l) as (M & E & P). unfold new_points. rewrite E. specialize (P Hab Hf). lra.
Qed.

(** for a non-negative integrand the Romberg value stays within a constant factor of the trapezoid value *)
Lemma romberg_trapezoid f a b i k : (k <= i)%nat -> a <= b -> (forall x, a <= x <= b -> 0 <= f x) ->
  2 / 5 * trapezoid f a b (2 ^ i) <= romberg f a b i k <= 3 / 2 * trapezoid f a b (2 ^ i).
Proof.
  intros Hk Hab Hf. rewrite romberg_weights by exact Hk. rewrite trapezoid_weights, <- !Rsum_scal.
  split; apply Rsum_le; intros l _; pose proof (new_points_nonneg f a b l Hab Hf); pose proof (rw_range k (i - l));
    assert (0 < / 2 ^ (i - l)) by (apply Rinv_0_lt_compat, pow_lt; lra);
    assert (0 <= new_points f a b l * / 2 ^ (i - l)) by (apply Rmult_le_pos; lra); nra.
Qed.
Lemma trapezoid_nonneg f a b n : (1 <= n)%nat -> a <= b -> (forall x, a <= x <= b -> 0 <= f x) -> 0 <= trapezoid f a b n.
Proof.
  intros Hn Hab Hf. unfold trapezoid. assert (0 < INR n) by (apply lt_0_INR; lia).
  apply Rmult_le_pos; [ apply Rmult_le_pos; [ lra | left; now apply Rinv_0_lt_compat ] | ].
  apply Rsum_nonneg. intros i Hi.
  pose proof (Hf _ (node_range a b n i Hab ltac:(lia) Hn)). pose proof (Hf _ (node_range a b n (i + 1) Hab ltac:(lia) Hn)). lra.
Qed.
Lemma romberg_nonneg f a b i k : (k <= i)%nat -> a <= b -> (forall x, a <= x <= b -> 0 <= f x) -> 0 <= romberg f a b i k.
Proof.
  intros Hk Hab Hf. pose proof (romberg_trapezoid f a b i k Hk Hab Hf). pose proof (trapezoid_nonneg f a b (2 ^ i) (pow2_pos i) Hab Hf). lra.
Qed.
Lemma trapezoid_pos f a b n j : (1 <= n)%nat -> a < b -> (forall x, a <= x <= b -> 0 <= f x) -> (j <= n)%nat -> 0 < f (node a b n j) -> 0 < trapezoid f a b n.
Proof.
  intros Hn Hab Hf Hj P. unfold trapezoid. assert (0 < INR n) by (apply lt_0_INR; lia).
  apply Rmult_lt_0_compat; [ apply Rmult_lt_0_compat; [ lra | now apply Rinv_0_lt_compat ] | ].
  assert (G : forall i, (i < n)%nat -> 0 <= (f (node a b n i) + f (node a b n (i + 1))) / 2).
  { intros i Hi. pose proof (Hf _ (node_range a b n i ltac:(lra) ltac:(lia) Hn)). pose proof (Hf _ (node_range a b n (i + 1) ltac:(lra) ltac:(lia) Hn)). lra. }
  assert (K : exists i, (i < n)%nat /\ 0 < (f (node a b n i) + f (node a b n (i + 1))) / 2).
  { destruct (Nat.eq_dec j n) as [-> | Hjn].
    - exists (n - 1)%nat. split; [ lia | ]. replace (n - 1 + 1)%nat with n by lia.
      pose proof (Hf _ (node_range a b n (n - 1) ltac:(lra) ltac:(lia) Hn)). lra.
    - exists j. split; [ lia | ]. pose proof (Hf _ (node_range a b n (j + 1) ltac:(lra) ltac:(lia) Hn)). lra. }
  destruct K as (i & Hi & Ki).
  apply Rlt_le_trans with (Rsum n (fun q => if Nat.eqb q i then (f (node a b n q) + f (node a b n (q + 1))) / 2 else 0)).
  - rewrite (Rsum_delta n i (fun q => (f (node a b n q) + f (node a b n (q + 1))) / 2) Hi). exact Ki.
  - apply Rsum_le. intros q Hq. destruct (Nat.eqb q i); [ lra | now apply G ].
Qed.

(** linearity *)
Lemma romberg_lin f g a b c i k : romberg (fun x => f x + c * g x) a b i k = romberg f a b i k + c * romberg g a b i k.
Proof.
  assert (T : forall n, trapezoid (fun x => f x + c * g x) a b n = trapezoid f a b n + c * trapezoid g a b n).
  { intros n. rewrite (trapezoid_plus f (fun x => c * g x)), trapezoid_scal. reflexivity. }
  revert i. induction k as [ | k IH]; intros i.
  - destruct i; apply T.
  - destruct i; simpl; [ apply T | ]. rewrite !IH. unfold Rdiv. ring.
Qed.
Lemma romberg_const' q a b i k : romberg (fun _ => q) a b i k = (b - a) * q.
Proof. apply romberg_const. Qed.
Lemma romberg_mono f g a b i k : (k <= i)%nat -> a <= b -> (forall x, a <= x <= b -> f x <= g x) -> romberg f a b i k <= romberg g a b i k.
Proof.
  intros Hk Hab H. pose proof (romberg_nonneg (fun x => g x + (-1) * f x) a b i k Hk Hab) as P. rewrite romberg_lin in P.
  assert (0 <= romberg g a b i k + -1 * romberg f a b i k) by (apply P; intros x Hx; specialize (H x Hx); lra). lra.
Qed.
Lemma romberg_bound f a b i k m M : (k <= i)%nat -> a <= b -> (forall x, a <= x <= b -> m <= f x <= M) ->
  (b - a) * m <= romberg f a b i k <= (b - a) * M.
Proof.
  intros Hk Hab H. rewrite <- (romberg_const m a b i k), <- (romberg_const M a b i k).
  split; apply romberg_mono; try assumption; intros x Hx; apply H, Hx.
Qed.
Lemma romberg_abs f a b i k e : (k <= i)%nat -> a <= b -> (forall x, a <= x <= b -> Rabs (f x) <= e) -> Rabs (romberg f a b i k) <= (b - a) * e.
Proof.
  intros Hk Hab H. apply Rabs_le. destruct (romberg_bound f a b i k (- e) e Hk Hab) as [L U].
  - intros x Hx. apply Rabs_le_between, H, Hx.
  - lra.
Qed.

(** a polynomial close to f certifies the result *)
Lemma romberg_near f p q a b i k e : (k <= i)%nat -> a <= b -> (forall x, a <= x <= b -> Rabs (f x - p x) <= e) ->
  romberg p a b i k = q -> Rabs (romberg f a b i k - q) <= (b - a) * e.
Proof.
  intros Hk Hab H <-. replace (romberg f a b i k - romberg p a b i k) with (romberg (fun x => f x + (-1) * p x) a b i k) by (rewrite romberg_lin; ring).
  apply romberg_abs; try assumption. intros x Hx. replace (f x + -1 * p x) with (f x - p x) by ring. now apply H.
Qed.
Lemma poly_continuous c d x : continuous (poly c d) x.
Proof.
  unfold poly. apply (ex_derive_continuous (fun x => Rsum (S d) (fun k => c k * x ^ k))). eexists.
  apply (is_derive_Rsum (S d) (fun k x => c k * x ^ k) (fun k => c k * (INR k * x ^ (k - 1)))).
  intros k _. apply (is_derive_scal (fun x => x ^ k)), is_derive_pow'.
Qed.
Lemma ex_RInt_on (f : R -> R) a b : a <= b -> (forall x, a <= x <= b -> continuous f x) -> ex_RInt f a b.
Proof.
  intros Hab Hf. apply (ex_RInt_continuous (V := R_CompleteNormedModule)). intros x Hx. rewrite Rmin_left, Rmax_right in Hx by assumption. now apply Hf.
Qed.
Lemma RInt_near (f p : R -> R) a b e : a <= b -> (forall x, a <= x <= b -> continuous f x) -> (forall x, continuous p x) ->
  (forall x, a <= x <= b -> Rabs (f x - p x) <= e) -> Rabs (RInt f a b - RInt p a b) <= (b - a) * e.
Proof.
  intros Hab Hf Hp He. assert (I1 := ex_RInt_on f a b Hab Hf). assert (I2 := ex_RInt_on p a b Hab (fun x _ => Hp x)).
  assert (E : RInt (fun x => f x - p x) a b = RInt f a b - RInt p a b) by (apply (RInt_minus (V := R_CompleteNormedModule)); assumption).
  rewrite <- E. apply (norm_RInt_le_const (V := R_NormedModule) (fun x => f x - p x) a b); [ assumption | exact He | ].
  apply (RInt_correct (V := R_CompleteNormedModule)). apply (ex_RInt_minus (V := R_NormedModule)); assumption.
Qed.
Lemma romberg_near_best f c deg a b d e : (1 <= d)%nat -> (deg <= 2 * d + 1)%nat -> a <= b -> (forall x, a <= x <= b -> continuous f x) ->
  (forall x, a <= x <= b -> Rabs (f x - poly c deg x) <= e) -> Rabs (romberg f a b d d - RInt f a b) <= 2 * (b - a) * e.
Proof.
  intros Hd Hdeg Hab Hf He.
  assert (E : romberg (poly c deg) a b d d = RInt (poly c deg) a b).
  { pose proof (romb_value (poly c deg) a b d Hd) as V. destruct (romb_exact c a b deg d Hd Hdeg) as (err & X). rewrite V in X. injection X. trivial. }
  pose proof (romberg_near f (poly c deg) _ a b d d e ltac:(lia) Hab He E) as H1.
  pose proof (RInt_near f (poly c deg) a b e Hab Hf (poly_continuous c deg) He) as H2.
  replace (romberg f a b d d - RInt f a b) with ((romberg f a b d d - RInt (poly c deg) a b) - (RInt f a b - RInt (poly c deg) a b)) by ring.
  eapply Rle_trans; [ apply Rabs_triang | ]. rewrite Rabs_Ropp. lra.
Qed.

(** ** Convergence for continuous integrands *)
Lemma cell_osc f F l r w e : l <= r -> (forall x, l <= x <= r -> is_derive F x (f x)) -> (forall x, l <= x <= r -> Rabs (f x - w) <= e) ->
  Rabs ((r - l) * w - (F r - F l)) <= (r - l) * e.
Proof.
  intros Hlr HF He. destruct (Req_dec l r) as [-> | Hne].
  - replace ((r - r) * w - (F r - F r)) with 0 by ring. rewrite Rabs_R0. lra.
  - destruct (MVT_cor2 F f l r ltac:(lra)) as (c & E & Hc). { intros x Hx. apply is_derive_Reals, HF; lra. }
    rewrite E. replace ((r - l) * w - f c * (r - l)) with ((r - l) * - (f c - w)) by ring.
    rewrite Rabs_mult, Rabs_Ropp, (Rabs_right (r - l)) by lra. apply Rmult_le_compat_l; [ lra | apply He; lra ].
Qed.
Lemma trapezoid_osc f a b n e : (1 <= n)%nat -> a <= b -> (forall x, a <= x <= b -> continuous f x) ->
  (forall x y, a <= x <= b -> a <= y <= b -> Rabs (x - y) <= (b - a) / INR n -> Rabs (f x - f y) <= e) ->
  Rabs (trapezoid f a b n - RInt f a b) <= (b - a) * e.
Proof.
  intros Hn Hab Hf He. destruct (antiderivative_exists f a b Hab Hf) as (F & HF & ->).
  assert (Hnp : 0 < INR n) by (apply lt_0_INR; lia).
  set (h := (b - a) / INR n) in *. assert (Hh : 0 <= h) by (apply Rmult_le_pos; [ lra | left; now apply Rinv_0_lt_compat ]).
  assert (En : node a b n n = b) by (apply node_N; lia).
  replace (F b - F a) with (Rsum n (fun i => F (node a b n (S i)) - F (node a b n i))).
  2: { rewrite (Rsum_telescope n (fun i => F (node a b n i))), En, node_0. reflexivity. }
  unfold trapezoid. fold h. rewrite <- Rsum_scal, <- Rsum_minus. eapply Rle_trans; [ apply Rsum_abs | ].
  replace ((b - a) * e) with (Rsum n (fun _ => h * e)) by (rewrite Rsum_const; unfold h; field; lra).
  apply Rsum_le. intros i Hi.
  assert (Es : node a b n (S i) = node a b n i + h) by (unfold node; fold h; rewrite S_INR; ring).
  pose proof (node_range a b n i Hab ltac:(lia) Hn) as R1. pose proof (node_range a b n (S i) Hab ltac:(lia) Hn) as R2.
  replace h with (node a b n (S i) - node a b n i) by lra. rewrite Nat.add_1_r.
  apply (cell_osc f); [ lra | intros x Hx; apply HF; lra | ]. intros x Hx.
  assert (A1 : Rabs (f x - f (node a b n i)) <= e) by (apply He; try lra; rewrite Rabs_right; lra).
  assert (A2 : Rabs (f x - f (node a b n (S i))) <= e) by (apply He; try lra; rewrite Rabs_left1; lra).
  apply Rabs_le_between in A1. apply Rabs_le_between in A2. apply Rabs_le. lra.
Qed.
Lemma simpson_osc f a b n e : (1 <= n)%nat -> a <= b -> (forall x, a <= x <= b -> continuous f x) ->
  (forall x y, a <= x <= b -> a <= y <= b -> Rabs (x - y) <= (b - a) / INR n -> Rabs (f x - f y) <= e) ->
  Rabs (simpson f a b (2 * n) - RInt f a b) <= (b - a) * e.
Proof.
  intros Hn Hab Hf He. destruct (antiderivative_exists f a b Hab Hf) as (F & HF & ->).
  assert (Hnp : 0 < INR n) by (apply lt_0_INR; lia). assert (E2 : INR (2 * n) = 2 * INR n) by (rewrite mult_INR; reflexivity).
  set (h := (b - a) / INR n) in *. assert (Hh : 0 <= h) by (apply Rmult_le_pos; [ lra | left; now apply Rinv_0_lt_compat ]).
  set (N := (2 * n)%nat) in *.
  assert (En : node a b N (2 * n) = b) by (apply node_N; unfold N; lia).
  replace (F b - F a) with (Rsum n (fun i => F (node a b N (2 * S i)) - F (node a b N (2 * i)))).
  2: { rewrite (Rsum_telescope n (fun i => F (node a b N (2 * i)))), En. change (2 * 0)%nat with 0%nat. rewrite node_0. reflexivity. }
  unfold simpson. replace (N / 2)%nat with n by (unfold N; rewrite Nat.mul_comm, Nat.div_mul; lia).
  rewrite <- Rsum_scal, <- Rsum_minus. eapply Rle_trans; [ apply Rsum_abs | ].
  replace ((b - a) * e) with (Rsum n (fun _ => h * e)) by (rewrite Rsum_const; unfold h; field; lra).
  apply Rsum_le. intros i Hi. replace (2 * S i)%nat with (2 * i + 2)%nat by lia.
  assert (Es : node a b N (2 * i + 2) = node a b N (2 * i) + h).
  { unfold node, h. rewrite E2, plus_INR. simpl (INR 2). field. lra. }
  assert (Em : node a b N (2 * i + 1) = node a b N (2 * i) + h / 2).
  { unfold node, h. rewrite E2, plus_INR. simpl (INR 1). field. lra. }
  pose proof (node_range a b N (2 * i) Hab ltac:(unfold N; lia) ltac:(unfold N; lia)) as R1. pose proof (node_range a b N (2 * i + 2) Hab ltac:(unfold N; lia) ltac:(unfold N; lia)) as R2.
  set (l := node a b N (2 * i)) in *. set (r := node a b N (2 * i + 2)) in *. set (m := node a b N (2 * i + 1)) in *.
  replace ((b - a) / INR N / 3 * (f l + 4 * f m + f r)) with ((r - l) * ((f l + 4 * f m + f r) / 6)) by (rewrite Es, E2; unfold h; field; lra).
  replace h with (r - l) by lra.
  apply (cell_osc f); [ lra | intros x Hx; apply HF; lra | ]. intros x Hx.
  assert (A1 : Rabs (f x - f l) <= e) by (apply He; try lra; rewrite Rabs_right; lra).
  assert (A2 : Rabs (f x - f r) <= e) by (apply He; try lra; rewrite Rabs_left1; lra).
  assert (A3 : Rabs (f x - f m) <= e) by (apply He; try lra; apply Rabs_le; lra).
  apply Rabs_le_between in A1. apply Rabs_le_between in A2. apply Rabs_le_between in A3. apply Rabs_le. lra.
Qed.

Lemma osc_small (f : R -> R) a b e : a <= b -> (forall x, a <= x <= b -> continuous f x) -> 0 < e ->
  exists n0, forall n, (1 <= n)%nat -> (n0 <= n)%nat ->
    forall x y, a <= x <= b -> a <= y <= b -> Rabs (x - y) <= (b - a) / INR n -> Rabs (f x - f y) <= e.
Proof.
  intros Hab Hf He.
  destruct (Heine f (fun x => a <= x <= b) (compact_P3 a b)) with (eps := mkposreal e He) as (de & Hde).
  { intros x Hx. apply continuity_pt_filterlim. apply Hf, Hx. }
  destruct (archimed_cor1 (de / (b - a + 1))) as (n0 & Hn0 & Pn0).
  { apply Rdiv_lt_0_compat; [ apply cond_pos | lra ]. }
  exists n0. intros n Hn Hle x y Hx Hy Hxy. left. apply Hde; [ exact Hx | exact Hy | ].
  eapply Rle_lt_trans; [ exact Hxy | ]. assert (0 < INR n0) by (apply lt_0_INR; lia). assert (INR n0 <= INR n) by (apply le_INR; lia).
  assert (I : / INR n <= / INR n0) by (apply Rinv_le_contravar; lra). pose proof (cond_pos de).
  apply Rle_lt_trans with ((b - a) * / INR n0); [ apply Rmult_le_compat_l; lra | ].
  apply Rle_lt_trans with ((b - a + 1) * / INR n0). { apply Rmult_le_compat_r; [ left; now apply Rinv_0_lt_compat | lra ]. }
  replace (pos de) with ((b - a + 1) * (de / (b - a + 1))) by (field; lra). apply Rmult_lt_compat_l; [ lra | exact Hn0 ].
Qed.

Lemma trapezoid_cv f a b e : a <= b -> (forall x, a <= x <= b -> continuous f x) -> 0 < e ->
  exists n0, forall n, (1 <= n)%nat -> (n0 <= n)%nat -> Rabs (trapezoid f a b n - RInt f a b) <= e.
Proof.
  intros Hab Hf He. destruct (osc_small f a b (e / (b - a + 1)) Hab Hf) as (n0 & H0). { apply Rdiv_lt_0_compat; lra. }
  exists n0. intros n Hn Hle. eapply Rle_trans; [ apply (trapezoid_osc f a b n _ Hn Hab Hf (H0 n Hn Hle)) | ].
  assert (0 < e / (b - a + 1)) by (apply Rdiv_lt_0_compat; lra).
  apply Rle_trans with ((b - a + 1) * (e / (b - a + 1))); [ nra | apply Req_le; field; lra ].
Qed.
Lemma simpson_cv f a b e : a <= b -> (forall x, a <= x <= b -> continuous f x) -> 0 < e ->
  exists n0, forall N, (2 <= N)%nat -> Nat.even N = true -> (n0 <= N)%nat -> Rabs (simpson f a b N - RInt f a b) <= e.
Proof.
  intros Hab Hf He. destruct (osc_small f a b (e / (b - a + 1)) Hab Hf) as (n0 & H0). { apply Rdiv_lt_0_compat; lra. }
  exists (2 * n0)%nat. intros N HN Ev Hle. destruct (even_half N Ev) as (n & ->).
  eapply Rle_trans; [ apply (simpson_osc f a b n _ ltac:(lia) Hab Hf (H0 n ltac:(lia) ltac:(lia))) | ].
  assert (0 < e / (b - a + 1)) by (apply Rdiv_lt_0_compat; lra).
  apply Rle_trans with ((b - a + 1) * (e / (b - a + 1))); [ nra | apply Req_le; field; lra ].
Qed.

(** Romberg inherits the convergence of its first column *)
Section Inherit.
  Variables (f : R -> R) (a b I : R).
  Let e i := Rabs (trapezoid f a b (2 ^ i) - I).
  Fixpoint decayed (i : nat) : R := match i with O => e 0 | S i' => e i + decayed i' / 2 end.
  Lemma decayed_nonneg i : 0 <= decayed i.
  Proof. induction i as [ | i IH]; simpl; [ apply Rabs_pos | ]. pose proof (Rabs_pos (trapezoid f a b (2 ^ S i) - I)). unfold e. simpl in *. lra. Qed.
  Lemma decayed_S i : decayed i <= 2 * decayed (S i).
  Proof. change (decayed (S i)) with (e (S i) + decayed i / 2). pose proof (Rabs_pos (trapezoid f a b (2 ^ S i) - I)). unfold e in *. lra. Qed.

  Lemma romberg_decayed : forall k i, (k <= i)%nat ->
    Rabs (romberg f a b i k - I) <= match k with O => 1 | _ => 3 - 4 * / 4 ^ k end * decayed i.
  Proof.
    assert (Step : forall k i A, (k <= i)%nat -> 0 <= A -> Rabs (romberg f a b i k - I) <= A * decayed i -> Rabs (romberg f a b (S i) k - I) <= A * decayed (S i) ->
      Rabs (romberg f a b (S i) (S k) - I) <= A * ((4 ^ S k + 2) / (4 ^ S k - 1)) * decayed (S i)).
    { intros k i A Hk HA H0 H1. rewrite romberg_step. unfold romberg_diff.
      set (q := 4 ^ S k). assert (Hq : 4 <= q) by (unfold q; simpl; pose proof (pow4_pos k); lra).
      replace ((q * romberg f a b (S i) k - romberg f a b i k) / (q - 1) - I) with ((q * (romberg f a b (S i) k - I) - (romberg f a b i k - I)) * / (q - 1)) by (field; lra).
      replace (A * ((q + 2) / (q - 1)) * decayed (S i)) with ((q * (A * decayed (S i)) + A * (2 * decayed (S i))) * / (q - 1)) by (field; lra).
      rewrite Rabs_mult, (Rabs_right (/ (q - 1))) by (left; apply Rinv_0_lt_compat; lra).
      apply Rmult_le_compat_r; [ left; apply Rinv_0_lt_compat; lra | ].
      eapply Rle_trans; [ apply Rabs_triang | ]. rewrite Rabs_Ropp, Rabs_mult, (Rabs_right q) by lra.
      pose proof (decayed_S i). apply Rplus_le_compat; [ apply Rmult_le_compat_l; lra | eapply Rle_trans; [ exact H0 | apply Rmult_le_compat_l; lra ] ]. }
    intros k. induction k as [ | k IH]; intros i Hi.
    - replace (romberg f a b i 0) with (trapezoid f a b (2 ^ i)) by (destruct i; reflexivity).
      destruct i as [ | i]; simpl decayed; fold (e 0); [ unfold e; simpl; lra | ]. pose proof (decayed_nonneg i). unfold e. simpl in *. lra.
    - destruct i as [ | i]; [ lia | ].
      destruct k as [ | k].
      + eapply Rle_trans; [ apply (Step 0%nat i 1); [ lia | lra | apply IH; lia | apply IH; lia ] | ].
        pose proof (decayed_nonneg (S i)). simpl (4 ^ 1). lra.
      + assert (Hq : 4 <= 4 ^ S k) by (simpl; pose proof (pow4_pos k); lra).
        assert (Hp : 0 < / 4 ^ S k <= / 4) by (split; [ apply Rinv_0_lt_compat; lra | apply Rinv_le_contravar; lra ]).
        eapply Rle_trans; [ apply (Step (S k) i (3 - 4 * / 4 ^ S k)); [ lia | lra | apply IH; lia | apply IH; lia ] | ].
        apply Rmult_le_compat_r; [ apply decayed_nonneg | ].
        change (4 ^ S (S k)) with (4 * 4 ^ S k). set (q := 4 ^ S k) in *. set (p := / q) in *.
        assert (Ep : p * q = 1) by (unfold p; field; lra).
        replace (/ (4 * q)) with (p / 4) by (unfold p; field; lra).
        apply Rmult_le_reg_r with (4 * q - 1); [ lra | ].
        replace ((3 - 4 * p) * ((4 * q + 2) / (4 * q - 1)) * (4 * q - 1)) with (12 * q + 6 - 16 * (p * q) - 8 * p) by (field; lra).
        replace ((3 - 4 * (p / 4)) * (4 * q - 1)) with (12 * q - 3 - 4 * (p * q) + p) by field. lra.
  Qed.
  Lemma decayed_cv B : (forall i, e i <= B) -> (forall eps, 0 < eps -> exists n, forall i, (n <= i)%nat -> e i <= eps) ->
    forall eps, 0 < eps -> exists n, forall i, (n <= i)%nat -> decayed i <= eps.
  Proof.
    intros HB Hc eps Heps. destruct (Hc (eps / 4) ltac:(lra)) as (n & Hn).
    assert (HB0 : 0 <= B) by (pose proof (HB 0%nat); pose proof (Rabs_pos (trapezoid f a b (2 ^ 0) - I)); unfold e in *; lra).
    assert (U : forall i, decayed i <= 2 * B).
    { induction i as [ | i IH]; simpl decayed; fold (e 0); [ pose proof (HB 0%nat); unfold e in *; simpl in *; lra | ].
      pose proof (HB (S i)). unfold e in *. simpl in *. lra. }
    assert (V : forall m, decayed (n + m) <= eps / 2 + 2 * B * (/ 2) ^ m).
    { induction m as [ | m IHm].
      - rewrite Nat.add_0_r. pose proof (U n). simpl pow. lra.
      - rewrite Nat.add_succ_r. change (decayed (S (n + m))) with (e (S (n + m)) + decayed (n + m) / 2).
        specialize (Hn (S (n + m)) ltac:(lia)). change ((/ 2) ^ S m) with (/ 2 * (/ 2) ^ m). lra. }
    destruct (pow_lt_1_zero (/ 2) ltac:(rewrite Rabs_right; lra) (eps / (4 * (B + 1)))) as (m0 & Hm0).
    { apply Rdiv_lt_0_compat; lra. }
    exists (n + m0)%nat. intros i Hi. replace i with (n + (i - n))%nat by lia.
    eapply Rle_trans; [ apply V | ]. specialize (Hm0 (i - n)%nat ltac:(lia)).
    assert (P : 0 <= (/ 2) ^ (i - n)) by (apply pow_le; lra). rewrite Rabs_right in Hm0 by lra.
    assert (2 * B * (/ 2) ^ (i - n) <= 2 * (B + 1) * (eps / (4 * (B + 1)))) by (apply Rmult_le_compat; lra).
    replace (2 * (B + 1) * (eps / (4 * (B + 1)))) with (eps / 2) in H by (field; lra). lra.
  Qed.
End Inherit.

Lemma romberg_cv f a b eps : a <= b -> (forall x, a <= x <= b -> continuous f x) -> 0 < eps ->
  exists n, forall d, (n <= d)%nat -> Rabs (romberg f a b d d - RInt f a b) <= eps.
Proof.
  intros Hab Hf He.
  assert (C : forall e, 0 < e -> exists n, forall i, (n <= i)%nat -> Rabs (trapezoid f a b (2 ^ i) - RInt f a b) <= e).
  { intros e Pe. destruct (trapezoid_cv f a b e Hab Hf Pe) as (n0 & H0). exists n0. intros i Hi. apply H0; [ apply pow2_pos | ].
    pose proof (Nat.pow_gt_lin_r 2 i ltac:(lia)). lia. }
  assert (B : exists B, forall i, Rabs (trapezoid f a b (2 ^ i) - RInt f a b) <= B).
  { destruct (C 1 ltac:(lra)) as (n & Hn). clear - Hn.
    assert (X : forall m, exists B, 1 <= B /\ forall i, (i < m)%nat -> Rabs (trapezoid f a b (2 ^ i) - RInt f a b) <= B).
    { induction m as [ | m (B & B1 & HB)]; [ exists 1; split; [ lra | intros; lia ] | ].
      exists (Rmax B (Rabs (trapezoid f a b (2 ^ m) - RInt f a b))). split; [ eapply Rle_trans; [ exact B1 | apply Rmax_l ] | ].
      intros i Hi. destruct (Nat.eq_dec i m) as [-> | Hne]; [ apply Rmax_r | ]. eapply Rle_trans; [ apply HB; lia | apply Rmax_l ]. }
    destruct (X n) as (B & B1 & HB). exists B. intros i. destruct (le_lt_dec n i) as [Hi | Hi]; [ specialize (Hn i Hi); lra | now apply HB ]. }
  destruct B as (B & HB).
  destruct (decayed_cv f a b (RInt f a b) B HB C (eps / 3) ltac:(lra)) as (n & Hn).
  exists n. intros d Hd. eapply Rle_trans; [ apply romberg_decayed; lia | ].
  specialize (Hn d Hd). pose proof (decayed_nonneg f a b (RInt f a b) d).
  destruct d as [ | d]; [ lra | ]. assert (0 < / 4 ^ S d) by (apply Rinv_0_lt_compat; pose proof (pow4_pos (S d)); lra). nra.
Qed.

(** ** In terms of the functions of integrate.py *)
Lemma romb_bounds f a b d m M : (1 <= d)%nat -> a <= b -> (forall x, a <= x <= b -> m <= f x <= M) ->
  exists v err, romb f a b d = Ok (v, err) /\ (b - a) * m <= v <= (b - a) * M.
Proof. intros Hd Hab H. do 2 eexists. split; [ now apply romb_value | ]. apply romberg_bound; [ lia | assumption | assumption ]. Qed.
Lemma romb_monotone f g a b d : (1 <= d)%nat -> a <= b -> (forall x, a <= x <= b -> f x <= g x) ->
  exists u v eu ev, romb f a b d = Ok (u, eu) /\ romb g a b d = Ok (v, ev) /\ u <= v.
Proof. intros Hd Hab H. do 4 eexists. split; [ now apply romb_value | split; [ now apply romb_value | ] ]. apply romberg_mono; [ lia | assumption | assumption ]. Qed.
Lemma romb_vs_trapezoid f a b d : (1 <= d)%nat -> a <= b -> (forall x, a <= x <= b -> 0 <= f x) ->
  exists v err, romb f a b d = Ok (v, err) /\ 2 / 5 * trapezoid f a b (2 ^ d) <= v <= 3 / 2 * trapezoid f a b (2 ^ d).
Proof. intros Hd Hab H. do 2 eexists. split; [ now apply romb_value | ]. apply romberg_trapezoid; [ lia | assumption | assumption ]. Qed.
Lemma romb_near_best f c deg a b d e : (1 <= d)%nat -> (deg <= 2 * d + 1)%nat -> a <= b -> (forall x, a <= x <= b -> continuous f x) ->
  (forall x, a <= x <= b -> Rabs (f x - poly c deg x) <= e) ->
  exists v err, romb f a b d = Ok (v, err) /\ Rabs (v - RInt f a b) <= 2 * (b - a) * e.
Proof. intros Hd Hdeg Hab Hf He. do 2 eexists. split; [ now apply romb_value | ]. now apply romberg_near_best with c deg. Qed.
Lemma simps_converges (f : R -> R) a b eps : a <= b -> (forall x, a <= x <= b -> continuous f x) -> 0 < eps ->
  exists n0, forall N, (2 <= N)%nat -> Nat.even N = true -> (n0 <= N)%nat ->
    exists v, simps f a b N = Ok v /\ Rabs (v - RInt f a b) <= eps.
Proof.
  intros Hab Hf He. destruct (simpson_cv f a b eps Hab Hf He) as (n0 & H). exists n0. intros N HN Ev Hn.
  eexists. split; [ now apply simps_eq | now apply H ].
Qed.
Lemma romb_converges (f : R -> R) a b eps : a <= b -> (forall x, a <= x <= b -> continuous f x) -> 0 < eps ->
  exists n0, forall d, (1 <= d)%nat -> (n0 <= d)%nat -> exists v err, romb f a b d = Ok (v, err) /\ Rabs (v - RInt f a b) <= eps.
Proof.
  intros Hab Hf He. destruct (romberg_cv f a b eps Hab Hf He) as (n0 & H). exists n0. intros d Hd Hn.
  do 2 eexists. split; [ now apply romb_value | now apply H ].
Qed.

(** the tent function: continuous, not differentiable *)
Lemma tent_bounds x : 0 <= x <= 1 -> 0 <= Rabs (x - 1 / 2) <= 1 / 2.
Proof. intros Hx. split; [ apply Rabs_pos | apply Rabs_le; lra ]. Qed.
Lemma tent_continuous x : continuous (fun x => Rabs (x - 1 / 2)) x.
Proof. apply (continuous_comp (fun y => y - 1 / 2) Rabs); [ apply (ex_derive_continuous (fun y => y - 1 / 2)); now auto_derive | apply continuous_Rabs ]. Qed.
Lemma tent_near x : 0 <= x <= 1 -> Rabs (Rabs (x - 1 / 2) - poly (fun _ => 1 / 4) 0 x) <= 1 / 4.
Proof. intros Hx. pose proof (tent_bounds x Hx). unfold poly. simpl. apply Rabs_le. lra. Qed.
Lemma tent_case : exists err, romb (fun x => Rabs (x - 1 / 2)) 0 1 1 = Ok (1 / 6, err).
Proof.
  assert (E : romberg (fun x => Rabs (x - 1 / 2)) 0 1 1 1 = 1 / 6).
  { rewrite romberg_step. unfold romberg_diff. simpl romberg. unfold trapezoid, node. simpl.
    replace (1 + 1) with 2 by ring. replace ((1 - 0) / 1) with 1 by field. repeat first [ rewrite Rabs_left1 by lra | rewrite Rabs_right by lra ]. field. }
  eexists. rewrite romb_value, E by lia. reflexivity.
Qed.
