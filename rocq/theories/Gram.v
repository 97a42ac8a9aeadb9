(** * Gram decomposition of PSD symmetric functions and the trace inequality *)
From Verif Require Import Np NpLemmas Redshift Bias Probes Sparse SparseSpec CovSpec.

Lemma quadf_ext n S x S' x' : (forall i j, (i < n)%nat -> (j < n)%nat -> S i j = S' i j) ->
  (forall i, (i < n)%nat -> x i = x' i) -> quadf n S x = quadf n S' x'.
Proof.
  intros HS Hx; unfold quadf; apply Rsum_ext; intros i Hi; apply Rsum_ext; intros j Hj.
  now rewrite HS, !Hx.
Qed.

Lemma quadf_S n S x : quadf (Datatypes.S n) S x =
  quadf n S x + x n * Rsum n (fun i => S i n * x i) + x n * Rsum n (fun j => S n j * x j) + x n * S n n * x n.
Proof.
  unfold quadf. simpl.
  rewrite Rsum_plus.
  replace (Rsum n (fun i => x i * S i n * x n)) with (x n * Rsum n (fun i => S i n * x i)).
  - replace (Rsum n (fun j => x n * S n j * x j)) with (x n * Rsum n (fun j => S n j * x j)).
    + ring.
    + rewrite <- Rsum_scal; apply Rsum_ext; intros; ring.
  - rewrite <- Rsum_scal; apply Rsum_ext; intros; ring.
Qed.

(** a quadratic polynomial that never goes negative *)
Lemma quad_disc a b c : (forall t, 0 <= a * t * t + 2 * b * t + c) -> b * b <= a * c.
Proof.
  intros Hq.
  destruct (Rtotal_order a 0) as [Ha | [Ha | Ha]].
  - exfalso.
    assert (Hc := Hq 0). assert (H1 := Hq 1). assert (H2 := Hq (-1)).
    (* take t with a t^2 + 2bt + c < 0: t large *)
    set (t := (Rabs b * 2 + c + 1) / - a + 1).
    assert (Ht1 : 1 <= t).
    { unfold t. assert (0 <= (Rabs b * 2 + c + 1) / - a).
      { apply Rmult_le_pos; [ pose proof (Rabs_pos b); lra | left; apply Rinv_0_lt_compat; lra ]. } lra. }
    assert (Hat : - a * t >= Rabs b * 2 + c + 1 - a).
    { unfold t. right. field. lra. }
    assert (Hb : 2 * b * t <= 2 * Rabs b * t).
    { pose proof (Rle_abs b). nra. }
    assert (Hct : c <= c * t) by nra.
    pose proof (Hq t). nra.
  - subst a.
    destruct (Req_dec b 0) as [Hb | Hb]; [ subst; nra | ].
    exfalso. pose proof (Hq (- (c + 1) / (2 * b))).
    replace (0 * (- (c + 1) / (2 * b)) * (- (c + 1) / (2 * b)) + 2 * b * (- (c + 1) / (2 * b)) + c) with (-1) in H
      by (field; assumption). lra.
  - pose proof (Hq (- b / a)).
    replace (a * (- b / a) * (- b / a) + 2 * b * (- b / a) + c) with ((a * c - b * b) / a) in H by (field; lra).
    assert (0 <= (a * c - b * b) / a * a) by nra.
    replace ((a * c - b * b) / a * a) with (a * c - b * b) in H0 by (field; lra). lra.
Qed.

Lemma Rsum_update n i t f : (i < n)%nat ->
  Rsum n (fun k => if Nat.eqb k i then t else f k) = Rsum n f - f i + t.
Proof.
  intros Hi.
  rewrite (Rsum_ext n _ (fun k => f k + (if Nat.eqb k i then t - f k else 0))).
  - rewrite Rsum_plus, Rsum_delta by assumption. ring.
  - intros k _; destruct (Nat.eqb k i); ring.
Qed.

(** PSD restricted to a prefix *)
Lemma psdf_prefix n S : psdf (Datatypes.S n) S -> psdf n S.
Proof.
  intros Hp x. pose (y := fun i => if Nat.eqb i n then 0 else x i).
  pose proof (Hp y) as Hy. rewrite quadf_S in Hy.
  assert (Hyn : y n = 0) by (unfold y; now rewrite Nat.eqb_refl).
  rewrite Hyn in Hy. rewrite (quadf_ext n S y S x) in Hy; [ lra | auto | ].
  intros i Hi; unfold y. destruct (Nat.eqb_spec i n); [ lia | reflexivity ].
Qed.

Lemma psdf_diag n S i : psdf n S -> (i < n)%nat -> 0 <= S i i.
Proof.
  intros Hp Hi. pose proof (Hp (fun k => if Nat.eqb k i then 1 else 0)) as Hq.
  unfold quadf in Hq.
  rewrite (Rsum_ext n _ (fun a => if Nat.eqb a i then Rsum n (fun b => if Nat.eqb b i then S a b else 0) else 0)) in Hq.
  - rewrite Rsum_delta in Hq by assumption. rewrite Rsum_delta in Hq by assumption. exact Hq.
  - intros a _. destruct (Nat.eqb a i).
    + apply Rsum_ext; intros b _. destruct (Nat.eqb b i); ring.
    + apply Rsum_0_ext; intros b _; ring.
Qed.

(** value of the form when one coordinate moves *)
Lemma quadf_last n S x t : symf (Datatypes.S n) S ->
  quadf (Datatypes.S n) S (fun k => if Nat.eqb k n then t else x k) =
  quadf n S x + 2 * t * Rsum n (fun i => S i n * x i) + S n n * t * t.
Proof.
  intros Hs. rewrite quadf_S. rewrite Nat.eqb_refl.
  rewrite (quadf_ext n S (fun k => if Nat.eqb k n then t else x k) S x);
    [ | auto | intros i Hi; destruct (Nat.eqb_spec i n); [ lia | reflexivity ] ].
  rewrite (Rsum_ext n (fun i => S i n * (if Nat.eqb i n then t else x i)) (fun i => S i n * x i))
    by (intros i Hi; destruct (Nat.eqb_spec i n); [ lia | reflexivity ]).
  rewrite (Rsum_ext n (fun j => S n j * (if Nat.eqb j n then t else x j)) (fun i => S i n * x i))
    by (intros i Hi; destruct (Nat.eqb_spec i n); [ lia | rewrite (Hs n i) by lia; reflexivity ]).
  ring.
Qed.

(** Schwarz inequality for the last row *)
Lemma psdf_schwarz n S x : symf (Datatypes.S n) S -> psdf (Datatypes.S n) S ->
  Rsum n (fun i => S i n * x i) * Rsum n (fun i => S i n * x i) <= S n n * quadf n S x.
Proof.
  intros Hs Hp. apply quad_disc. intros t.
  pose proof (Hp (fun k => if Nat.eqb k n then t else x k)) as Hq.
  rewrite quadf_last in Hq by assumption. lra.
Qed.

Lemma Rsum_unit n i (f : nat -> R) : (i < n)%nat ->
  Rsum n (fun k => f k * (if Nat.eqb k i then 1 else 0)) = f i.
Proof.
  intros Hi. rewrite (Rsum_ext n _ (fun k => if Nat.eqb k i then f k else 0)).
  - now apply Rsum_delta.
  - intros k _; destruct (Nat.eqb k i); ring.
Qed.

Lemma psdf_zero_row n S i : symf (Datatypes.S n) S -> psdf (Datatypes.S n) S -> S n n = 0 -> (i < n)%nat -> S i n = 0.
Proof.
  intros Hs Hp H0 Hi.
  pose proof (psdf_schwarz n S (fun k => if Nat.eqb k i then 1 else 0) Hs Hp) as Hc.
  cbv beta in Hc. rewrite (Rsum_unit n i (fun k => S k n)) in Hc by assumption. rewrite H0 in Hc. nra.
Qed.

(** Gram decomposition: S i j = sum_k v_k(i) v_k(j) *)
Lemma gram n : forall S, symf n S -> psdf n S -> exists v : nat -> nat -> R,
  forall i j, (i < n)%nat -> (j < n)%nat -> S i j = Rsum n (fun k => v k i * v k j).
Proof.
  induction n as [ | n IH]; intros S Hs Hp.
  - exists (fun _ _ => 0). intros; lia.
  - assert (Hd : 0 <= S n n) by (apply (psdf_diag (Datatypes.S n)); [ assumption | lia ]).
    destruct (Req_dec (S n n) 0) as [H0 | H0].
    + destruct (IH S) as [v Hv].
      * intros i j Hi Hj; apply Hs; lia.
      * now apply psdf_prefix.
      * exists (fun k i => if Nat.eqb k n then 0 else if Nat.eqb i n then 0 else v k i).
        intros i j Hi Hj. simpl. rewrite Nat.eqb_refl.
        assert (Hz : forall i, (i < n)%nat -> S i n = 0) by (intros; now apply psdf_zero_row).
        rewrite (Rsum_ext n _ (fun k => if Nat.eqb i n then 0 else if Nat.eqb j n then 0 else v k i * v k j)).
        -- destruct (Nat.eqb_spec i n) as [-> | Hin]; [ | destruct (Nat.eqb_spec j n) as [-> | Hjn] ].
           ++ rewrite Rsum_0.
              destruct (Nat.eq_dec j n) as [-> | Hjn]; [ lra | rewrite (Hs n j) by lia; rewrite Hz by lia; lra ].
           ++ rewrite Rsum_0, Hz by lia; lra.
           ++ rewrite Hv by lia; ring.
        -- intros k Hk. destruct (Nat.eqb_spec k n); [ lia | ].
           destruct (Nat.eqb i n), (Nat.eqb j n); ring.
    + assert (Hpos : 0 < S n n) by lra.
      pose (T := fun i j => S i j - S i n * S j n / S n n).
      destruct (IH T) as [v Hv].
      * intros i j Hi Hj; unfold T. rewrite (Hs i j) by lia. field; lra.
      * intros x. pose proof (psdf_schwarz n S x Hs Hp) as Hc.
        replace (quadf n T x) with
          (quadf n S x - Rsum n (fun i => S i n * x i) * Rsum n (fun i => S i n * x i) / S n n).
        -- apply Rmult_le_reg_r with (S n n); [ assumption | ].
           rewrite Rmult_0_l.
           replace ((quadf n S x - Rsum n (fun i => S i n * x i) * Rsum n (fun i => S i n * x i) / S n n) * S n n)
             with (S n n * quadf n S x - Rsum n (fun i => S i n * x i) * Rsum n (fun i => S i n * x i))
             by (field; lra). lra.
        -- unfold quadf, T.
           transitivity (Rsum n (fun i => Rsum n (fun j => x i * S i j * x j)
             - (S i n * x i) * (Rsum n (fun j => S j n * x j) * / S n n))).
           ++ rewrite Rsum_minus, Rsum_scal_r. unfold Rdiv. ring.
           ++ apply Rsum_ext; intros i Hi.
              replace ((S i n * x i) * (Rsum n (fun j => S j n * x j) * / S n n))
                with (Rsum n (fun j => S i n * x i * / S n n * (S j n * x j))) by (rewrite Rsum_scal; ring).
              rewrite <- Rsum_minus; apply Rsum_ext; intros j Hj; field; lra.
      * exists (fun k i => if Nat.eqb k n then S i n / sqrt (S n n) else if Nat.eqb i n then 0 else v k i).
        intros i j Hi Hj. simpl. rewrite Nat.eqb_refl.
        assert (Hsq : sqrt (S n n) * sqrt (S n n) = S n n) by (apply sqrt_sqrt; lra).
        assert (Hsn : sqrt (S n n) <> 0) by (intros E; rewrite E in Hsq; lra).
        replace (S i n / sqrt (S n n) * (S j n / sqrt (S n n))) with (S i n * S j n / S n n)
          by (rewrite <- Hsq at 1; field; assumption).
        rewrite (Rsum_ext n _ (fun k => if Nat.eqb i n then 0 else if Nat.eqb j n then 0 else v k i * v k j)).
        -- destruct (Nat.eqb_spec i n) as [-> | Hin]; [ | destruct (Nat.eqb_spec j n) as [-> | Hjn] ].
           ++ rewrite Rsum_0. rewrite (Hs n j) by lia. field; lra.
           ++ rewrite Rsum_0. field; lra.
           ++ rewrite <- Hv by lia. unfold T. ring.
        -- intros k Hk. destruct (Nat.eqb_spec k n); [ lia | ].
           destruct (Nat.eqb i n), (Nat.eqb j n); ring.
Qed.

(** the form sum_{ijmn} Y_ij Y_mn S_im S_jn *)
Definition form4 (n : nat) (S : nat -> nat -> R) (Y : nat -> nat -> R) : R :=
  Rsum n (fun i => Rsum n (fun j => Rsum n (fun m => Rsum n (fun k => Y i j * Y m k * (S i m * S j k))))).

Lemma Rsum_prod n m f g : Rsum n f * Rsum m g = Rsum n (fun i => Rsum m (fun j => f i * g j)).
Proof.
  rewrite <- Rsum_scal_r. apply Rsum_ext; intros i _. now rewrite Rsum_scal.
Qed.

Lemma form4_gram n S Y v :
  (forall i j, (i < n)%nat -> (j < n)%nat -> S i j = Rsum n (fun k => v k i * v k j)) ->
  form4 n S Y = Rsum n (fun q => quadf n S (fun i => Rsum n (fun j => Y i j * v q j))).
Proof.
  intros Hv. unfold form4, quadf.
  transitivity (Rsum n (fun i => Rsum n (fun m => Rsum n (fun q =>
    Rsum n (fun j => Y i j * v q j) * S i m * Rsum n (fun k => Y m k * v q k))))).
  2:{ transitivity (Rsum n (fun i => Rsum n (fun q => Rsum n (fun m =>
        Rsum n (fun j => Y i j * v q j) * S i m * Rsum n (fun k => Y m k * v q k))))).
      - apply Rsum_ext; intros; apply Rsum_swap.
      - apply Rsum_swap. }
  apply Rsum_ext; intros i Hi.
  rewrite Rsum_swap. apply Rsum_ext; intros m Hm.
  transitivity (Rsum n (fun j => Rsum n (fun k => Rsum n (fun q => Y i j * Y m k * S i m * (v q j * v q k))))).
  - apply Rsum_ext; intros j Hj; apply Rsum_ext; intros k Hk.
    rewrite Rsum_scal, <- Hv by assumption. ring.
  - transitivity (Rsum n (fun j => Rsum n (fun q => Rsum n (fun k => Y i j * Y m k * S i m * (v q j * v q k))))).
    + apply Rsum_ext; intros; apply Rsum_swap.
    + rewrite Rsum_swap. apply Rsum_ext; intros q Hq.
      replace (Rsum n (fun j => Y i j * v q j) * S i m * Rsum n (fun k => Y m k * v q k))
        with (S i m * (Rsum n (fun j => Y i j * v q j) * Rsum n (fun k => Y m k * v q k))) by ring.
      rewrite Rsum_prod, <- Rsum_scal. apply Rsum_ext; intros j Hj.
      rewrite <- Rsum_scal. apply Rsum_ext; intros k Hk. ring.
Qed.

Lemma form4_nonneg n S Y : symf n S -> psdf n S -> 0 <= form4 n S Y.
Proof.
  intros Hs Hp. destruct (gram n S Hs Hp) as [v Hv].
  rewrite (form4_gram n S Y v Hv). apply Rsum_nonneg; intros q _. apply Hp.
Qed.

Lemma Rsum_pos_one n f i : (i < n)%nat -> (forall k, (k < n)%nat -> 0 <= f k) -> 0 < f i -> 0 < Rsum n f.
Proof.
  intros Hi Hk Hf. pose proof (Rsum_update n i 0 f Hi) as Hu.
  assert (0 <= Rsum n (fun k => if Nat.eqb k i then 0 else f k)).
  { apply Rsum_nonneg; intros k Hkn; destruct (Nat.eqb k i); [ lra | now apply Hk ]. }
  lra.
Qed.


Lemma vec_zero_dec n (x : nat -> R) : (exists i, (i < n)%nat /\ x i <> 0) \/ (forall i, (i < n)%nat -> x i = 0).
Proof.
  induction n as [ | n [ (i & Hi & Hx) | IH]].
  - right; intros; lia.
  - left; exists i; split; [ lia | assumption ].
  - destruct (Req_dec (x n) 0) as [H0 | H0].
    + right; intros i Hi. destruct (Nat.eq_dec i n) as [-> | ]; [ assumption | apply IH; lia ].
    + left; exists n; split; [ lia | assumption ].
Qed.

Lemma pdf_psdf n S : pdf n S -> psdf n S.
Proof.
  intros Hp x. destruct (vec_zero_dec n x) as [Hx | Hx].
  - left; now apply Hp.
  - right; symmetry. unfold quadf. apply Rsum_0_ext; intros i Hi; apply Rsum_0_ext; intros j Hj.
    rewrite (Hx i) by assumption; ring.
Qed.

Lemma form4_pos n S Y : symf n S -> pdf n S -> (exists i j, (i < n)%nat /\ (j < n)%nat /\ Y i j <> 0) -> 0 < form4 n S Y.
Proof.
  intros Hs Hp (i & j & Hi & Hj & HY). destruct (gram n S Hs (pdf_psdf n S Hp)) as [v Hv].
  rewrite (form4_gram n S Y v Hv).
  (* some q has (Y v_q)_i <> 0, otherwise row i of Y is orthogonal to all v_q and y^T S y = 0 *)
  assert (Hq : exists q, (q < n)%nat /\ Rsum n (fun j => Y i j * v q j) <> 0).
  { destruct (vec_zero_dec n (fun q => Rsum n (fun j => Y i j * v q j))) as [H | H]; [ exact H | exfalso ].
    assert (Hz : 0 < quadf n S (Y i)) by (apply Hp; exists j; auto).
    assert (E : quadf n S (Y i) = Rsum n (fun q => Rsum n (fun j => Y i j * v q j) * Rsum n (fun j => Y i j * v q j))).
    { unfold quadf.
      transitivity (Rsum n (fun a => Rsum n (fun b => Rsum n (fun q => Y i a * v q a * (Y i b * v q b))))).
      - apply Rsum_ext; intros a Ha; apply Rsum_ext; intros b Hb.
        rewrite Hv by assumption. rewrite <- Rsum_scal, <- Rsum_scal_r. apply Rsum_ext; intros; ring.
      - transitivity (Rsum n (fun a => Rsum n (fun q => Rsum n (fun b => Y i a * v q a * (Y i b * v q b))))).
        + apply Rsum_ext; intros; apply Rsum_swap.
        + rewrite Rsum_swap. apply Rsum_ext; intros q Hq. now rewrite Rsum_prod. }
    rewrite E in Hz. rewrite Rsum_0_ext in Hz; [ lra | ]. intros q Hq. rewrite (H q Hq). ring. }
  destruct Hq as (q & Hq & Hne).
  apply (Rsum_pos_one n _ q Hq).
  - intros k Hk. apply pdf_psdf; assumption.
  - apply Hp. exists i; auto.
Qed.
