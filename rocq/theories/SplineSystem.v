(** * The linear systems of the quadratic and cubic splines *)
From Verif Require Import Np NpLemmas Interp OdeSpec InterpProofs SparseSpec CovProofs Spline SplineSpec SplineLists SplineEval.

(** ** banded matrices *)
Lemma wf2_diag n v : length v = n -> wf2 n n (diag v).
Proof. intros <-. apply wf2_tab2. Qed.
Lemma wf2_up n k v : (length v + k = n)%nat -> wf2 n n (diag_up k v).
Proof. intros <-. apply wf2_tab2. Qed.
Lemma wf2_lo n k v : (length v + k = n)%nat -> wf2 n n (diag_lo k v).
Proof. intros <-. apply wf2_tab2. Qed.
Lemma el2_diag n v i j : length v = n -> (i < n)%nat -> (j < n)%nat -> el2 (diag v) i j = if Nat.eqb j i then el v i else 0.
Proof. intros <- Hi Hj. unfold diag. rewrite el2_tab by assumption. rewrite Nat.eqb_sym. reflexivity. Qed.
Lemma el2_up n k v i j : (length v + k = n)%nat -> (i < n)%nat -> (j < n)%nat -> el2 (diag_up k v) i j = if Nat.eqb j (i + k) then el v i else 0.
Proof. intros <- Hi Hj. unfold diag_up. now rewrite el2_tab by assumption. Qed.
Lemma el2_lo n k v i j : (length v + k = n)%nat -> (i < n)%nat -> (j < n)%nat -> el2 (diag_lo k v) i j = if Nat.eqb i (j + k) then el v j else 0.
Proof. intros <- Hi Hj. unfold diag_lo. now rewrite el2_tab by assumption. Qed.

Lemma sum_up n i k u (z : nat -> R) : Rsum n (fun j => (if Nat.eqb j (i + k) then u else 0) * z j) = if Nat.ltb (i + k) n then u * z (i + k)%nat else 0.
Proof.
  destruct (Nat.ltb_spec (i + k) n) as [H | H].
  - rewrite <- (Rsum_delta n (i + k) (fun j => u * z j) H). apply Rsum_ext. intros j _. destruct (Nat.eqb j (i + k)); ring.
  - apply Rsum_0_ext. intros j Hj. destruct (Nat.eqb_spec j (i + k)); [ lia | ring ].
Qed.
Lemma sum_lo n i k (l z : nat -> R) : (i < n)%nat -> Rsum n (fun j => (if Nat.eqb i (j + k) then l j else 0) * z j) = if Nat.leb k i then l (i - k)%nat * z (i - k)%nat else 0.
Proof.
  intros Hn. destruct (Nat.leb_spec k i) as [H | H].
  - rewrite <- (Rsum_delta n (i - k) (fun j => l j * z j)) by lia. apply Rsum_ext. intros j _. destruct (Nat.eqb_spec i (j + k)); destruct (Nat.eqb_spec j (i - k)); try lia; ring.
  - apply Rsum_0_ext. intros j Hj. destruct (Nat.eqb_spec i (j + k)); [ lia | ring ].
Qed.
Definition band (n : nat) (d u1 u2 l1 l2 : list R) (z : nat -> R) (i : nat) : R :=
  el d i * z i + (if Nat.ltb (i + 1) n then el u1 i * z (i + 1)%nat else 0) + (if Nat.ltb (i + 2) n then el u2 i * z (i + 2)%nat else 0)
  + (if Nat.leb 1 i then el l1 (i - 1) * z (i - 1)%nat else 0) + (if Nat.leb 2 i then el l2 (i - 2) * z (i - 2)%nat else 0).
Lemma band_row n d u1 u2 l1 l2 A z i :
  (i < n)%nat -> (forall j, (j < n)%nat -> el2 A i j = (if Nat.eqb j i then el d i else 0) + (if Nat.eqb j (i + 1) then el u1 i else 0) + (if Nat.eqb j (i + 2) then el u2 i else 0)
     + (if Nat.eqb i (j + 1) then el l1 j else 0) + (if Nat.eqb i (j + 2) then el l2 j else 0)) ->
  Rsum n (fun j => el2 A i j * z j) = band n d u1 u2 l1 l2 z i.
Proof.
  intros Hi H. rewrite (Rsum_ext n _ (fun j => (if Nat.eqb j (i + 0) then el d i else 0) * z j + (if Nat.eqb j (i + 1) then el u1 i else 0) * z j + (if Nat.eqb j (i + 2) then el u2 i else 0) * z j
     + (if Nat.eqb i (j + 1) then el l1 j else 0) * z j + (if Nat.eqb i (j + 2) then el l2 j else 0) * z j)).
  - rewrite !Rsum_plus, !sum_up, !sum_lo by exact Hi. unfold band. rewrite Nat.add_0_r. destruct (Nat.ltb_spec i n); [ reflexivity | lia ].
  - intros j Hj. rewrite H by exact Hj. rewrite Nat.add_0_r. ring.
Qed.

(** ** the cubic system *)
Section Cubic.
Variables x y : list R.
Let N := length x.
Hypothesis HN : (3 < N)%nat.
Hypothesis Hy : length y = N.
Let h i := el x (S i) - el x i.
Let p i := el y (S i) - el y i.
(** rows of the system in mathematical notation *)
Definition first_row (natural : bool) (z : nat -> R) : R := if natural then z 0%nat else h 1 * z 0%nat - (h 0 + h 1) * z 1%nat + h 0 * z 2%nat.
Definition last_row (natural : bool) (z : nat -> R) : R :=
  if natural then z (N - 1)%nat - z (N - 2)%nat
  else h (N - 3) * z (N - 1)%nat - (h (N - 3) + h (N - 2)) * z (N - 2)%nat + h (N - 2) * z (N - 3)%nat.
Definition mid_row (z : nat -> R) (i : nat) : R := h i * z i + 2 * (h i + h (S i)) * z (S i) + h (S i) * z (S (S i)).
Definition mid_rhs (i : nat) : R := 3 * (p (S i) / h (S i) - p i / h i).

Lemma el_h i : (S i < N)%nat -> el (diff x) i = h i.
Proof. intros H. now apply el_diff. Qed.
Lemma el_p i : (S i < N)%nat -> el (diff y) i = p i.
Proof. intros H. apply el_diff. lia. Qed.
Lemma lh : length (diff x) = (N - 1)%nat. Proof. apply length_diff. Qed.
Lemma lp : length (diff y) = (N - 1)%nat. Proof. rewrite length_diff. lia. Qed.

Lemma cubic_matrix_rows natural : wf2 N N (cubic_matrix natural x) /\ forall z i, (i < N)%nat ->
  Rsum N (fun j => el2 (cubic_matrix natural x) i j * z j) =
    if Nat.eqb i 0 then first_row natural z else if Nat.eqb i (N - 1) then last_row natural z else mid_row z (i - 1).
Proof.
  clear p Hy y. pose proof lh as Lh. pose proof el_h as Eh.
  set (A00 := if natural then 1.0 else getZ 0 (diff x) 1). set (A01 := if natural then 0.0 else - (getZ 0 (diff x) 0 + getZ 0 (diff x) 1)).
  set (A02 := if natural then 0.0 else getZ 0 (diff x) 0). set (ANN := if natural then 1.0 else getZ 0 (diff x) (-2)).
  set (AN1 := if natural then - 1.0 else - (getZ 0 (diff x) (-2) + getZ 0 (diff x) (-1))). set (AN2 := if natural then 0.0 else getZ 0 (diff x) (-1)).
  set (d := ([A00] ++ vscale 2 (vadd (init (diff x)) (tl (diff x))) ++ [ANN])%list).
  set (u1 := ([A01] ++ tl (diff x))%list). set (u2 := ([A02] ++ vzeros (N - 3))%list). set (l1 := (init (diff x) ++ [AN1])%list). set (l2 := (vzeros (N - 3) ++ [AN2])%list).
  assert (Ld : length d = N) by (unfold d; rewrite !app_length; len; simpl; lia).
  assert (L1 : (length u1 + 1 = N)%nat) by (unfold u1; rewrite !app_length; len; simpl; lia).
  assert (L2 : (length u2 + 2 = N)%nat) by (unfold u2, vzeros; rewrite !app_length, repeat_length; simpl; lia).
  assert (L3 : (length l1 + 1 = N)%nat) by (unfold l1; rewrite !app_length; len; simpl; lia).
  assert (L4 : (length l2 + 2 = N)%nat) by (unfold l2, vzeros; rewrite !app_length, repeat_length; simpl; lia).
  assert (E : cubic_matrix natural x = madd (diag d) (madd (madd (madd (diag_up 1 u1) (diag_up 2 u2)) (diag_lo 1 l1)) (diag_lo 2 l2))) by reflexivity.
  rewrite E. clear E.
  pose proof (wf2_diag N d Ld) as W0. pose proof (wf2_up N 1 u1 L1) as W1. pose proof (wf2_up N 2 u2 L2) as W2. pose proof (wf2_lo N 1 l1 L3) as W3. pose proof (wf2_lo N 2 l2 L4) as W4.
  pose proof (wf2_madd _ _ _ _ W1 W2) as V1. pose proof (wf2_madd _ _ _ _ V1 W3) as V2. pose proof (wf2_madd _ _ _ _ V2 W4) as V3.
  split; [ now apply wf2_madd | ]. intros z i Hi.
  rewrite (band_row N d u1 u2 l1 l2); [ | exact Hi | ].
  - unfold band.
    assert (Z2 : forall j, el u2 (S j) = 0) by (intros j; unfold u2; simpl app; rewrite el_cons; apply el_vzeros).
    assert (Z4 : forall j, (j < N - 3)%nat -> el l2 j = 0) by (intros j Hj; unfold l2; rewrite el_app1 by (unfold vzeros; rewrite repeat_length; lia); apply el_vzeros).
    assert (U1 : forall j, (S (S j) < N)%nat -> el u1 (S j) = h (S j)) by (intros j Hj; unfold u1; simpl app; rewrite el_cons, el_tl; apply Eh; lia).
    assert (L1' : forall j, (j < N - 2)%nat -> el l1 j = h j) by (intros j Hj; unfold l1; rewrite el_app1 by len; rewrite el_init by lia; apply Eh; lia).
    assert (D1 : forall j, (S j < N - 1)%nat -> el d (S j) = 2 * (h j + h (S j))).
    { intros j Hj. unfold d. simpl app. rewrite el_cons. rewrite el_app1 by len. unfold vscale. rewrite el_map by len. unfold vadd. rewrite el_map2 by len. rewrite el_init by lia. rewrite el_tl, !Eh by lia. reflexivity. }
    destruct (Nat.eqb_spec i 0) as [-> | n0]; [ | destruct (Nat.eqb_spec i (N - 1)) as [-> | n1] ].
    + destruct (Nat.ltb_spec (0 + 1) N); [ | lia ]. destruct (Nat.ltb_spec (0 + 2) N); [ | lia ]. simpl Nat.leb. cbv iota.
      change (el d 0) with A00. change (el u1 0) with A01. change (el u2 0) with A02. unfold A00, A01, A02, first_row. destruct natural; simpl Nat.add; [ lra | ].
      rewrite getZ_0, getZ_1, !Eh by lia. ring.
    + destruct (Nat.ltb_spec (N - 1 + 1) N); [ lia | ]. destruct (Nat.ltb_spec (N - 1 + 2) N); [ lia | ]. destruct (Nat.leb_spec 1 (N - 1)); [ | lia ]. destruct (Nat.leb_spec 2 (N - 1)); [ | lia ].
      assert (EN : el d (N - 1) = ANN). { unfold d. rewrite app_assoc, el_app2 by (rewrite app_length; len; simpl; lia). replace (_ - _)%nat with 0%nat by (rewrite app_length; len; simpl; lia). reflexivity. }
      assert (E1 : el l1 (N - 1 - 1) = AN1). { unfold l1. rewrite el_app2 by (len). replace (_ - length _)%nat with 0%nat by (len). reflexivity. }
      assert (E2 : el l2 (N - 1 - 2) = AN2). { unfold l2, vzeros. rewrite el_app2 by (rewrite repeat_length; lia). rewrite repeat_length. replace (N - 1 - 2 - (N - 3))%nat with 0%nat by lia. reflexivity. }
      rewrite EN, E1, E2. unfold ANN, AN1, AN2, last_row. replace (N - 1 - 1)%nat with (N - 2)%nat by lia. replace (N - 1 - 2)%nat with (N - 3)%nat by lia. destruct natural; [ lra | ].
      rewrite getZ_m1, getZ_m2 by lia. rewrite Lh. replace (N - 1 - 1)%nat with (N - 2)%nat by lia. replace (N - 1 - 2)%nat with (N - 3)%nat by lia. rewrite !Eh by lia. ring.
    + destruct i as [ | i]; [ lia | ]. destruct (Nat.ltb_spec (S i + 1) N); [ | lia ]. destruct (Nat.leb_spec 1 (S i)); [ | lia ].
      rewrite D1, U1, Z2 by lia. replace (S i - 1)%nat with i by lia. rewrite L1' by lia. replace (S i + 1)%nat with (S (S i)) by lia. unfold mid_row.
      destruct (Nat.leb 2 (S i)) eqn:K; [ rewrite Z4 by lia | ]; destruct (Nat.ltb (S i + 2) N); ring.
  - intros j Hj. rewrite (el2_madd N N _ _ i j W0 V3 Hi), (el2_madd N N _ _ i j V2 W4 Hi), (el2_madd N N _ _ i j V1 W3 Hi), (el2_madd N N _ _ i j W1 W2 Hi).
    rewrite (el2_diag N d), (el2_up N 1 u1), (el2_up N 2 u2), (el2_lo N 1 l1), (el2_lo N 2 l2) by assumption. ring.
Qed.
Lemma cubic_rhs_rows : length (cubic_rhs x y) = N /\ forall i, (i < N)%nat -> el (cubic_rhs x y) i = if Nat.eqb i 0 then 0 else if Nat.eqb i (N - 1) then 0 else mid_rhs (i - 1).
Proof.
  pose proof lh as Lh. pose proof lp as Lp. unfold cubic_rhs. split; [ rewrite !app_length; len; simpl; lia | ]. intros i Hi.
  destruct (Nat.eqb_spec i 0) as [-> | n0]; [ reflexivity | ]. destruct i as [ | i]; [ lia | ]. simpl app. rewrite el_cons.
  destruct (Nat.eqb_spec (S i) (N - 1)) as [e | n1].
  - rewrite el_app2 by len. replace (i - _)%nat with 0%nat by len. reflexivity.
  - rewrite el_app1 by len. unfold vscale. rewrite el_map by len. unfold vsub. rewrite el_map2 by len. unfold vdiv. rewrite !el_map2 by len. rewrite !el_tl, !el_init by lia. rewrite !el_h, !el_p by lia.
    replace (S i - 1)%nat with i by lia. reflexivity.
Qed.
Definition cubic_system (natural : bool) (z : nat -> R) : Prop :=
  first_row natural z = 0 /\ last_row natural z = 0 /\ forall i, (i < N - 2)%nat -> mid_row z i = mid_rhs i.
Lemma cubic_matvec natural z : is_matvec N N (cubic_matrix natural x) z (cubic_rhs x y) <-> cubic_system natural (el z).
Proof.
  destruct (cubic_matrix_rows natural) as [_ R]. destruct cubic_rhs_rows as [L E]. unfold is_matvec, cubic_system. split.
  - intros [_ H]. split; [ | split ].
    + pose proof (H 0%nat ltac:(lia)) as K. rewrite R, E in K by lia. simpl in K. now symmetry.
    + pose proof (H (N - 1)%nat ltac:(lia)) as K. rewrite R, E in K by lia. rewrite Nat.eqb_refl in K. destruct (Nat.eqb_spec (N - 1) 0); [ lia | ]. now symmetry.
    + intros i Hi. pose proof (H (S i) ltac:(lia)) as K. rewrite R, E in K by lia. destruct (Nat.eqb_spec (S i) 0); [ lia | ]. destruct (Nat.eqb_spec (S i) (N - 1)); [ lia | ].
      replace (S i - 1)%nat with i in K by lia. now symmetry.
  - intros (H1 & H2 & H3). split; [ exact L | ]. intros i Hi. rewrite R, E by exact Hi.
    destruct (Nat.eqb_spec i 0); [ now symmetry | ]. destruct (Nat.eqb_spec i (N - 1)); [ now symmetry | ]. symmetry. apply H3. lia.
Qed.

(** ** uniqueness *)
Hypothesis Hx : incr x.
Lemma h_pos i : (S i < N)%nat -> 0 < h i.
Proof. intros H. unfold h. pose proof (Hx i (S i) ltac:(fold N; lia)). lra. Qed.
End Cubic.

(** an index where |z| is largest *)
Lemma max_index (z : nat -> R) a b : (a <= b)%nat -> exists m, (a <= m <= b)%nat /\ forall i, (a <= i <= b)%nat -> Rabs (z i) <= Rabs (z m).
Proof.
  intros H. induction b as [ | b IH].
  - exists 0%nat. split; [ lia | ]. intros i Hi. replace i with 0%nat by lia. lra.
  - destruct (Nat.eq_dec a (S b)) as [-> | n].
    + exists (S b). split; [ lia | ]. intros i Hi. replace i with (S b) by lia. lra.
    + destruct (IH ltac:(lia)) as (m & Hm & K). destruct (Rle_dec (Rabs (z m)) (Rabs (z (S b)))) as [L | L].
      * exists (S b). split; [ lia | ]. intros i Hi. destruct (Nat.eq_dec i (S b)) as [-> | e]; [ lra | ]. pose proof (K i ltac:(lia)). lra.
      * exists m. split; [ lia | ]. intros i Hi. destruct (Nat.eq_dec i (S b)) as [-> | e]; [ lra | apply K; lia ].
Qed.
(** strict diagonal dominance of one row forces the largest component to vanish *)
Lemma dominant u v e a b c : u * a + v * b + e * c = 0 -> Rabs v + Rabs e < Rabs u -> Rabs b <= Rabs a -> Rabs c <= Rabs a -> a = 0.
Proof.
  intros E D Hb Hc. destruct (Req_dec a 0) as [Z | Z]; [ exact Z | exfalso ]. pose proof (Rabs_pos_lt a Z) as Pa.
  assert (K : Rabs u * Rabs a <= Rabs v * Rabs b + Rabs e * Rabs c).
  { rewrite <- !Rabs_mult. replace (u * a) with (- (v * b + e * c)) by lra. rewrite Rabs_Ropp. apply Rabs_triang. }
  pose proof (Rabs_pos v). pose proof (Rabs_pos e). nra.
Qed.
Lemma dominant_pos u v e a b c : u * a + v * b + e * c = 0 -> 0 <= v -> 0 <= e -> v + e < u -> Rabs b <= Rabs a -> Rabs c <= Rabs a -> a = 0.
Proof. intros E Hv He D. apply (dominant u v e); [ exact E | ]. rewrite (Rabs_pos_eq v), (Rabs_pos_eq e), (Rabs_pos_eq u) by lra. exact D. Qed.

(** homogeneous cubic system: only the zero solution *)
Lemma cubic_kernel x natural z : (3 < length x)%nat -> incr x ->
  first_row x natural z = 0 -> last_row x natural z = 0 -> (forall i, (i < length x - 2)%nat -> mid_row x z i = 0) ->
  forall i, (i < length x)%nat -> z i = 0.
Proof.
  intros HN Hx F L Mr. set (N := length x) in *. set (h := fun i => el x (S i) - el x i).
  assert (hp : forall i, (S i < N)%nat -> 0 < h i) by (intros i Hi; unfold h; pose proof (Hx i (S i) ltac:(fold N; lia)); lra).
  assert (Rw : forall i, (i < N - 2)%nat -> h i * z i + 2 * (h i + h (S i)) * z (S i) + h (S i) * z (S (S i)) = 0) by (intros i Hi; exact (Mr i Hi)).
  assert (I : forall i, (1 <= i <= N - 2)%nat -> z i = 0).
  { destruct (max_index z 1 (N - 2) ltac:(lia)) as (m & Hm & K).
    assert (Z : z m = 0).
    { destruct m as [ | i]; [ lia | ]. pose proof (Rw i ltac:(lia)) as E. pose proof (hp i ltac:(lia)) as P0. pose proof (hp (S i) ltac:(lia)) as P1.
      assert (KL : i = O \/ Rabs (z i) <= Rabs (z (S i))) by (destruct i; [ now left | right; apply K; lia ]).
      assert (KR : (S i = N - 2)%nat \/ Rabs (z (S (S i))) <= Rabs (z (S i))) by (destruct (Nat.eq_dec (S i) (N - 2)); [ now left | right; apply K; lia ]).
      assert (FL : i = O -> exists v u, z 0%nat = v * z 1%nat + u * z 2%nat /\ 0 <= v /\ ((natural = true /\ v = 0 /\ u = 0) \/ (u = - (h 0%nat / h 1%nat) /\ v = 1 + h 0%nat / h 1%nat))).
      { intros ->. unfold first_row in F. destruct natural.
        - exists 0, 0. split; [ rewrite F; ring | split; [ lra | left; auto ]].
        - exists (1 + h 0%nat / h 1%nat), (- (h 0%nat / h 1%nat)). split; [ | split; [ | right; split; reflexivity ]].
          + apply Rmult_eq_reg_l with (h 1%nat); [ | lra ]. unfold h in *. field_simplify; [ lra | lra ].
          + assert (0 < h 0%nat / h 1%nat) by (apply Rdiv_lt_0_compat; lra). lra. }
      assert (FR : (S i = N - 2)%nat -> exists v u, z (S (S i)) = v * z (S i) + u * z i /\ ((natural = true /\ v = 1 /\ u = 0) \/ (u = - (h (S i) / h i) /\ v = 1 + h (S i) / h i))).
      { intros e. unfold last_row in L. fold N in L. replace (N - 1)%nat with (S (S i)) in L by lia. rewrite <- e in L. destruct natural.
        - exists 1, 0. split; [ lra | left; auto ].
        - exists (1 + h (S i) / h i), (- (h (S i) / h i)). split; [ | right; split; reflexivity ].
          replace (N - 3)%nat with i in L by lia. apply Rmult_eq_reg_l with (h i); [ | lra ]. unfold h in *. field_simplify; lra. }
      destruct KL as [e0 | KL].
      - (* first interior row *)
        subst i. destruct (FL eq_refl) as (v & u & Ez & Hv & S). destruct KR as [e | KR]; [ lia | ].
        rewrite Ez in E. apply (dominant (h 0%nat * v + 2 * (h 0%nat + h 1%nat)) (h 0%nat * u + h 1%nat) 0 (z 1%nat) (z 2%nat) 0).
        + lra.
        + rewrite Rabs_R0. destruct S as [(_ & -> & ->) | [-> ->]].
          * rewrite !Rabs_pos_eq by lra. lra.
          * set (r := h 0%nat / h 1%nat). assert (0 < r) by (apply Rdiv_lt_0_compat; lra). rewrite (Rabs_pos_eq (h 0%nat * (1 + r) + _)) by nra.
            assert (Rabs (h 0%nat * - r + h 1%nat) < h 0%nat * (1 + r) + 2 * (h 0%nat + h 1%nat)) by (apply Rabs_def1; nra). lra.
        + exact KR.
        + rewrite Rabs_R0. apply Rabs_pos.
      - destruct KR as [e | KR].
        + destruct (FR e) as (v & u & Ez & S). rewrite Ez in E.
          apply (dominant (2 * (h i + h (Datatypes.S i)) + h (Datatypes.S i) * v) (h i + h (Datatypes.S i) * u) 0 (z (Datatypes.S i)) (z i) 0); [ lra | | exact KL | rewrite Rabs_R0; apply Rabs_pos ].
          rewrite Rabs_R0. destruct S as [(_ & -> & ->) | [-> ->]].
          * rewrite !Rabs_pos_eq by lra. lra.
          * set (r := h (Datatypes.S i) / h i). assert (0 < r) by (apply Rdiv_lt_0_compat; lra). rewrite (Rabs_pos_eq (_ + h (Datatypes.S i) * (1 + r))) by nra.
            assert (Rabs (h i + h (Datatypes.S i) * - r) < 2 * (h i + h (Datatypes.S i)) + h (Datatypes.S i) * (1 + r)) by (apply Rabs_def1; nra). lra.
        + apply (dominant_pos (2 * (h i + h (S i))) (h i) (h (S i)) (z (S i)) (z i) (z (S (S i)))); try lra; assumption. }
    intros i Hi. pose proof (K i Hi) as Q. rewrite Z, Rabs_R0 in Q. destruct (Req_dec (z i) 0) as [D | D]; [ exact D | pose proof (Rabs_pos_lt _ D); lra ]. }
  intros i Hi. destruct (Nat.eq_dec i 0) as [-> | n0]; [ | destruct (Nat.eq_dec i (N - 1)) as [-> | n1]; [ | apply I; lia ]].
  - unfold first_row in F. destruct natural; [ exact F | ]. rewrite (I 1%nat), (I 2%nat) in F by lia. fold (h 1%nat) in F. pose proof (hp 1%nat ltac:(lia)).
    apply Rmult_eq_reg_l with (h 1%nat); lra.
  - unfold last_row in L. fold N in L. destruct natural; [ rewrite (I (N - 2)%nat) in L by lia; lra | ]. rewrite (I (N - 2)%nat), (I (N - 3)%nat) in L by lia.
    pose proof (hp (N - 3)%nat ltac:(lia)) as H3. unfold h in H3. apply Rmult_eq_reg_l with (el x (S (N - 3)) - el x (N - 3)); lra.
Qed.
