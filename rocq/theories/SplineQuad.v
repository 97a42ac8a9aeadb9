(** * The linear system of the quadratic spline, and solvability of both systems *)
From Coquelicot Require Import Coquelicot.
From Verif Require Import Np NpLemmas Interp OdeSpec InterpProofs SparseSpec CovProofs Spline SplineSpec SplineLists SplineEval SplineSystem.

Section Quad.
Variables x y : list R.
Let N := length x.
Hypothesis HN : (2 < N)%nat.
Hypothesis Hy : length y = N.
Let h i := hh 2 x i.
Let dt i := dd x i.
Let p i := el y (S i) - el y i.
Definition qfirst (z : nat -> R) : R := z 0%nat - (1 + h 0 / h 1) * z 1%nat + h 0 / h 1 * z 2%nat.
Definition qlast (z : nat -> R) : R := z N - (1 + h (N - 1) / h (N - 2)) * z (N - 1)%nat + h (N - 1) / h (N - 2) * z (N - 2)%nat.
Definition qmid (z : nat -> R) (i : nat) : R :=
  (h i - 2 * dt i + dt i ^ 2 / h i) * z i + (2 * dt (S i) - dt (S i) ^ 2 / h (S i) - dt i ^ 2 / h i + h i) * z (S i) + dt (S i) ^ 2 / h (S i) * z (S (S i)).
Definition qrhs (i : nat) : R := 2 * p i.

Lemma quad_matrix_rows : wf2 (S N) (S N) (quad_matrix x) /\ forall z i, (i < S N)%nat ->
  Rsum (S N) (fun j => el2 (quad_matrix x) i j * z j) = if Nat.eqb i 0 then qfirst z else if Nat.eqb i N then qlast z else qmid z (i - 1).
Proof.
  clear p Hy y. assert (H2 : (2 <= length x)%nat) by (fold N; lia).
  assert (Lk : length (quad_knots x) = S N) by (apply length_quad_knots; exact H2).
  assert (Lh : length (diff (quad_knots x)) = N) by (rewrite length_diff, Lk; lia).
  assert (Eh : forall i, (i < N)%nat -> el (diff (quad_knots x)) i = h i) by (intros i Hi; exact (el_diff_knots 2 x i H2 Hi)).
  assert (Ld : length (vsub x (init (quad_knots x))) = N) by (unfold vsub; rewrite len_map2; rewrite ?length_init, ?Lk; fold N; lia).
  assert (Ed : forall i, (i < N)%nat -> el (vsub x (init (quad_knots x))) i = dt i) by (intros i Hi; exact (el_dt x i H2 Hi)).
  set (hl := diff (quad_knots x)) in *. set (dl := vsub x (init (quad_knots x))) in *.
  set (d := ([1] ++ vadd (vsub (vsub (vscale 2 (tl dl)) (vdiv (vsq (tl dl)) (tl hl))) (vdiv (vsq (init dl)) (init hl))) (init hl) ++ [1])%list).
  set (u1 := ([- (1 + getZ 0 hl 0 / getZ 0 hl 1)] ++ vdiv (vsq (tl dl)) (tl hl))%list).
  set (u2 := ([getZ 0 hl 0 / getZ 0 hl 1] ++ vzeros (S N - 3))%list).
  set (l1 := (vadd (vsub (init hl) (vscale 2 (init dl))) (vdiv (vsq (init dl)) (init hl)) ++ [- (1 + getZ 0 hl (-1) / getZ 0 hl (-2))])%list).
  set (l2 := (vzeros (S N - 3) ++ [getZ 0 hl (-1) / getZ 0 hl (-2)])%list).
  assert (E : quad_matrix x = madd (madd (madd (madd (diag d) (diag_up 1 u1)) (diag_up 2 u2)) (diag_lo 1 l1)) (diag_lo 2 l2)) by (unfold quad_matrix; cbv zeta; rewrite Lk; reflexivity).
  rewrite E. clear E. clearbody hl dl.
  assert (K0 : length d = S N) by (unfold d; rewrite !app_length; len; simpl; lia).
  assert (K1 : (length u1 + 1 = S N)%nat) by (unfold u1; rewrite !app_length; len; simpl; lia).
  assert (K2 : (length u2 + 2 = S N)%nat) by (unfold u2, vzeros; rewrite !app_length, repeat_length; simpl; lia).
  assert (K3 : (length l1 + 1 = S N)%nat) by (unfold l1; rewrite !app_length; len; simpl; lia).
  assert (K4 : (length l2 + 2 = S N)%nat) by (unfold l2, vzeros; rewrite !app_length, repeat_length; simpl; lia).
  pose proof (wf2_diag _ d K0) as W0. pose proof (wf2_up _ 1 u1 K1) as W1. pose proof (wf2_up _ 2 u2 K2) as W2. pose proof (wf2_lo _ 1 l1 K3) as W3. pose proof (wf2_lo _ 2 l2 K4) as W4.
  pose proof (wf2_madd _ _ _ _ W0 W1) as V1. pose proof (wf2_madd _ _ _ _ V1 W2) as V2. pose proof (wf2_madd _ _ _ _ V2 W3) as V3.
  split; [ now apply wf2_madd | ]. intros z i Hi.
  rewrite (band_row (S N) d u1 u2 l1 l2); [ | exact Hi | ].
  - unfold band.
    assert (Z2 : forall j, el u2 (S j) = 0) by (intros j; unfold u2; simpl app; rewrite el_cons; apply el_vzeros).
    assert (Z4 : forall j, (j < S N - 3)%nat -> el l2 j = 0) by (intros j Hj; unfold l2; rewrite el_app1 by (unfold vzeros; rewrite repeat_length; lia); apply el_vzeros).
    assert (U1 : forall j, (S j < N)%nat -> el u1 (S j) = dt (S j) ^ 2 / h (S j)).
    { intros j Hj. unfold u1. simpl app. rewrite el_cons. unfold vdiv. rewrite el_map2 by len. unfold vsq. rewrite el_map by len. rewrite !el_tl, Eh, Ed by lia. reflexivity. }
    assert (L1' : forall j, (S j < N)%nat -> el l1 j = h j - 2 * dt j + dt j ^ 2 / h j).
    { intros j Hj. unfold l1. rewrite el_app1 by len. unfold vadd. rewrite el_map2 by len. unfold vsub, vdiv. rewrite !el_map2 by len. unfold vsq, vscale. rewrite !el_map by len. rewrite !el_init by lia. rewrite Eh, Ed by lia. reflexivity. }
    assert (D1 : forall j, (S j < N)%nat -> el d (S j) = 2 * dt (S j) - dt (S j) ^ 2 / h (S j) - dt j ^ 2 / h j + h j).
    { intros j Hj. unfold d. simpl app. rewrite el_cons. rewrite el_app1 by len. unfold vadd. rewrite el_map2 by len. unfold vsub. rewrite !el_map2 by len. unfold vdiv. rewrite !el_map2 by len.
      unfold vscale, vsq. rewrite !el_map by len. rewrite !el_init, !el_tl, !Eh, !Ed by lia. reflexivity. }
    destruct (Nat.eqb_spec i 0) as [-> | n0]; [ | destruct (Nat.eqb_spec i N) as [-> | n1] ].
    + destruct (Nat.ltb_spec (0 + 1) (S N)); [ | lia ]. destruct (Nat.ltb_spec (0 + 2) (S N)); [ | lia ]. simpl Nat.leb. cbv iota.
      change (el d 0) with 1. change (el u1 0) with (- (1 + getZ 0 hl 0 / getZ 0 hl 1)). change (el u2 0) with (getZ 0 hl 0 / getZ 0 hl 1).
      rewrite getZ_0, getZ_1, !Eh by lia. unfold qfirst. simpl Nat.add. ring.
    + destruct (Nat.ltb_spec (N + 1) (S N)); [ lia | ]. destruct (Nat.ltb_spec (N + 2) (S N)); [ lia | ]. destruct (Nat.leb_spec 1 N); [ | lia ]. destruct (Nat.leb_spec 2 N); [ | lia ].
      assert (EN : el d N = 1). { unfold d. rewrite app_assoc, el_app2 by (rewrite app_length; len; simpl; lia). replace (_ - _)%nat with 0%nat by (rewrite app_length; len; simpl; lia). reflexivity. }
      assert (E1 : el l1 (N - 1) = - (1 + getZ 0 hl (-1) / getZ 0 hl (-2))). { unfold l1. rewrite el_app2 by (len). replace (_ - length _)%nat with 0%nat by (len). reflexivity. }
      assert (E2 : el l2 (N - 2) = getZ 0 hl (-1) / getZ 0 hl (-2)). { unfold l2, vzeros. rewrite el_app2 by (rewrite repeat_length; lia). rewrite repeat_length. replace (N - 2 - (S N - 3))%nat with 0%nat by lia. reflexivity. }
      rewrite EN, E1, E2. rewrite getZ_m1, getZ_m2 by lia. rewrite Lh, !Eh by lia. unfold qlast. ring.
    + destruct i as [ | i]; [ lia | ]. destruct (Nat.ltb_spec (S i + 1) (S N)); [ | lia ]. destruct (Nat.leb_spec 1 (S i)); [ | lia ].
      rewrite D1, U1, Z2 by lia. replace (S i - 1)%nat with i by lia. rewrite L1' by lia. replace (S i + 1)%nat with (S (S i)) by lia. unfold qmid.
      destruct (Nat.leb 2 (S i)) eqn:K; [ rewrite Z4 by lia | ]; destruct (Nat.ltb (S i + 2) (S N)); ring.
  - intros j Hj. rewrite (el2_madd (S N) (S N) _ _ i j V3 W4 Hi), (el2_madd (S N) (S N) _ _ i j V2 W3 Hi), (el2_madd (S N) (S N) _ _ i j V1 W2 Hi), (el2_madd (S N) (S N) _ _ i j W0 W1 Hi).
    rewrite (el2_diag (S N) d), (el2_up (S N) 1 u1), (el2_up (S N) 2 u2), (el2_lo (S N) 1 l1), (el2_lo (S N) 2 l2) by assumption. ring.
Qed.
Lemma quad_rhs_rows : length (quad_rhs y) = S N /\ forall i, (i < S N)%nat -> el (quad_rhs y) i = if Nat.eqb i 0 then 0 else if Nat.eqb i N then 0 else qrhs (i - 1).
Proof.
  unfold quad_rhs. split; [ rewrite !app_length; len; simpl; lia | ]. intros i Hi.
  destruct (Nat.eqb_spec i 0) as [-> | n0]; [ reflexivity | ]. destruct i as [ | i]; [ lia | ]. simpl app. rewrite el_cons.
  destruct (Nat.eqb_spec (S i) N) as [e | n1].
  - rewrite el_app2 by len. replace (i - _)%nat with 0%nat by len. reflexivity.
  - rewrite el_app1 by len. unfold vscale. rewrite el_map by len. rewrite el_diff by lia. replace (S i - 1)%nat with i by lia. reflexivity.
Qed.
Definition quad_system (z : nat -> R) : Prop := qfirst z = 0 /\ qlast z = 0 /\ forall i, (i < N - 1)%nat -> qmid z i = qrhs i.
Lemma quad_matvec z : is_matvec (S N) (S N) (quad_matrix x) z (quad_rhs y) <-> quad_system (el z).
Proof.
  destruct quad_matrix_rows as [_ R]. destruct quad_rhs_rows as [L E]. unfold is_matvec, quad_system. split.
  - intros [_ H]. split; [ | split ].
    + pose proof (H 0%nat ltac:(lia)) as K. rewrite R, E in K by lia. simpl in K. now symmetry.
    + pose proof (H N ltac:(lia)) as K. rewrite R, E in K by lia. rewrite Nat.eqb_refl in K. destruct (Nat.eqb_spec N 0); [ lia | ]. now symmetry.
    + intros i Hi. pose proof (H (S i) ltac:(lia)) as K. rewrite R, E in K by lia. destruct (Nat.eqb_spec (S i) 0); [ lia | ]. destruct (Nat.eqb_spec (S i) N); [ lia | ].
      replace (S i - 1)%nat with i in K by lia. now symmetry.
  - intros (H1 & H2 & H3). split; [ exact L | ]. intros i Hi. rewrite R, E by exact Hi.
    destruct (Nat.eqb_spec i 0); [ now symmetry | ]. destruct (Nat.eqb_spec i N); [ now symmetry | ]. symmetry. apply H3. lia.
Qed.
End Quad.

Lemma knot2_between x i : incr x -> (2 <= length x)%nat -> (i < length x)%nat -> 0 < dd x i < hh 2 x i.
Proof.
  intros Hx H2 Hi. unfold hh, dd, knot. change (Nat.eqb 2 2) with true. cbv iota.
  assert (X : forall a b, (a < b < length x)%nat -> el x a < el x b) by exact Hx.
  destruct (Nat.eqb_spec i 0) as [-> | n0].
  - destruct (Nat.eqb_spec 1 0); [ lia | ]. destruct (Nat.eqb_spec 1 (length x)); [ lia | ]. simpl Nat.sub. pose proof (X 0 1 ltac:(lia))%nat. lra.
  - destruct (Nat.eqb_spec i (length x)); [ lia | ]. destruct (Nat.eqb_spec (S i) 0); [ lia | ]. replace (S i - 1)%nat with i by lia. pose proof (X (i - 1) i ltac:(lia))%nat.
    destruct (Nat.eqb_spec (S i) (length x)) as [e | e].
    + replace (length x - 1)%nat with i by lia. replace (length x - 2)%nat with (i - 1)%nat by lia. lra.
    + pose proof (X i (S i) ltac:(lia))%nat. lra.
Qed.

Lemma quad_kernel x z : (2 < length x)%nat -> incr x -> qfirst x z = 0 -> qlast x z = 0 -> (forall i, (i < length x - 1)%nat -> qmid x z i = 0) ->
  forall i, (i <= length x)%nat -> z i = 0.
Proof.
  intros HN Hx F L Mr. set (N := length x) in *. set (h := hh 2 x). set (dt := dd x).
  assert (B : forall i, (i < N)%nat -> 0 < dt i < h i) by (intros i Hi; apply knot2_between; (assumption || (fold N; lia))).
  set (al := fun i => h i - 2 * dt i + dt i ^ 2 / h i). set (ga := fun i => dt (S i) ^ 2 / h (S i)).
  set (de := fun i => 2 * dt (S i) - dt (S i) ^ 2 / h (S i) - dt i ^ 2 / h i + h i).
  assert (Rw : forall i, (i < N - 1)%nat -> al i * z i + de i * z (S i) + ga i * z (S (S i)) = 0) by (intros i Hi; exact (Mr i Hi)).
  assert (Sg : forall i, (i < N - 1)%nat -> 0 < al i /\ 0 < ga i /\ al i + ga i < de i).
  { intros i Hi. pose proof (B i ltac:(lia)) as [B1 B2]. pose proof (B (S i) ltac:(lia)) as [B3 B4]. unfold al, ga, de.
    assert (Q1 : dt i ^ 2 / h i < dt i). { replace (dt i ^ 2 / h i) with (dt i * (dt i / h i)) by (field; lra). assert (dt i / h i < 1) by (apply Rlt_div_l; lra). nra. }
    assert (Q2 : dt (S i) ^ 2 / h (S i) < dt (S i)). { replace (dt (S i) ^ 2 / h (S i)) with (dt (S i) * (dt (S i) / h (S i))) by (field; lra). assert (dt (S i) / h (S i) < 1) by (apply Rlt_div_l; lra). nra. }
    assert (Q3 : 0 < dt (S i) ^ 2 / h (S i)) by (apply Rdiv_lt_0_compat; nra).
    assert (Q4 : 0 < h i - 2 * dt i + dt i ^ 2 / h i). { replace (h i - 2 * dt i + dt i ^ 2 / h i) with ((h i - dt i) ^ 2 / h i) by (field; lra). apply Rdiv_lt_0_compat; nra. }
    lra. }
  set (r := h 0%nat / h 1%nat). assert (Hr : 0 < r) by (pose proof (B 0%nat ltac:(lia)); pose proof (B 1%nat ltac:(lia)); apply Rdiv_lt_0_compat; lra).
  set (r' := h (N - 1)%nat / h (N - 2)%nat). assert (Hr' : 0 < r') by (pose proof (B (N - 1)%nat ltac:(lia)); pose proof (B (N - 2)%nat ltac:(lia)); apply Rdiv_lt_0_compat; lra).
  assert (F' : z 0%nat = (1 + r) * z 1%nat - r * z 2%nat) by (unfold qfirst in F; fold h r in F; lra).
  assert (L' : z N = (1 + r') * z (N - 1)%nat - r' * z (N - 2)%nat) by (unfold qlast in L; fold N h r' in L; lra).
  assert (I : forall i, (1 <= i <= N - 1)%nat -> z i = 0).
  { destruct (max_index z 1 (N - 1) ltac:(lia)) as (m & Hm & K).
    assert (Z : z m = 0).
    { destruct m as [ | i]; [ lia | ]. pose proof (Rw i ltac:(lia)) as E. destruct (Sg i ltac:(lia)) as (P1 & P2 & P3).
      destruct (Nat.eq_dec i 0) as [e0 | n0].
      - subst i. rewrite F' in E. apply (dominant (de 0%nat + al 0%nat * (1 + r)) (ga 0%nat - al 0%nat * r) 0 (z 1%nat) (z 2%nat) 0); [ lra | | apply K; lia | rewrite Rabs_R0; apply Rabs_pos ].
        rewrite Rabs_R0, (Rabs_pos_eq (de 0%nat + _)) by nra. assert (Rabs (ga 0%nat - al 0%nat * r) < de 0%nat + al 0%nat * (1 + r)) by (apply Rabs_def1; nra). lra.
      - destruct (Nat.eq_dec (S i) (N - 1)) as [e | e].
        + replace (S (S i)) with N in E by lia. rewrite L' in E. rewrite <- e in E. replace (N - 2)%nat with i in E by lia.
          apply (dominant (de i + ga i * (1 + r')) (al i - ga i * r') 0 (z (S i)) (z i) 0); [ lra | | apply K; lia | rewrite Rabs_R0; apply Rabs_pos ].
          rewrite Rabs_R0, (Rabs_pos_eq (de i + _)) by nra. assert (Rabs (al i - ga i * r') < de i + ga i * (1 + r')) by (apply Rabs_def1; nra). lra.
        + apply (dominant_pos (de i) (al i) (ga i) (z (S i)) (z i) (z (S (S i)))); try lra; apply K; lia. }
    intros i Hi. pose proof (K i Hi) as Q. rewrite Z, Rabs_R0 in Q. destruct (Req_dec (z i) 0) as [D | D]; [ exact D | pose proof (Rabs_pos_lt _ D); lra ]. }
  intros i Hi. destruct (Nat.eq_dec i 0) as [-> | n0]; [ | destruct (Nat.eq_dec i N) as [-> | n1]; [ | apply I; lia ]].
  - rewrite F', (I 1%nat), (I 2%nat) by lia. ring.
  - rewrite L', (I (N - 1)%nat), (I (N - 2)%nat) by lia. ring.
Qed.
