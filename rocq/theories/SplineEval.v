(** * Evaluation of the spline model in terms of its pieces *)
From Coquelicot Require Import Coquelicot.
From Verif Require Import Np NpLemmas Interp OdeSpec InterpProofs SparseSpec Spline SplineSpec SplineLists SplineGlue.

Definition hh (k : nat) (x : list R) (i : nat) : R := knot k x (S i) - knot k x i.
Definition dd (x : list R) (i : nat) : R := el x i - knot 2 x i.
(** coefficients of piece i *)
Definition cC (k : nat) (x y co : list R) (i : nat) : R :=
  match k with 1%nat => 0 | 2%nat => (el co (S i) - el co i) / (2 * hh 2 x i) | _ => el co i end.
Definition cD (k : nat) (x y co : list R) (i : nat) : R :=
  match k with 1%nat => 0 | 2%nat => 0 | _ => (el co (S i) - el co i) / (3 * hh 3 x i) end.
Definition cB (k : nat) (x y co : list R) (i : nat) : R :=
  match k with 1%nat => el co i | 2%nat => el co i | _ => (el y (S i) - el y i) / hh 3 x i - (2 * el co i + el co (S i)) * hh 3 x i / 3 end.
Definition cA (k : nat) (x y co : list R) (i : nat) : R :=
  match k with 2%nat => el y i - el co i * dd x i - (el co (S i) - el co i) * dd x i ^ 2 / (2 * hh 2 x i) | _ => el y i end.

Definition degree (k : nat) : Prop := (k = 1 \/ k = 2 \/ k = 3)%nat.
Definition n_coef (k : nat) (x : list R) : nat := match k with 1 => length x - 1 | 2 => S (length x) | _ => length x end%nat.
Definition shape (k : nat) (x y co : list R) : Prop := degree k /\ length y = length x /\ (k < length x)%nat /\ length co = n_coef k x.

Definition cubic_d (n : nat) (a b c d u : R) : R :=
  match n with 0%nat => cubic a b c d u | 1%nat => b + 2 * c * u + 3 * d * u ^ 2 | 2%nat => 2 * c + 6 * d * u | 3%nat => 6 * d | _ => 0 end.
Definition quart (a b c d u : R) : R := a * u + b * u ^ 2 / 2 + c * u ^ 3 / 3 + d * u ^ 4 / 4.

Lemma el_diff_knots k x i : (2 <= length x)%nat -> (i < n_pieces k x)%nat -> el (diff (spline_knots (kz k) x)) i = hh k x i.
Proof. intros H Hi. rewrite el_diff by (rewrite length_knots by exact H; lia). rewrite !el_knots by (assumption || lia). reflexivity. Qed.
Lemma el_dt x i : (2 <= length x)%nat -> (i < length x)%nat -> el (vsub x (init (spline_knots 2 x))) i = dd x i.
Proof.
  intros H Hi. change 2%Z with (kz 2). unfold vsub. rewrite el_map2.
  - rewrite el_init by (rewrite length_knots by exact H; unfold n_pieces; simpl; lia). rewrite el_knots by (assumption || (unfold n_pieces; simpl; lia)). reflexivity.
  - rewrite length_init, length_knots by exact H. unfold n_pieces. simpl. lia.
  - exact Hi.
Qed.

Lemma coeffs_eq k x y co e q : shape k x y co -> let i := index k x q in incr x ->
  compute_coeffs (Spline (kz k) x y co e) q = (q - knot k x i, cA k x y co i, cB k x y co i, cC k x y co i, cD k x y co i).
Proof.
  intros (Hk & Hy & HN & Hc) i Hx. assert (H2 : (2 <= length x)%nat) by (destruct Hk as [-> | [-> | ->]]; lia).
  destruct (index_spec k x q H2 Hx) as (Hi & _ & _). fold i in Hi. unfold compute_coeffs. simpl sp_k; simpl sp_x; simpl sp_y; simpl sp_coef. cbv zeta.
  rewrite index_Z by exact H2. fold i.
  rewrite (getZ_nat (spline_knots (kz k) x) i), (getZ_nat (diff _) i) by (rewrite ?length_diff, length_knots by exact H2; lia).
  rewrite el_knots by (assumption || lia). rewrite el_diff_knots by assumption.
  replace (Z.of_nat i + 1)%Z with (Z.of_nat (S i)) by lia.
  destruct Hk as [-> | [-> | ->]]; unfold n_pieces in Hi; simpl in Hi, Hc; change (kz 1) with 1%Z; change (kz 2) with 2%Z; change (kz 3) with 3%Z; cbv beta iota delta [Z.eqb Pos.eqb].
  - rewrite !getZ_nat by lia. reflexivity.
  - rewrite (getZ_nat y i), (getZ_nat co i), (getZ_nat co (S i)) by lia.
    rewrite getZ_nat by (unfold vsub; rewrite len_map2; rewrite ?length_init; change 2%Z with (kz 2); rewrite ?length_knots by exact H2; unfold n_pieces; simpl; lia).
    rewrite el_dt by (assumption || lia). reflexivity.
  - rewrite !getZ_nat by lia. unfold cA, cB, cC, cD. replace (3.0) with 3 by lra. reflexivity.
Qed.

Definition P (k : nat) (x y co : list R) (n i : nat) (q : R) : R :=
  cubic_d n (cA k x y co i) (cB k x y co i) (cC k x y co i) (cD k x y co i) (q - knot k x i).
Lemma call_eq k x y co e q : shape k x y co -> incr x -> spline_call (Spline (kz k) x y co e) q = P k x y co 0 (index k x q) q.
Proof.
  intros Hs Hx. unfold spline_call. rewrite (coeffs_eq k x y co e q Hs Hx). destruct Hs as (Hk & _). simpl sp_k. unfold P, cubic_d, cubic.
  destruct Hk as [-> | [-> | ->]]; simpl; ring.
Qed.
Lemma derivative_eq k x y co e q n : shape k x y co -> incr x -> (n <= k)%nat ->
  spline_derivative (Spline (kz k) x y co e) q (Z.of_nat n) = Ok (P k x y co n (index k x q) q).
Proof.
  intros Hs Hx Hn. unfold spline_derivative. simpl sp_k.
  assert (K : negb ((0 <=? Z.of_nat n)%Z && (Z.of_nat n <? kz k + 1)%Z) = false).
  { unfold kz. destruct (Z.leb_spec 0 (Z.of_nat n)); [ | lia ]. destruct (Z.ltb_spec (Z.of_nat n) (Z.of_nat k + 1)); [ reflexivity | lia ]. }
  rewrite K. destruct (Nat.eq_dec n 0) as [-> | n0]; [ simpl; f_equal; now apply call_eq | ].
  destruct (Z.eqb_spec (Z.of_nat n) 0); [ lia | ]. rewrite (coeffs_eq k x y co e q Hs Hx). destruct Hs as (Hk & _).
  destruct Hk as [-> | [-> | ->]]; destruct n as [ | [ | [ | [ | n]]]]; try lia; simpl; f_equal; unfold P, cubic_d; simpl; try ring.
Qed.
Lemma derivative_bad s q n : (n < 0 \/ sp_k s < n)%Z -> spline_derivative s q n = Err AssertionError.
Proof.
  intros H. unfold spline_derivative. replace (negb ((0 <=? n)%Z && (n <? sp_k s + 1)%Z)) with true; [ reflexivity | ].
  symmetry. apply negb_true_iff, andb_false_iff. destruct H; [ left; apply Z.leb_gt; lia | right; apply Z.ltb_ge; lia ].
Qed.


Ltac len := unfold vadd, vsub, vmul, vdiv, vscale, vsq; repeat (rewrite map_length || rewrite length_tl' || rewrite length_init || rewrite length_diff || rewrite len_map2); try lia.
Definition w (k : nat) (x y co : list R) (j : nat) (u : R) : R := quart (cA k x y co j) (cB k x y co j) (cC k x y co j) (cD k x y co j) u.
Definition Q (k : nat) (x y co : list R) (i : nat) (q : R) : R :=
  Rsum i (fun j => w k x y co j (hh k x j)) + w k x y co i (q - knot k x i).
Lemma cst_eq v M i g : length v = M -> (i < M)%nat -> (forall j, (j < M)%nat -> el v j = g j) -> getZ 0 (0 :: cumsum v) (Z.of_nat i) = Rsum i g.
Proof.
  intros L Hi H. rewrite getZ_nat by (simpl; rewrite length_cumsum; lia). rewrite el_cst by lia. apply Rsum_ext. intros j Hj. apply H. lia.
Qed.
Lemma anti_eq k x y co e q : shape k x y co -> incr x -> spline_antiderivative (Spline (kz k) x y co e) q = Q k x y co (index k x q) q.
Proof.
  intros (Hk & Hy & HN & Hc) Hx. assert (H2 : (2 <= length x)%nat) by (destruct Hk as [-> | [-> | ->]]; lia).
  set (i := index k x q). destruct (index_spec k x q H2 Hx) as (Hi & _ & _). fold i in Hi.
  unfold spline_antiderivative. simpl sp_k; simpl sp_x; simpl sp_y; simpl sp_coef. cbv zeta.
  rewrite index_Z by exact H2. fold i.
  rewrite (getZ_nat (spline_knots (kz k) x) i) by (rewrite length_knots by exact H2; lia). rewrite el_knots by (assumption || lia).
  pose proof (length_knots k x H2) as LK. pose proof (fun j => el_diff_knots k x j H2) as EH. pose proof (fun j => el_dt x j H2) as ED.
  assert (Lh : length (diff (spline_knots (kz k) x)) = n_pieces k x) by (rewrite length_diff; lia).
  assert (EY : forall j, (j < length x - 1)%nat -> el (init y) j = el y j) by (intros; apply el_init; lia).
  destruct Hk as [-> | [-> | ->]]; unfold n_pieces in *; simpl Nat.eqb in *; cbv iota in *; simpl n_coef in Hc;
    change (kz 1) with 1%Z in *; change (kz 2) with 2%Z in *; change (kz 3) with 3%Z in *; cbv beta iota delta [Z.eqb Pos.eqb].
  - set (h := diff _) in *.
    rewrite (cst_eq _ (length x - 1) i (fun j => w 1 x y co j (hh 1 x j))); [ | len | lia | ].
    + rewrite !getZ_nat by (len). rewrite EY by lia. unfold Q, w, quart. simpl. field.
    + intros j Hj. unfold vadd. rewrite el_map2 by len. rewrite el_map by len. unfold vmul. rewrite !el_map2 by len. unfold vsq. rewrite el_map by len.
      rewrite EY, EH by lia. unfold w, quart. simpl. field.
  - set (h := diff _) in *. set (dt := vsub x _) in *.
    assert (Ld : length dt = length x) by (unfold dt; len).
    assert (EB : forall j, (j < length x)%nat -> el (init co) j = el co j) by (intros; apply el_init; lia).
    assert (EC : forall j, (j < length x)%nat -> el (vdiv (vsub (tl co) (init co)) (vscale 2 h)) j = cC 2 x y co j).
    { intros j Hj. unfold vdiv. rewrite el_map2 by len. unfold vsub. rewrite el_map2 by len. unfold vscale. rewrite el_map by len. rewrite el_tl, EB, EH by lia. reflexivity. }
    assert (EA : forall j, (j < length x)%nat -> el (vsub (vsub y (vmul (init co) dt)) (vdiv (vmul (vsub (tl co) (init co)) (vsq dt)) (vscale 2 h))) j = cA 2 x y co j).
    { intros j Hj. unfold vsub. rewrite el_map2 by len. unfold vdiv. rewrite !el_map2 by len. unfold vmul. rewrite !el_map2 by len. unfold vscale, vsq. rewrite !el_map by len.
      rewrite el_tl, EB, EH, ED by lia. reflexivity. }
    assert (LC : length (vdiv (vsub (tl co) (init co)) (vscale 2 h)) = length x) by len.
    assert (LA : length (vsub (vsub y (vmul (init co) dt)) (vdiv (vmul (vsub (tl co) (init co)) (vsq dt)) (vscale 2 h))) = length x) by len.
    set (vc := vdiv (vsub (tl co) (init co)) (vscale 2 h)) in *. set (va := vsub (vsub y (vmul (init co) dt)) _) in *. clearbody vc va.
    rewrite (cst_eq _ (length x) i (fun j => w 2 x y co j (hh 2 x j))); [ | len | lia | ].
    + rewrite !getZ_nat by (len). rewrite EA, EC, EB by lia. unfold Q, w, quart. simpl cB. simpl cD. field.
    + intros j Hj. unfold vadd. rewrite !el_map2 by len. rewrite !el_map by len. unfold vmul, vsq. rewrite !el_map2 by len. rewrite !el_map by len.
      rewrite EA, EC, EB, EH by lia. unfold w, quart. simpl cB. simpl cD. field.
  - set (h := diff _) in *.
    assert (EB : forall j, (j < length x - 1)%nat -> el (init co) j = el co j) by (intros; apply el_init; lia).
    assert (EC : forall j, (j < length x - 1)%nat -> el (vdiv (vsub (tl co) (init co)) (vscale 3 h)) j = cD 3 x y co j).
    { intros j Hj. unfold vdiv. rewrite el_map2 by len. unfold vsub. rewrite el_map2 by len. unfold vscale. rewrite el_map by len. rewrite el_tl, EB, EH by lia. reflexivity. }
    assert (EA : forall j, (j < length x - 1)%nat -> el (vsub (vdiv (vsub (tl y) (init y)) h) (map (fun u => u / 3.0) (vmul (vadd (vscale 2 (init co)) (tl co)) h))) j = cB 3 x y co j).
    { intros j Hj. unfold vsub. rewrite el_map2 by len. rewrite el_map by len. unfold vdiv. rewrite !el_map2 by len. unfold vmul. rewrite !el_map2 by len. unfold vadd, vscale. rewrite !el_map2 by len. rewrite !el_map by len.
      rewrite !el_tl, EB, EY, EH by lia. unfold cB. replace (3.0) with 3 by lra. reflexivity. }
    assert (LC : length (vdiv (vsub (tl co) (init co)) (vscale 3 h)) = (length x - 1)%nat) by len.
    assert (LA : length (vsub (vdiv (vsub (tl y) (init y)) h) (map (fun u => u / 3.0) (vmul (vadd (vscale 2 (init co)) (tl co)) h))) = (length x - 1)%nat) by len.
    set (vc := vdiv (vsub (tl co) (init co)) (vscale 3 h)) in *. set (va := vsub (vdiv (vsub (tl y) (init y)) h) _) in *. clearbody vc va.
    rewrite (cst_eq _ (length x - 1) i (fun j => w 3 x y co j (hh 3 x j))); [ | len | lia | ].
    + rewrite !getZ_nat by (len). rewrite EA, EC, EB, EY by lia. unfold Q, w, quart. simpl cA. simpl cC. field.
    + intros j Hj. unfold vadd. rewrite !el_map2 by len. rewrite !el_map by len. unfold vmul, vsq. rewrite !el_map2 by len. rewrite !el_map by len.
      rewrite EA, EC, EB, EY, EH by lia. unfold w, quart. simpl cA. simpl cC. field.
Qed.
