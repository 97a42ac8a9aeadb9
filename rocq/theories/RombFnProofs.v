(** * Quadratures of python functions *)
From Verif Require Import Np NpLemmas Integrate IntegrateSpec SimpsProofs RombProofs Nd NdSpec NdProofs RombFn RombFnSpec.

Lemma flat_vectorised F f v : vectorised F f -> flat (on_vector F v) = map f v.
Proof.
  intros [_ H]. destruct (H v) as [Hs Hg]. unfold flat. rewrite Hs, indices_1, map_map. rewrite <- (map_seq_el f v). apply map_ext_in. intros i Hi. apply in_seq in Hi. apply Hg. lia.
Qed.
Lemma total_vectorised F f a b n : vectorised F f -> difftrapn_fn F a b n = difftrapn f a b n.
Proof. intros H. unfold difftrapn_fn, difftrapn, total. cbv zeta. now rewrite (flat_vectorised F f _ H). Qed.
Lemma loop_vectorised F f a b fuel : vectorised F f -> forall i o st e, romb_loop_fn F a b fuel i o st e = romb_loop f a b fuel i o st e.
Proof.
  intros H. induction fuel as [ | fuel IH]; intros i o st e; [ reflexivity | ]. cbn [romb_loop_fn romb_loop]. cbv zeta. rewrite (total_vectorised F f a b _ H). apply IH.
Qed.
Lemma romb_vectorised {X} (F : X -> pyfn) args f a b d : vectorised (F args) f -> romb_fn F args a b d = romb f a b d.
Proof.
  intros H. unfold romb_fn, romb, difftrap1. rewrite !(proj1 H). cbv zeta. destruct d as [ | d]; [ reflexivity | ]. now rewrite (loop_vectorised (F args) f a b _ H).
Qed.
Theorem vectorised_value {X} (F : X -> pyfn) args f a b d : vectorised (F args) f -> (1 <= d)%nat ->
  romb_fn F args a b d = Ok (romberg f a b d d, Rabs (romberg f a b (d - 1) (d - 1) - romberg f a b d d)).
Proof. intros H Hd. rewrite (romb_vectorised F args f a b d H). now apply romb_value. Qed.
Theorem simps_vectorised F f a b N : vectorised F f -> Nat.even N = true -> (2 <= N)%nat -> simps_fn F a b N = Ok (simpson f a b N).
Proof.
  intros H HE HN. rewrite <- (simps_eq f a b N HE HN). unfold simps_fn, simps. rewrite (proj1 (proj2 H _)). cbv zeta. now rewrite (flat_vectorised F f _ H).
Qed.
Theorem simps_constant F y a b N : ignores_argument F y -> Nat.even N = true -> simps_fn F a b N = Err TypeError.
Proof. intros H HE. unfold simps_fn. rewrite (even_mod N HE). cbv zeta. rewrite (proj2 H). reflexivity. Qed.

(** ** functions that ignore their argument *)
Section Constant.
Variables (F : pyfn) (y a b : R).
Hypothesis HF : ignores_argument F y.
Definition trap (i : nat) : R := (b - a) * (y * (INR i + 1)) / INR (2 ^ i).
Lemma const_total n : difftrapn_fn F a b n = y.
Proof. unfold difftrapn_fn. cbv zeta. rewrite (proj2 HF). unfold total, flat. cbn. ring. Qed.
Lemma const_loop d fuel : forall i ordsum state err,
  (1 <= i)%nat -> (i + fuel = d + 1)%nat -> length state = (d + 1)%nat -> ordsum = y * INR i ->
  (forall j, (j <= i - 1)%nat -> el state j = richardson trap (i - 1) j) ->
  let '(i', st, err') := romb_loop_fn F a b fuel i ordsum state err in i' = d /\ el st d = richardson trap d d.
Proof.
  induction fuel as [ | fuel IH]; intros i ordsum state err Hi Hd L HT HS.
  - simpl. replace (i - 1)%nat with d in * by lia. split; [ lia | apply HS; lia ].
  - cbn [romb_loop_fn]. cbv zeta. rewrite const_total. set (x := (b - a) * (ordsum + y) / INR (2 ^ i)).
    assert (HX : x = trap i) by (unfold x, trap; rewrite HT; f_equal; ring).
    destruct (romb_row_spec x state d L) as (RL & R0 & RS).
    assert (ROW : forall j, (j <= i)%nat -> el (romb_row x state) j = richardson trap i j).
    { induction j as [ | j IHj]; intros Hj; [ rewrite R0, HX; destruct i; reflexivity | ].
      rewrite RS by lia. rewrite IHj, HS by lia. destruct i as [ | i]; [ lia | ]. replace (Datatypes.S i - 1)%nat with i by lia. rewrite Nat.add_1_r. reflexivity. }
    apply IH; [ lia | lia | exact RL | rewrite HT, plus_INR; simpl; ring | ]. replace (i + 1 - 1)%nat with i by lia. exact ROW.
Qed.
End Constant.
Theorem constant_richardson {X} (F : X -> pyfn) args y a b d : ignores_argument (F args) y -> (1 <= d)%nat -> exists e, romb_fn F args a b d = Ok (richardson (trap y a b) d d, e).
Proof.
  intros H Hd. unfold romb_fn. destruct d as [ | d']; [ lia | ]. set (d := Datatypes.S d') in *. cbv zeta. rewrite !(proj1 H).
  pose proof (const_loop (F args) y a b H d d 1 (0.5 * (y + y)) (repeat ((b - a) * (0.5 * (y + y))) (d + 1)) 0 ltac:(lia) ltac:(lia) (repeat_length _ _) ltac:(simpl; lra)) as P.
  destruct (romb_loop_fn (F args) a b d 1 (0.5 * (y + y)) (repeat ((b - a) * (0.5 * (y + y))) (d + 1)) 0) as [[i st] err]. destruct P as [P1 P2].
  { intros j Hj. replace j with 0%nat by lia. rewrite el_repeat by lia. replace (0.5 * (y + y)) with y by lra. unfold trap. simpl. field. }
  exists err. now rewrite P1, P2.
Qed.
(** the extrapolated values: column k is (alpha + beta i) / 2^i *)
Fixpoint beta (k : nat) : R := match k with O => 1 | Datatypes.S k' => beta k' * (4 ^ k - 2) / (4 ^ k - 1) end.
Fixpoint alpha (k : nat) : R := match k with O => 1 | Datatypes.S k' => (alpha k' * (4 ^ k - 2) + 2 * beta k') / (4 ^ k - 1) end.
Lemma four_pow k : 4 <= 4 ^ Datatypes.S k.
Proof. induction k as [ | k IH]; [ simpl; lra | ]. change (4 <= 4 * 4 ^ Datatypes.S k). lra. Qed.
Lemma column_form y a b k : forall i, (k <= i)%nat -> richardson (trap y a b) i k = (b - a) * y * ((alpha k + beta k * INR i) / 2 ^ i).
Proof.
  induction k as [ | k IH]; intros i Hi.
  - assert (E : richardson (trap y a b) i 0 = trap y a b i) by (destruct i; reflexivity). rewrite E. unfold trap. cbn [alpha beta]. rewrite pow_INR. change (INR 2) with (1 + 1). replace (1 + 1) with 2 by ring. field. apply pow_nonzero. lra.
  - destruct i as [ | i]; [ lia | ]. cbn [richardson]. rewrite !IH by lia. cbn [alpha beta]. rewrite S_INR. pose proof (four_pow k) as P. change (2 ^ Datatypes.S i) with (2 * 2 ^ i).
    assert (2 ^ i <> 0) by (apply pow_nonzero; lra). set (q := 4 ^ Datatypes.S k) in *. field. lra.
Qed.
Lemma beta_bounds k : 0 < beta (Datatypes.S k) <= 2 / 3.
Proof.
  induction k as [ | k [H1 H2]]; [ simpl; lra | ]. set (b := beta (Datatypes.S k)) in *. change (beta (Datatypes.S (Datatypes.S k))) with (b * (4 ^ Datatypes.S (Datatypes.S k) - 2) / (4 ^ Datatypes.S (Datatypes.S k) - 1)).
  pose proof (four_pow (Datatypes.S k)) as P. set (q := 4 ^ Datatypes.S (Datatypes.S k)) in *. split.
  - apply Rmult_lt_0_compat; [ nra | apply Rinv_0_lt_compat; lra ].
  - apply (Rmult_le_reg_r (q - 1)); [ lra | ]. replace (b * (q - 2) / (q - 1) * (q - 1)) with (b * (q - 2)) by (field; lra). nra.
Qed.
Lemma alpha_bounds k : 0 < alpha (Datatypes.S k) <= 4 / 3.
Proof.
  induction k as [ | k [H1 H2]]; [ simpl; lra | ]. pose proof (beta_bounds k) as [B1 B2]. set (b := beta (Datatypes.S k)) in *. set (l := alpha (Datatypes.S k)) in *.
  change (alpha (Datatypes.S (Datatypes.S k))) with ((l * (4 ^ Datatypes.S (Datatypes.S k) - 2) + 2 * b) / (4 ^ Datatypes.S (Datatypes.S k) - 1)).
  pose proof (four_pow (Datatypes.S k)) as P. set (q := 4 ^ Datatypes.S (Datatypes.S k)) in *. split.
  - apply Rmult_lt_0_compat; [ nra | apply Rinv_0_lt_compat; lra ].
  - apply (Rmult_le_reg_r (q - 1)); [ lra | ]. replace ((l * (q - 2) + 2 * b) / (q - 1) * (q - 1)) with (l * (q - 2) + 2 * b) by (field; lra). nra.
Qed.
Theorem constant_value {X} (F : X -> pyfn) args y a b d : ignores_argument (F args) y -> (2 <= d)%nat ->
  exists w e, romb_fn F args a b d = Ok (w * ((b - a) * y), e) /\ 0 < w <= (4 + 2 * INR d) / (3 * 2 ^ d).
Proof.
  intros H Hd. destruct (constant_richardson F args y a b d H ltac:(lia)) as (e & E). rewrite (column_form y a b d d (le_n d)) in E.
  exists ((alpha d + beta d * INR d) / 2 ^ d), e. rewrite Rmult_comm in E. split; [ exact E | ].
  destruct d as [ | d]; [ lia | ]. pose proof (alpha_bounds d) as [A1 A2]. pose proof (beta_bounds d) as [B1 B2].
  assert (N : 2 <= INR (Datatypes.S d)) by (apply (le_INR 2); exact Hd). assert (P : 0 < 2 ^ Datatypes.S d) by (apply pow_lt; lra). split.
  - apply Rmult_lt_0_compat; [ nra | now apply Rinv_0_lt_compat ].
  - replace ((4 + 2 * INR (Datatypes.S d)) / (3 * 2 ^ Datatypes.S d)) with ((4 / 3 + 2 / 3 * INR (Datatypes.S d)) / 2 ^ Datatypes.S d) by (field; lra).
    apply Rmult_le_compat_r; [ left; now apply Rinv_0_lt_compat | ]. nra.
Qed.
Lemma bound_small d : (2 <= d)%nat -> (4 + 2 * INR d) / (3 * 2 ^ d) <= 2 / 3.
Proof.
  intros H. induction H as [ | d H IH]; [ simpl; lra | ]. assert (N : 2 <= INR d) by (apply (le_INR 2); exact H). assert (P : 0 < 2 ^ d) by (apply pow_lt; lra).
  rewrite S_INR. change (2 ^ Datatypes.S d) with (2 * 2 ^ d).
  apply (Rle_trans _ ((4 + 2 * INR d) / (3 * 2 ^ d))); [ | exact IH ].
  replace ((4 + 2 * (INR d + 1)) / (3 * (2 * 2 ^ d))) with ((4 + 2 * (INR d + 1)) / 2 / (3 * 2 ^ d)) by (field; lra). apply Rmult_le_compat_r; [ left; apply Rinv_0_lt_compat; lra | lra ].
Qed.
Theorem constant_wrong : exists (F : unit -> pyfn) y a b d v e, ignores_argument (F tt) y /\ (2 <= d)%nat /\ romb_fn F tt a b d = Ok (v, e) /\ v <> (b - a) * y.
Proof.
  exists (fun _ => PyFn (fun _ => 1) (fun _ => num0 1)), 1, 0, 1, 6%nat.
  destruct (constant_value (fun _ : unit => PyFn (fun _ => 1) (fun _ => num0 1)) tt 1 0 1 6 ltac:(split; reflexivity) ltac:(lia)) as (w & e & E & H).
  exists (w * ((1 - 0) * 1)), e. split; [ split; reflexivity | split; [ lia | split; [ exact E | ]]]. pose proof (bound_small 6 ltac:(lia)). lra.
Qed.
(** int_0^1 c x^2 dx with the argument c = 3 *)
Definition square_fn (c : R) : pyfn := PyFn (fun x => c * x ^ 2) (fun v => vec (map (fun x => c * x ^ 2) v)).
Lemma square_case : vectorised (square_fn 3) (fun x => 3 * x ^ 2) /\ (exists e, romb_fn square_fn 3 0 1 1 = Ok (1, e)) /\ ignores_argument (PyFn (fun _ => 1) (fun _ => num0 1)) 1.
Proof.
  assert (V : vectorised (square_fn 3) (fun x => 3 * x ^ 2)).
  { split; [ reflexivity | ]. intros v. split; [ cbn; now rewrite map_length | ]. intros i Hi. cbn [square_fn on_vector vec get hd]. unfold el. apply (nth_map_lt (fun x => 3 * x ^ 2)). exact Hi. }
  split; [ exact V | split; [ | split; reflexivity ]]. rewrite (vectorised_value square_fn 3 _ 0 1 1 V (le_n 1)). eexists. do 2 f_equal. unfold romberg, trapezoid, node. simpl. field.
Qed.
