(** * Continuity of the table lookup of scipy/interpolate.py *)
From Coq Require Import Reals Lra Lia List.
From Verif Require Import Np NpLemmas Interp OdeSpec InterpProofs.
Import ListNotations.
Local Open Scope R_scope.

(** ** increasing grids: Lipschitz with the largest slope of the cells 1 .. n-2 *)
Lemma Rabs_le_both x a : Rabs x <= a -> - a <= x <= a.
Proof. intros H. pose proof (Rle_abs x). pose proof (Rle_abs (- x)). rewrite Rabs_Ropp in H1. lra. Qed.
Definition tilt (L : R) (xp fp : list R) : list R := map (fun i => el fp i + L * el xp i) (seq 0 (length xp)).
Lemma tilt_length L xp fp : length (tilt L xp fp) = length xp.
Proof. unfold tilt. now rewrite map_length, seq_length. Qed.
Lemma tilt_el L xp fp i : (i < length xp)%nat -> el (tilt L xp fp) i = el fp i + L * el xp i.
Proof.
  intros H. unfold tilt, el at 1. rewrite (nth_map_lt _ _ _ 0%nat 0) by (now rewrite seq_length).
  rewrite seq_nth by assumption. reflexivity.
Qed.
Lemma cell_tilt L xp fp c x : el xp c <> el xp (c + 1) -> (c + 1 < length xp)%nat ->
  cell xp (tilt L xp fp) c x = cell xp fp c x + L * x.
Proof. intros H Hc. unfold cell, line. rewrite !tilt_el by lia. field. lra. Qed.
Lemma interp1_tilt L x xp fp : (3 <= length xp)%nat -> length fp = length xp ->
  (forall i, (i + 1 < length xp)%nat -> el xp i <> el xp (i + 1)) ->
  interp1 x xp (tilt L xp fp) = interp1 x xp fp + L * x.
Proof.
  intros Hn Hl Hd. pose proof (near1_range x xp Hn) as Hr.
  destruct (interp1_raw x xp (tilt L xp fp) Hn (tilt_length _ _ _) Hd) as [[H1 ->] | [H1 ->]];
  destruct (interp1_raw x xp fp Hn Hl Hd) as [[H2 ->] | [H2 ->]]; try lra; apply cell_tilt; try apply Hd; lia.
Qed.

Lemma interp1_lipschitz xp fp L : (3 <= length xp)%nat -> length fp = length xp -> incr xp ->
  (forall k, (1 <= k)%nat -> (k + 1 < length xp)%nat ->
     Rabs (el fp (k + 1) - el fp k) <= L * (el xp (k + 1) - el xp k)) ->
  forall x y, Rabs (interp1 y xp fp - interp1 x xp fp) <= L * Rabs (y - x).
Proof.
  intros Hn Hl Hi HL.
  assert (W : forall x y, x <= y -> Rabs (interp1 y xp fp - interp1 x xp fp) <= L * (y - x)).
  { intros x y Hxy.
    assert (A : interp1 x xp (tilt L xp fp) <= interp1 y xp (tilt L xp fp)).
    { apply interp1_monotone; auto; [ apply tilt_length | ]. rewrite tilt_length. intros k H1 H2. rewrite !tilt_el by lia.
      specialize (HL k H1 H2). apply Rabs_le_both in HL. lra. }
    assert (B : interp1 y xp (tilt (- L) xp fp) <= interp1 x xp (tilt (- L) xp fp)).
    { apply interp1_antitone; auto; [ apply tilt_length | ]. rewrite tilt_length. intros k H1 H2. rewrite !tilt_el by lia.
      specialize (HL k H1 H2). apply Rabs_le_both in HL. lra. }
    rewrite !interp1_tilt in A, B by (auto; now apply incr_neq).
    apply Rabs_le. lra. }
  intros x y. destruct (Rle_dec x y) as [H | H].
  - rewrite (Rabs_right (y - x)) by lra. now apply W.
  - rewrite Rabs_minus_sym, (Rabs_minus_sym y x), (Rabs_right (x - y)) by lra. apply W. lra.
Qed.

(** a bound on the slopes always exists *)
Lemma slope_bound xp fp : (3 <= length xp)%nat -> incr xp ->
  exists L, 0 <= L /\ forall k, (k + 1 < length xp)%nat ->
     Rabs (el fp (k + 1) - el fp k) <= L * (el xp (k + 1) - el xp k).
Proof.
  intros Hn Hi.
  assert (G : forall m, (m + 1 <= length xp)%nat -> exists L, 0 <= L /\ forall k, (k < m)%nat ->
     Rabs (el fp (k + 1) - el fp k) <= L * (el xp (k + 1) - el xp k)).
  { induction m as [ | m IH]; intros Hm; [ exists 0; split; [ lra | lia ] | ].
    destruct (IH ltac:(lia)) as (L & L0 & HL).
    assert (P : 0 < el xp (m + 1) - el xp m) by (assert (el xp m < el xp (m + 1)) by (apply Hi; lia); lra).
    set (s := Rabs (el fp (m + 1) - el fp m) / (el xp (m + 1) - el xp m)).
    exists (Rmax L s). split; [ eapply Rle_trans; [ exact L0 | apply Rmax_l ] | ].
    intros k Hk. destruct (Nat.eq_dec k m) as [-> | Hne].
    - apply Rle_trans with (s * (el xp (m + 1) - el xp m)).
      + unfold s. right. field. lra.
      + apply Rmult_le_compat_r; [ lra | apply Rmax_r ].
    - eapply Rle_trans; [ apply HL; lia | ]. apply Rmult_le_compat_r; [ | apply Rmax_l ].
      assert (el xp k < el xp (k + 1)) by (apply Hi; lia). lra. }
  destruct (G (length xp - 1)%nat ltac:(lia)) as (L & L0 & HL). exists L. split; [ assumption | ].
  intros k Hk. apply HL. lia.
Qed.

Lemma lipschitz_continuous f L : 0 <= L -> (forall x y, Rabs (f y - f x) <= L * Rabs (y - x)) -> forall x, continuity_pt f x.
Proof.
  intros L0 H x eps Heps. exists (eps / (L + 1)). split; [ apply Rdiv_lt_0_compat; lra | ].
  intros y [_ Hy]. simpl in *. unfold R_dist in *. eapply Rle_lt_trans; [ apply H | ].
  pose proof (Rabs_pos (y - x)). apply Rle_lt_trans with ((L + 1) * Rabs (y - x)); [ lra | ].
  apply Rmult_lt_reg_r with (/ (L + 1)); [ apply Rinv_0_lt_compat; lra | ].
  replace ((L + 1) * Rabs (y - x) * / (L + 1)) with (Rabs (y - x)) by (field; lra). exact Hy.
Qed.

Lemma interp1_continuous xp fp : (3 <= length xp)%nat -> length fp = length xp -> incr xp ->
  forall x, continuity_pt (fun q => interp1 q xp fp) x.
Proof.
  intros Hn Hl Hi. destruct (slope_bound xp fp Hn Hi) as (L & L0 & HL).
  apply (lipschitz_continuous _ L L0). intros x y. now apply interp1_lipschitz; auto.
Qed.

(** ** decreasing grids *)
Lemma cell_continuous xp fp c x : continuity_pt (cell xp fp c) x.
Proof. unfold cell, line. reg. Qed.

(** off the midpoints of neighbouring nodes the nearest node is locally constant *)
Lemma nearest_unique x xp r : (r < length xp)%nat ->
  (forall k, (k < length xp)%nat -> k <> r -> Rabs (x - el xp r) < Rabs (x - el xp k)) -> nearest x xp = r.
Proof.
  intros Hr H. assert (Hne : xp <> []) by (intros ->; simpl in Hr; lia).
  destruct (nearest_spec x xp Hne) as [A B]. destruct (Nat.eq_dec (nearest x xp) r) as [ | N]; [ assumption | ].
  specialize (H _ A N). specialize (B r Hr). lra.
Qed.
Lemma nearest_strict x xp : decr xp -> xp <> [] ->
  (forall i, (i + 1 < length xp)%nat -> x <> (el xp i + el xp (i + 1)) / 2) ->
  forall k, (k < length xp)%nat -> k <> nearest x xp -> Rabs (x - el xp (nearest x xp)) < Rabs (x - el xp k).
Proof.
  intros Hd Hne Hm k Hk Hkr. destruct (nearest_spec x xp Hne) as [A B]. set (r := nearest x xp) in *.
  destruct (Rle_lt_or_eq_dec _ _ (B k Hk)) as [ | E]; [ assumption | exfalso ].
  assert (Hadj : forall i j, (i < j)%nat -> (j < length xp)%nat -> Rabs (x - el xp i) = Rabs (x - el xp j) ->
    (forall q, (q < length xp)%nat -> Rabs (x - el xp i) <= Rabs (x - el xp q)) -> False).
  { intros i j Hij Hj Eij Hmin. assert (Lij : el xp j < el xp i) by (apply Hd; lia).
    assert (Ex : x = (el xp i + el xp j) / 2).
    { unfold Rabs in Eij. destruct (Rcase_abs (x - el xp i)), (Rcase_abs (x - el xp j)); lra. }
    destruct (Nat.eq_dec j (i + 1)) as [-> | Hn1]; [ apply (Hm i); [ lia | assumption ] | ].
    assert (L1 : el xp j < el xp (i + 1)) by (apply Hd; lia). assert (L2 : el xp (i + 1) < el xp i) by (apply Hd; lia).
    specialize (Hmin (i + 1)%nat ltac:(lia)). rewrite (Rabs_left1 (x - el xp i)) in Hmin by lra.
    unfold Rabs in Hmin. destruct (Rcase_abs (x - el xp (i + 1))); lra. }
  destruct (Nat.lt_trichotomy r k) as [L | [L | L]]; [ | congruence | ].
  - apply (Hadj r k); auto.
  - apply (Hadj k r); auto. intros q Hq. rewrite <- E. auto.
Qed.
Lemma gap_bound (g : nat -> R) n : (forall k, (k < n)%nat -> 0 < g k) -> exists d, 0 < d /\ forall k, (k < n)%nat -> d <= g k.
Proof.
  induction n as [ | n IH]; intros H; [ exists 1; split; [ lra | lia ] | ].
  destruct IH as (d & D0 & Hd); [ auto | ]. exists (Rmin d (g n)). split; [ apply Rmin_glb_lt; auto | ].
  intros k Hk. destruct (Nat.eq_dec k n) as [-> | ]; [ apply Rmin_r | ].
  eapply Rle_trans; [ apply Rmin_l | apply Hd; lia ].
Qed.
Lemma nearest_local x xp : decr xp -> xp <> [] ->
  (forall i, (i + 1 < length xp)%nat -> x <> (el xp i + el xp (i + 1)) / 2) ->
  exists d, 0 < d /\ forall y, Rabs (y - x) < d -> nearest y xp = nearest x xp.
Proof.
  intros Hd Hne Hm. pose proof (nearest_strict x xp Hd Hne Hm) as HS. destruct (nearest_spec x xp Hne) as [A _].
  set (r := nearest x xp) in *.
  destruct (gap_bound (fun k => if Nat.eq_dec k r then 1 else (Rabs (x - el xp k) - Rabs (x - el xp r)) / 2) (length xp)) as (d & D0 & HD).
  { intros k Hk. destruct (Nat.eq_dec k r); [ lra | ]. specialize (HS k Hk n). lra. }
  exists d. split; [ assumption | ]. intros y Hy. apply nearest_unique; [ assumption | ]. intros k Hk Hkr.
  specialize (HD k Hk). cbv beta in HD. destruct (Nat.eq_dec k r); [ contradiction | ].
  pose proof (Rabs_triang (y - x) (x - el xp r)) as T1. replace (y - x + (x - el xp r)) with (y - el xp r) in T1 by ring.
  pose proof (Rabs_triang (x - y) (y - el xp k)) as T2. replace (x - y + (y - el xp k)) with (x - el xp k) in T2 by ring.
  rewrite (Rabs_minus_sym x y) in T2. lra.
Qed.

Lemma continuity_pt_local f g x d : 0 < d -> (forall y, Rabs (y - x) < d -> f y = g y) -> continuity_pt g x -> continuity_pt f x.
Proof.
  intros D0 H Hg eps Heps. destruct (Hg eps Heps) as (al & A0 & HA).
  exists (Rmin al d). split; [ now apply Rmin_glb_lt | ]. intros y [Hy1 Hy2]. simpl in *. unfold R_dist in *.
  rewrite (H x), (H y).
  - apply HA. split; [ assumption | ]. eapply Rlt_le_trans; [ exact Hy2 | apply Rmin_l ].
  - eapply Rlt_le_trans; [ exact Hy2 | apply Rmin_r ].
  - replace (x - x) with 0 by ring. now rewrite Rabs_R0.
Qed.

Lemma interp1_decr_continuous xp fp x : (4 <= length xp)%nat -> length fp = length xp -> decr xp ->
  (forall i, (i + 1 < length xp)%nat -> x <> (el xp i + el xp (i + 1)) / 2) ->
  continuity_pt (fun q => interp1 q xp fp) x.
Proof.
  intros Hn Hl Hd Hm. assert (Hne : xp <> []) by (intros ->; simpl in Hn; lia).
  destruct (nearest_local x xp Hd Hne Hm) as (d & D0 & HD).
  set (r := near1 x xp). set (c := (if Nat.ltb r (length xp - 2) then r - 1 else length xp - 2)%nat).
  apply (continuity_pt_local _ (cell xp fp c) x d D0); [ | apply cell_continuous ].
  intros y Hy. rewrite interp1_decr_raw by (auto; lia). unfold near1. rewrite (HD y Hy). reflexivity.
Qed.

(** left and right of the midpoint of an interior cell *)
Lemma nearest_side x xp i : decr xp -> (i + 1 < length xp)%nat ->
  (((el xp i + el xp (i + 1)) / 2 < x <= el xp i) -> nearest x xp = i) /\
  ((el xp (i + 1) <= x < (el xp i + el xp (i + 1)) / 2) -> nearest x xp = (i + 1)%nat).
Proof.
  intros Hd Hi. assert (L : el xp (i + 1) < el xp i) by (apply Hd; lia).
  assert (Hne : xp <> []) by (intros ->; simpl in Hi; lia).
  split; intros Hx.
  - destruct (nearest_decr x xp i Hd Hi ltac:(lra)) as [[N | N] _]; [ exact N | exfalso ].
    destruct (nearest_spec x xp Hne) as [_ B]. specialize (B i ltac:(lia)). rewrite N in B.
    rewrite (Rabs_right (x - el xp (i + 1))), (Rabs_left1 (x - el xp i)) in B by lra. lra.
  - destruct (nearest_decr x xp i Hd Hi ltac:(lra)) as [[N | N] _]; [ exfalso | exact N ].
    destruct (nearest_spec x xp Hne) as [_ B]. specialize (B (i + 1)%nat ltac:(lia)). rewrite N in B.
    rewrite (Rabs_right (x - el xp (i + 1))), (Rabs_left1 (x - el xp i)) in B by lra. lra.
Qed.

Lemma interp1_decr_sides xp fp i : (4 <= length xp)%nat -> length fp = length xp -> decr xp ->
  (1 <= i)%nat -> (i + 1 < length xp - 2)%nat ->
  let m := (el xp i + el xp (i + 1)) / 2 in
  (forall x, m < x <= el xp i -> interp1 x xp fp = cell xp fp (i - 1) x) /\
  (forall x, el xp (i + 1) <= x < m -> interp1 x xp fp = cell xp fp i x).
Proof.
  intros Hn Hl Hd H1 H2 m. split; intros x Hx; rewrite interp1_decr_raw by (auto; lia).
  - assert (N : near1 x xp = i).
    { unfold near1. rewrite (proj1 (nearest_side x xp i Hd ltac:(lia)) Hx). lia. }
    rewrite N. destruct (Nat.ltb_spec i (length xp - 2)); [ reflexivity | lia ].
  - assert (N : near1 x xp = (i + 1)%nat).
    { unfold near1. rewrite (proj2 (nearest_side x xp i Hd ltac:(lia)) Hx). lia. }
    rewrite N. destruct (Nat.ltb_spec (i + 1) (length xp - 2)); [ f_equal; lia | lia ].
Qed.

(** continuity from the two sides forces the two one-sided formulas to agree *)
Lemma two_sided f g h m d : 0 < d -> continuity_pt f m -> continuity_pt g m -> continuity_pt h m ->
  (forall x, m < x < m + d -> f x = g x) -> (forall x, m - d < x < m -> f x = h x) -> g m = h m.
Proof.
  intros D0 Cf Cg Ch Hg Hh.
  assert (S : forall u, continuity_pt u m -> forall s, s = 1 \/ s = -1 ->
    (forall t, 0 < t < d -> f (m + s * t) = u (m + s * t)) -> f m = u m).
  { intros u Cu s Hs Hu. destruct (Req_dec (f m) (u m)) as [ | N]; [ assumption | exfalso ].
    set (e := Rabs (f m - u m) / 2). assert (E0 : 0 < e) by (unfold e; assert (0 < Rabs (f m - u m)) by (apply Rabs_pos_lt; lra); lra).
    destruct (Cf e E0) as (d1 & P1 & Q1). destruct (Cu e E0) as (d2 & P2 & Q2).
    set (t := Rmin (Rmin d1 d2) d / 2).
    assert (T : 0 < t /\ t < d1 /\ t < d2 /\ t < d).
    { pose proof (Rmin_glb_lt d1 d2 0 P1 P2). pose proof (Rmin_glb_lt (Rmin d1 d2) d 0 H D0).
      pose proof (Rmin_l d1 d2). pose proof (Rmin_r d1 d2). pose proof (Rmin_l (Rmin d1 d2) d). pose proof (Rmin_r (Rmin d1 d2) d).
      unfold t. lra. }
    specialize (Q1 (m + s * t)). specialize (Q2 (m + s * t)). simpl in Q1, Q2. unfold R_dist, D_x, no_cond in Q1, Q2.
    assert (Ax : Rabs (m + s * t - m) = t).
    { replace (m + s * t - m) with (s * t) by ring. rewrite Rabs_mult, (Rabs_right t) by lra.
      destruct Hs as [-> | ->]; [ rewrite Rabs_R1 | rewrite Rabs_left by lra ]; lra. }
    rewrite Ax in Q1, Q2.
    assert (Nx : m <> m + s * t) by (destruct Hs as [-> | ->]; lra).
    specialize (Q1 ltac:(repeat split; auto; lra)). specialize (Q2 ltac:(repeat split; auto; lra)).
    rewrite (Hu t ltac:(lra)) in Q1.
    pose proof (Rabs_triang (u m - u (m + s * t)) (u (m + s * t) - f m)) as T3.
    replace (u m - u (m + s * t) + (u (m + s * t) - f m)) with (u m - f m) in T3 by ring.
    rewrite (Rabs_minus_sym (u m) (u (m + s * t))), (Rabs_minus_sym (u m) (f m)) in T3. unfold e in Q1, Q2. lra. }
  rewrite <- (S g Cg 1), <- (S h Ch (-1)); auto.
  - intros t Ht. apply Hh. lra.
  - intros t Ht. apply Hg. lra.
Qed.

Lemma interp1_decr_jump xp fp i : (4 <= length xp)%nat -> length fp = length xp -> decr xp ->
  (1 <= i)%nat -> (i + 1 < length xp - 2)%nat ->
  let m := (el xp i + el xp (i + 1)) / 2 in
  continuity_pt (fun q => interp1 q xp fp) m <-> slope xp fp i = slope xp fp (i - 1).
Proof.
  intros Hn Hl Hd H1 H2 m. destruct (interp1_decr_sides xp fp i Hn Hl Hd H1 H2) as [SR SL]. fold m in SR, SL.
  assert (L : el xp (i + 1) < el xp i) by (apply Hd; lia).
  assert (CD : forall x, cell xp fp i x - cell xp fp (i - 1) x = (slope xp fp i - slope xp fp (i - 1)) * (x - el xp i)).
  { intros x. pose proof (cell_diff_left xp fp (i - 1) x) as Q.
    replace (i - 1 + 1)%nat with i in Q by lia. replace (i - 1 + 2)%nat with (i + 1)%nat in Q by lia. apply Q.
    - pose proof (decr_neq xp Hd (i - 1) ltac:(lia)) as Z. now replace (i - 1 + 1)%nat with i in Z by lia.
    - apply (decr_neq xp Hd i); lia. }
  split.
  - intros C. assert (E : cell xp fp (i - 1) m = cell xp fp i m).
    { apply (two_sided (fun q => interp1 q xp fp) _ _ m (el xp i - m)); try exact C; try apply cell_continuous.
      - unfold m; lra.
      - intros x Hx; apply SR; lra.
      - intros x Hx; apply SL. clear - Hx L. unfold m in *. lra. }
    specialize (CD m). rewrite E in CD. assert (Z : (slope xp fp i - slope xp fp (i - 1)) * (m - el xp i) = 0) by lra.
    apply Rmult_integral in Z. destruct Z as [Z | Z]; [ lra | unfold m in Z; lra ].
  - intros E. apply (continuity_pt_local _ (cell xp fp i) m (el xp i - m)); [ unfold m; lra | | apply cell_continuous ].
    intros y Hy. apply Rabs_def2 in Hy. rewrite E in CD.
    destruct (Rtotal_order y m) as [Lt | [-> | Gt]].
    + apply SL. unfold m in *; lra.
    + rewrite interp1_decr_raw by (auto; lia).
      destruct (nearest_decr m xp i Hd ltac:(lia) ltac:(unfold m; lra)) as [[N | N] _]; unfold near1; rewrite N.
      * replace (Nat.min (Nat.max i 1) (length xp - 2)) with i by lia.
        destruct (Nat.ltb_spec i (length xp - 2)); [ | lia ]. specialize (CD m). lra.
      * replace (Nat.min (Nat.max (i + 1) 1) (length xp - 2)) with (i + 1)%nat by lia.
        destruct (Nat.ltb_spec (i + 1) (length xp - 2)); [ | lia ]. f_equal; lia.
    + rewrite SR by (unfold m in *; lra). specialize (CD y). lra.
Qed.
