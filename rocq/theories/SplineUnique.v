(** * The interpolating spline is unique *)
From Coquelicot Require Import Coquelicot.
From Verif Require Import Np NpLemmas Interp OdeSpec InterpProofs Sparse SparseSpec Spline SplineSpec SplineLists SplineGlue SplineEval SplineSystem SplineQuad SplineLinear SplineSolve SplineProofs.

(** ** one-sided agreement *)
Lemma agree_left (g u : R -> R) s t : s < t -> continuous g t -> continuous u t -> (forall r, s < r < t -> g r = u r) -> g t = u t.
Proof.
  intros Hst Hg Hu E. assert (Lg : filterlim g (at_left t) (locally (g t))) by (apply (filterlim_filter_le_1 (F := locally t) (G := at_left t)); [ apply filter_le_within | exact Hg ]).
  assert (Lu : filterlim u (at_left t) (locally (u t))) by (apply (filterlim_filter_le_1 (F := locally t) (G := at_left t)); [ apply filter_le_within | exact Hu ]).
  apply (filterlim_locally_unique (F := at_left t) g); [ exact Lg | ]. apply (filterlim_ext_loc u); [ | exact Lu ].
  assert (Hp : 0 < t - s) by lra. exists (mkposreal _ Hp). intros r Hr Hl. unfold ball in Hr; simpl in Hr; unfold AbsRing_ball, abs, minus, plus, opp in Hr; simpl in Hr. apply Rabs_def2 in Hr. symmetry. apply E. lra.
Qed.
Lemma agree_right (g u : R -> R) s t : t < s -> continuous g t -> continuous u t -> (forall r, t < r < s -> g r = u r) -> g t = u t.
Proof.
  intros Hst Hg Hu E. assert (Lg : filterlim g (at_right t) (locally (g t))) by (apply (filterlim_filter_le_1 (F := locally t) (G := at_right t)); [ apply filter_le_within | exact Hg ]).
  assert (Lu : filterlim u (at_right t) (locally (u t))) by (apply (filterlim_filter_le_1 (F := locally t) (G := at_right t)); [ apply filter_le_within | exact Hu ]).
  apply (filterlim_locally_unique (F := at_right t) g); [ exact Lg | ]. apply (filterlim_ext_loc u); [ | exact Lu ].
  assert (Hp : 0 < s - t) by lra. exists (mkposreal _ Hp). intros r Hr Hl. unfold ball in Hr; simpl in Hr; unfold AbsRing_ball, abs, minus, plus, opp in Hr; simpl in Hr. apply Rabs_def2 in Hr. symmetry. apply E. lra.
Qed.

(** ** not-a-knot for the constructed spline *)
Section Nak.
Variables (k : nat) (natural : bool) (x y co : list R).
Hypothesis HB : built k natural x y co.
Let Hk : degree k. Proof. apply HB. Qed.
Let Hx : incr x. Proof. apply HB. Qed.
Let HN : (k < length x)%nat. Proof. apply HB. Qed.
Let H2 : (2 <= length x)%nat. Proof. pose proof Hk as [-> | [-> | ->]]; pose proof HN; lia. Qed.
Let M := n_pieces k x.
Let t := knot k x.
Let Ht : forall i j, (i < j)%nat -> (j <= M)%nat -> t i < t j.
Proof. intros. now apply incr_knot. Qed.
Let Hidx := fun q => index_spec k x q H2 Hx.
Lemma pieces_k : (k = 2 \/ k = 3)%nat -> (3 <= M)%nat.
Proof. unfold M, n_pieces. intros [-> | ->]; pose proof HN; simpl; lia. Qed.

Lemma P_top i q q' : P k x y co k i q = P k x y co k i q'.
Proof. pose proof Hk as [-> | [-> | ->]]; unfold P, cubic_d; simpl; ring. Qed.
Lemma low_index q : (k = 2 \/ k = 3)%nat -> q < t 2 -> (index k x q <= 1)%nat.
Proof.
  intros K Hq. pose proof (pieces_k K) as HM. destruct (Hidx q) as (A & B & C). destruct (le_lt_dec (index k x q) 1) as [L | L]; [ exact L | exfalso ].
  destruct B as [B | B]; [ lia | ]. pose proof (t_le t M (pieces_pos k x H2) Ht 2 (index k x q) ltac:(lia) ltac:(fold M in A; lia)). unfold t in *. lra.
Qed.
Lemma high_index q : (k = 2 \/ k = 3)%nat -> t (M - 2)%nat < q -> (M - 2 <= index k x q)%nat.
Proof.
  intros K Hq. pose proof (pieces_k K) as HM. destruct (Hidx q) as (A & B & C). destruct (le_lt_dec (M - 2) (index k x q)) as [L | L]; [ exact L | exfalso ].
  fold M in A, C. destruct C as [C | C]; [ lia | ]. pose proof (t_le t M (pieces_pos k x H2) Ht (S (index k x q)) (M - 2) ltac:(lia) ltac:(lia)). unfold t in *. lra.
Qed.
Lemma top_first q q' : (k = 2 \/ k = 3)%nat -> natural = false -> P k x y co k 0 q = P k x y co k 1 q'.
Proof.
  intros K En. pose proof (pieces_k K) as HM. pose proof HB as (_ & _ & Sy).
  pose proof (hh_pos k x 0 Hx H2 ltac:(fold M; lia)) as P0. pose proof (hh_pos k x 1 Hx H2 ltac:(fold M; lia)) as P1.
  destruct K as [e | e]; rewrite e in *; simpl in Sy; rewrite ?En in Sy; destruct Sy as (F & _ & _); unfold P, cubic_d, cC, cD.
  - unfold qfirst in F. apply Rmult_eq_reg_l with (hh 2 x 0); [ | lra ].
    transitivity (el co 1 - el co 0); [ field; lra | ]. transitivity (hh 2 x 0 / hh 2 x 1 * (el co 2 - el co 1)); [ | field; lra ]. lra.
  - unfold first_row in F. change (el x 2 - el x 1) with (hh 3 x 1) in F. change (el x 1 - el x 0) with (hh 3 x 0) in F.
    apply Rmult_eq_reg_l with (hh 3 x 0 * hh 3 x 1); [ | apply Rmult_integral_contrapositive; split; lra ].
    transitivity (2 * (el co 1 - el co 0) * hh 3 x 1); [ field; lra | ]. transitivity (2 * (el co 2 - el co 1) * hh 3 x 0); [ lra | field; lra ].
Qed.
Lemma top_last q q' : (k = 2 \/ k = 3)%nat -> natural = false -> P k x y co k (M - 2) q = P k x y co k (M - 1) q'.
Proof.
  intros K En. pose proof (pieces_k K) as HM. pose proof HB as (_ & _ & Sy). pose proof HN as HN'.
  pose proof (hh_pos k x (M - 2) Hx H2 ltac:(fold M; lia)) as P0. pose proof (hh_pos k x (M - 1) Hx H2 ltac:(fold M; lia)) as P1. unfold M in *.
  destruct K as [e | e]; rewrite e in *; unfold n_pieces in *; simpl in Sy; rewrite ?En in Sy; destruct Sy as (_ & F & _); unfold P, cubic_d, cC, cD; simpl Nat.eqb in *; cbv iota in *.
  - unfold qlast in F. set (N := length x) in *. replace (S (N - 2)) with (N - 1)%nat by lia. replace (S (N - 1)) with N by lia.
    apply Rmult_eq_reg_l with (hh 2 x (N - 1)); [ | lra ].
    transitivity (hh 2 x (N - 1) / hh 2 x (N - 2) * (el co (N - 1) - el co (N - 2))); [ field; lra | ]. transitivity (el co N - el co (N - 1)); [ | field; lra ]. lra.
  - unfold last_row in F. set (N := length x) in *. replace (N - 1 - 2)%nat with (N - 3)%nat in * by lia. replace (N - 1 - 1)%nat with (N - 2)%nat in * by lia.
    change (el x (S (N - 2)) - el x (N - 2)) with (hh 3 x (N - 2)) in F. change (el x (S (N - 3)) - el x (N - 3)) with (hh 3 x (N - 3)) in F.
    replace (S (N - 3)) with (N - 2)%nat by lia. replace (S (N - 2)) with (N - 1)%nat by lia.
    apply Rmult_eq_reg_l with (hh 3 x (N - 3) * hh 3 x (N - 2)); [ | apply Rmult_integral_contrapositive; split; lra ].
    transitivity (2 * (el co (N - 2) - el co (N - 3)) * hh 3 x (N - 2)); [ field; lra | ]. transitivity (2 * (el co (N - 1) - el co (N - 2)) * hh 3 x (N - 3)); [ lra | field; lra ].
Qed.
Lemma top_low q q' : (k = 2 \/ k = 3)%nat -> natural = false -> q < t 2 -> q' < t 2 -> G k x y co k q = G k x y co k q'.
Proof.
  intros K En L L'. unfold G. pose proof (low_index q K L) as I. pose proof (low_index q' K L') as I'.
  assert (C : forall r i, (i <= 1)%nat -> P k x y co k i r = P k x y co k 0 q).
  { intros r [ | [ | i]] Hi; [ apply P_top | symmetry; now apply top_first | lia ]. }
  rewrite (C q), (C q') by assumption. reflexivity.
Qed.
Lemma top_high q q' : (k = 2 \/ k = 3)%nat -> natural = false -> t (M - 2)%nat < q -> t (M - 2)%nat < q' -> G k x y co k q = G k x y co k q'.
Proof.
  intros K En L L'. unfold G. pose proof (pieces_k K) as HM. pose proof (high_index q K L) as I. pose proof (high_index q' K L') as I'.
  assert (C : forall r i, (M - 2 <= i < M)%nat -> P k x y co k i r = P k x y co k (M - 2) q).
  { intros r i Hi. destruct (Nat.eq_dec i (M - 2)) as [-> | ne]; [ apply P_top | replace i with (M - 1)%nat by lia; symmetry; now apply top_last ]. }
  rewrite (C q), (C q'); [ reflexivity | | ]; (split; [ assumption | apply Hidx ]).
Qed.
Lemma G_not_a_knot : (k = 2 \/ k = 3)%nat -> natural = false -> not_a_knot k x (G k x y co 0).
Proof.
  intros K En. pose proof (pieces_k K) as HM. unfold not_a_knot. fold M. split.
  - intros q q' L L' N1 N1'.
    assert (NB : forall r, r < knot k x 2 -> r <> knot k x 1 -> ~ breakpoint k x r).
    { intros r Hr Hn [[ | i] [Hi E]]; [ contradiction | ]. fold M in Hi. pose proof (t_le t M (pieces_pos k x H2) Ht 2 (S (S i)) ltac:(lia) ltac:(lia)). unfold t in *. lra. }
    rewrite (is_derive_n_unique _ _ _ _ (G_derive_n_off k natural x y co HB q (NB q L N1))).
    rewrite (is_derive_n_unique _ _ _ _ (G_derive_n_off k natural x y co HB q' (NB q' L' N1'))). now apply top_low.
  - intros q q' L L' N1 N1'.
    assert (NB : forall r, knot k x (M - 2) < r -> r <> knot k x (M - 1) -> ~ breakpoint k x r).
    { intros r Hr Hn [i [Hi E]]. fold M in Hi. destruct (Nat.eq_dec (S i) (M - 1)) as [e | ne]; [ rewrite e in E; contradiction | ].
      pose proof (t_le t M (pieces_pos k x H2) Ht (S i) (M - 2) ltac:(lia) ltac:(lia)). unfold t in *. lra. }
    rewrite (is_derive_n_unique _ _ _ _ (G_derive_n_off k natural x y co HB q (NB q L N1))).
    rewrite (is_derive_n_unique _ _ _ _ (G_derive_n_off k natural x y co HB q' (NB q' L' N1'))). now apply top_high.
Qed.

(** ** any spline through the data satisfies the system *)
Variable f : R -> R.
Variables a b c d : nat -> R.
Hypothesis Hd : forall i, (k <= 2)%nat -> d i = 0.
Hypothesis Hc : forall i, (k <= 1)%nat -> c i = 0.
Hypothesis Hf : forall i q, in_piece k x i q -> f q = cubic (a i) (b i) (c i) (d i) (q - knot k x i).
Hypothesis Hsm : smooth (k - 1) f.
Hypothesis Hip : interpolates x y f.

Lemma f_inside m i r : (i < M)%nat -> t i < r < t (S i) -> Derive_n f m r = cubic_d m (a i) (b i) (c i) (d i) (r - knot k x i).
Proof.
  intros Hi Hr. rewrite <- cubic_Derive_n. apply Derive_n_ext_loc. unfold t in Hr.
  assert (Hp : 0 < Rmin (r - knot k x i) (knot k x (S i) - r)) by (apply Rmin_pos; lra). exists (mkposreal _ Hp). intros q Hq.
  unfold ball in Hq; simpl in Hq; unfold AbsRing_ball, abs, minus, plus, opp in Hq; simpl in Hq. apply Hf.
  pose proof (Rmin_l (r - knot k x i) (knot k x (S i) - r)). pose proof (Rmin_r (r - knot k x i) (knot k x (S i) - r)). apply Rabs_def2 in Hq.
  split; [ exact Hi | split; right; lra ].
Qed.
Lemma f_match m i : (m < k)%nat -> (S i < M)%nat -> cubic_d m (a i) (b i) (c i) (d i) (hh k x i) = cubic_d m (a (S i)) (b (S i)) (c (S i)) (d (S i)) 0.
Proof.
  intros Hm Hi. transitivity (Derive_n f m (t (S i))).
  - symmetry. change (hh k x i) with (t (S i) - t i).
    apply (agree_left (Derive_n f m) (fun r => cubic_d m (a i) (b i) (c i) (d i) (r - t i)) (t i)); [ apply Ht; lia | apply Hsm; lia | apply cubic_d_continuous | ].
    intros r Hr. apply f_inside; [ lia | exact Hr ].
  - replace 0 with (t (S i) - t (S i)) by ring.
    apply (agree_right (Derive_n f m) (fun r => cubic_d m (a (S i)) (b (S i)) (c (S i)) (d (S i)) (r - t (S i))) (t (S (S i)))); [ apply Ht; lia | apply Hsm; lia | apply cubic_d_continuous | ].
    intros r Hr. apply f_inside; [ lia | exact Hr ].
Qed.
Lemma EK j : k <> 2%nat -> knot k x j = el x j.
Proof. intros ne. unfold knot. destruct (Nat.eqb_spec k 2); [ contradiction | reflexivity ]. Qed.
Lemma EM : k <> 2%nat -> M = (length x - 1)%nat.
Proof. intros ne. unfold M, n_pieces. destruct (Nat.eqb_spec k 2); [ contradiction | reflexivity ]. Qed.
Lemma f_left i : k <> 2%nat -> (i < M)%nat -> a i = el y i.
Proof.
  intros ne Hi. pose proof (EM ne) as E. rewrite <- Hip by lia. rewrite (Hf i (el x i)).
  - rewrite EK by exact ne. unfold cubic. ring.
  - unfold in_piece. fold M. rewrite !EK by exact ne. split; [ exact Hi | split; [ right; lra | right; apply incr_le; (assumption || lia) ]].
Qed.
Lemma f_right i : k <> 2%nat -> (i < M)%nat -> cubic (a i) (b i) (c i) (d i) (hh k x i) = el y (S i).
Proof.
  intros ne Hi. pose proof (EM ne) as E. rewrite <- Hip by lia. rewrite (Hf i (el x (S i))).
  - unfold hh. rewrite !EK by exact ne. reflexivity.
  - unfold in_piece. fold M. rewrite !EK by exact ne. split; [ exact Hi | split; [ right; apply incr_le; (assumption || lia) | right; lra ]].
Qed.
Lemma f_mid i : k = 2%nat -> (i < length x)%nat -> cubic (a i) (b i) (c i) (d i) (dd x i) = el y i.
Proof.
  intros e Hi. rewrite <- Hip by lia. rewrite (Hf i (el x i)); [ unfold dd; rewrite e; reflexivity | ].
  pose proof (knot2_between x i Hx H2 Hi) as B. unfold hh, dd in B. unfold in_piece. rewrite e. unfold n_pieces. simpl. split; [ exact Hi | split; right; lra ].
Qed.
Lemma mid_pt i : (i < M)%nat -> t i < (t i + t (S i)) / 2 < t (S i).
Proof. intros Hi. pose proof (Ht i (S i) ltac:(lia) ltac:(lia)). lra. Qed.
Definition topc (i : nat) : R := match k with 2%nat => 2 * c i | _ => 6 * d i end.
Lemma f_top i r : (k = 2 \/ k = 3)%nat -> (i < M)%nat -> t i < r < t (S i) -> Derive_n f k r = topc i.
Proof. intros K Hi Hr. rewrite (f_inside k i r Hi Hr). unfold topc, cubic_d. destruct K as [e | e]; rewrite e; [ rewrite Hd by lia; ring | ring ]. Qed.
Lemma f_nak : (k = 2 \/ k = 3)%nat -> not_a_knot k x f -> topc 0 = topc 1 /\ topc (M - 2) = topc (M - 1).
Proof.
  intros K [A B]. pose proof (pieces_k K) as HM. fold M in B. split.
  - pose proof (mid_pt 0 ltac:(lia)) as R0. pose proof (mid_pt 1 ltac:(lia)) as R1. pose proof (Ht 1 2 ltac:(lia) ltac:(lia)).
    rewrite <- (f_top 0 _ K ltac:(lia) R0), <- (f_top 1 _ K ltac:(lia) R1). unfold t in *. apply A; lra.
  - pose proof (mid_pt (M - 2) ltac:(lia)) as R0. pose proof (mid_pt (M - 1) ltac:(lia)) as R1.
    rewrite <- (f_top (M - 2) _ K ltac:(lia) R0), <- (f_top (M - 1) _ K ltac:(lia) R1).
    pose proof (Ht (M - 2) (M - 1) ltac:(lia) ltac:(lia)). replace (S (M - 2)) with (M - 1)%nat in * by lia. unfold t in *. apply B; lra.
Qed.
(** the unknowns of the linear system *)
Definition zz (i : nat) : R := match k with
  | 2%nat => if Nat.ltb i M then b i else b (i - 1)%nat + 2 * c (i - 1)%nat * hh k x (i - 1)
  | _ => if Nat.ltb i M then c i else c (i - 1)%nat + 3 * d (i - 1)%nat * hh k x (i - 1) end.
Lemma zz_in i : (i < M)%nat -> zz i = match k with 2%nat => b i | _ => c i end.
Proof. intros Hi. unfold zz. apply Nat.ltb_lt in Hi. rewrite Hi. reflexivity. Qed.
Lemma zz2 i : k = 2%nat -> (i < M)%nat -> zz (S i) = b i + 2 * c i * hh k x i.
Proof.
  intros e Hi. destruct (Nat.eq_dec (S i) M) as [E | E].
  - unfold zz. destruct (Nat.ltb_spec (S i) M); [ lia | ]. rewrite e. simpl. rewrite Nat.sub_0_r. reflexivity.
  - rewrite zz_in by lia. rewrite e at 1. pose proof (f_match 1 i ltac:(lia) ltac:(lia)) as K. simpl in K. rewrite !Hd in K by lia. lra.
Qed.
Lemma zz3 i : k = 3%nat -> (i < M)%nat -> zz (S i) = c i + 3 * d i * hh k x i.
Proof.
  intros e Hi. destruct (Nat.eq_dec (S i) M) as [E | E].
  - unfold zz. destruct (Nat.ltb_spec (S i) M); [ lia | ]. rewrite e. simpl. rewrite Nat.sub_0_r. reflexivity.
  - rewrite zz_in by lia. rewrite e at 1. pose proof (f_match 2 i ltac:(lia) ltac:(lia)) as K. simpl in K. lra.
Qed.
Lemma c2_eq i : k = 2%nat -> (i < M)%nat -> c i = (zz (S i) - zz i) / (2 * hh 2 x i) /\ a i = el y i - zz i * dd x i - (zz (S i) - zz i) * dd x i ^ 2 / (2 * hh 2 x i).
Proof.
  intros e Hi. pose proof (hh_pos k x i Hx H2 Hi) as Pi. rewrite e in Pi.
  assert (C : c i = (zz (S i) - zz i) / (2 * hh 2 x i)). { rewrite (zz2 i e Hi), (zz_in i Hi). rewrite e. field. lra. }
  split; [ exact C | ]. assert (Hi' : (i < length x)%nat) by (unfold M, n_pieces in Hi; rewrite e in Hi; exact Hi).
  pose proof (f_mid i e Hi') as F. unfold cubic in F. rewrite Hd in F by lia. rewrite (zz_in i Hi) in *. rewrite e in C |- *. simpl in C |- *.
  rewrite C in F. rewrite <- F. field. lra.
Qed.
Lemma quad_sys : k = 2%nat -> not_a_knot k x f -> quad_system x y zz.
Proof.
  intros e HK. destruct (f_nak (or_introl e) HK) as [T0 T1]. assert (EMl : M = length x) by (unfold M, n_pieces; rewrite e; reflexivity). pose proof HN as HN'.
  unfold topc in T0, T1. rewrite e in T0, T1. rewrite EMl in T1.
  assert (HP : forall i, (i < length x)%nat -> 0 < hh 2 x i) by (intros i Hi; apply hh_pos; [ exact Hx | exact H2 | exact Hi ]).
  set (N := length x) in EMl, HN', T0, T1, HP. split; [ | split ].
  - unfold qfirst. destruct (c2_eq 0 e ltac:(lia)) as [C0 _]. destruct (c2_eq 1 e ltac:(lia)) as [C1 _]. pose proof (HP 0%nat ltac:(lia)). pose proof (HP 1%nat ltac:(lia)).
    transitivity (hh 2 x 0 * (2 * c 1%nat - 2 * c 0%nat)); [ rewrite C0, C1; field; lra | rewrite T0; ring ].
  - unfold qlast. fold N. destruct (c2_eq (N - 2) e ltac:(lia)) as [C0 _]. destruct (c2_eq (N - 1) e ltac:(lia)) as [C1 _]. pose proof (HP (N - 2)%nat ltac:(lia)). pose proof (HP (N - 1)%nat ltac:(lia)).
    replace (S (N - 2)) with (N - 1)%nat in C0 by lia. replace (S (N - 1)) with N in C1 by lia.
    transitivity (hh 2 x (N - 1) * (2 * c (N - 1)%nat - 2 * c (N - 2)%nat)); [ rewrite C0, C1; field; lra | rewrite T1; ring ].
  - intros i Hi. fold N in Hi. destruct (c2_eq i e ltac:(lia)) as [C0 A0]. destruct (c2_eq (S i) e ltac:(lia)) as [C1 A1].
    pose proof (HP i ltac:(lia)) as P0. pose proof (HP (S i) ltac:(lia)) as P1.
    pose proof (f_match 0 i ltac:(lia) ltac:(lia)) as K. simpl in K. unfold cubic in K. rewrite !Hd in K by lia.
    assert (B0 : b i = zz i) by (rewrite zz_in by lia; rewrite e; reflexivity). rewrite A0, A1, B0, C0 in K. rewrite e in K. unfold qmid, qrhs.
    set (h0 := hh 2 x i) in *. set (h1 := hh 2 x (S i)) in *. set (u0 := zz i) in *. set (u1 := zz (S i)) in *. set (u2 := zz (S (S i))) in *.
    set (d0 := dd x i) in *. set (d1 := dd x (S i)) in *.
    assert (K' : el y (S i) - el y i = u1 * d1 + (u2 - u1) * d1 ^ 2 / (2 * h1) - u0 * d0 - (u1 - u0) * d0 ^ 2 / (2 * h0) + u0 * h0 + (u1 - u0) / (2 * h0) * h0 ^ 2) by lra.
    rewrite K'. field. lra.
Qed.
Lemma c3_eq i : k = 3%nat -> (i < M)%nat -> d i = (zz (S i) - zz i) / (3 * hh 3 x i) /\ b i = (el y (S i) - el y i) / hh 3 x i - (2 * zz i + zz (S i)) * hh 3 x i / 3.
Proof.
  intros e Hi. pose proof (hh_pos k x i Hx H2 Hi) as Pi. rewrite e in Pi. assert (ne : k <> 2%nat) by lia.
  assert (C : d i = (zz (S i) - zz i) / (3 * hh 3 x i)). { rewrite (zz3 i e Hi), (zz_in i Hi). rewrite e. field. lra. }
  split; [ exact C | ]. pose proof (f_right i ne Hi) as F. rewrite (f_left i ne Hi) in F. unfold cubic in F. assert (Z0 : c i = zz i) by (rewrite (zz_in i Hi), e; reflexivity).
  rewrite Z0, C, e in F. rewrite <- F. field. lra.
Qed.
Lemma cubic_mid i : k = 3%nat -> (i < length x - 2)%nat -> mid_row x zz i = mid_rhs x y i.
Proof.
  intros e Hi. assert (ne : k <> 2%nat) by lia. pose proof (EM ne) as EMl. destruct (c3_eq i e ltac:(lia)) as [C0 A0]. destruct (c3_eq (S i) e ltac:(lia)) as [C1 A1].
  pose proof (hh_pos k x i Hx H2 ltac:(fold M; lia)) as P0. pose proof (hh_pos k x (S i) Hx H2 ltac:(fold M; lia)) as P1. rewrite e in P0, P1.
  pose proof (f_match 1 i ltac:(lia) ltac:(lia)) as K. simpl in K.
  assert (Z0 : c i = zz i) by (rewrite zz_in by lia; rewrite e; reflexivity). rewrite Z0, C0, A0, A1 in K. rewrite e in K. unfold mid_row, mid_rhs.
  change (el x (S (S i)) - el x (S i)) with (hh 3 x (S i)). change (el x (S i) - el x i) with (hh 3 x i).
  set (h0 := hh 3 x i) in *. set (h1 := hh 3 x (S i)) in *. set (u0 := zz i) in *. set (u1 := zz (S i)) in *. set (u2 := zz (S (S i))) in *.
  set (p0 := (el y (S i) - el y i) / h0) in *. set (p1 := (el y (S (S i)) - el y (S i)) / h1) in *.
  assert (K' : (u1 - u0) / (3 * h0) * h0 ^ 2 = (u1 - u0) * h0 / 3) by (field; lra).
  assert (K2 : 3 * ((u1 - u0) / (3 * h0)) * (h0 * (h0 * 1)) = (u1 - u0) * h0) by (field; lra). lra.
Qed.
Lemma cubic_sys : k = 3%nat -> not_a_knot k x f -> cubic_system x y false zz.
Proof.
  intros e HK. destruct (f_nak (or_intror e) HK) as [T0 T1]. pose proof (EM ltac:(lia)) as EMl. pose proof HN as HN'.
  unfold topc in T0, T1. rewrite e in T0, T1. rewrite EMl in T1.
  assert (HP : forall i, (i < length x - 1)%nat -> 0 < hh 3 x i) by (intros i Hi; apply hh_pos; [ exact Hx | exact H2 | exact Hi ]).
  set (N := length x) in EMl, HN', T0, T1, HP. split; [ | split ].
  - unfold first_row. destruct (c3_eq 0 e ltac:(lia)) as [C0 _]. destruct (c3_eq 1 e ltac:(lia)) as [C1 _]. pose proof (HP 0%nat ltac:(lia)). pose proof (HP 1%nat ltac:(lia)).
    change (el x 2 - el x 1) with (hh 3 x 1). change (el x 1 - el x 0) with (hh 3 x 0).
    transitivity (hh 3 x 0 * hh 3 x 1 / 2 * (6 * d 1%nat - 6 * d 0%nat)); [ rewrite C0, C1; field; lra | rewrite T0; field ].
  - unfold last_row. fold N. replace (N - 1 - 2)%nat with (N - 3)%nat in T1 by lia. replace (N - 1 - 1)%nat with (N - 2)%nat in T1 by lia.
    destruct (c3_eq (N - 3) e ltac:(lia)) as [C0 _]. destruct (c3_eq (N - 2) e ltac:(lia)) as [C1 _]. pose proof (HP (N - 3)%nat ltac:(lia)). pose proof (HP (N - 2)%nat ltac:(lia)).
    change (el x (S (N - 2)) - el x (N - 2)) with (hh 3 x (N - 2)). change (el x (S (N - 3)) - el x (N - 3)) with (hh 3 x (N - 3)).
    replace (S (N - 3)) with (N - 2)%nat in C0 by lia. replace (S (N - 2)) with (N - 1)%nat in C1 by lia.
    transitivity (hh 3 x (N - 3) * hh 3 x (N - 2) / 2 * (6 * d (N - 2)%nat - 6 * d (N - 3)%nat)); [ rewrite C0, C1; field; lra | rewrite T1; field ].
  - intros i Hi. now apply cubic_mid.
Qed.
Lemma f_unique q : natural = false -> (k = 1%nat \/ not_a_knot k x f) -> f q = G k x y co 0 q.
Proof.
  intros En BC. unfold G. destruct (Hidx q) as (I0 & I1 & I2). set (i := index k x q) in *. fold M in I0, I2.
  rewrite (Hf i q); [ | split; [ exact I0 | split; [ exact I1 | destruct I2 as [I2 | I2]; [ left; exact I2 | right; apply Rlt_le, I2 ]]]].
  unfold P, cubic_d. pose proof HB as (_ & _ & Sy). pose proof (hh_pos k x i Hx H2 I0) as Pi. pose proof HN as HN'.
  pose proof Hk as [e | [e | e]].
  - rewrite (Hc i), (Hd i) by lia. pose proof (f_left i ltac:(lia) I0) as L. pose proof (f_right i ltac:(lia) I0) as Rr. rewrite L in *. pose proof (EM ltac:(lia)) as EMl.
    unfold cubic in Rr. rewrite (Hc i), (Hd i) in Rr by lia. unfold cubic, cA, cB, cC, cD. rewrite e in Rr, Pi, Sy |- *. rewrite Sy by lia. change (el x (S i) - el x i) with (hh 1 x i).
    replace (b i) with ((el y (S i) - el y i) / hh 1 x i); [ ring | rewrite <- Rr; field; lra ].
  - destruct BC as [BC | BC]; [ lia | ]. pose proof (quad_sys e BC) as S1. assert (EMl : M = length x) by (unfold M, n_pieces; rewrite e; reflexivity).
    assert (Sy' : quad_system x y (el co)) by (rewrite e in Sy; exact Sy).
    pose proof (quad_unique x y zz (el co) ltac:(lia) Hx S1 Sy') as U. destruct (c2_eq i e I0) as [C0 A0]. assert (B0 : b i = zz i) by (rewrite zz_in by lia; rewrite e; reflexivity).
    rewrite (Hd i) by lia. rewrite B0, A0, C0. rewrite !U by lia. rewrite e. reflexivity.
  - destruct BC as [BC | BC]; [ lia | ]. pose proof (cubic_sys e BC) as S1. pose proof (EM ltac:(lia)) as EMl.
    assert (Sy' : cubic_system x y false (el co)) by (rewrite e, En in Sy; exact Sy).
    pose proof (cubic_unique x y false zz (el co) ltac:(lia) Hx S1 Sy') as U. destruct (c3_eq i e I0) as [C0 A0]. assert (B0 : c i = zz i) by (rewrite zz_in by lia; rewrite e; reflexivity).
    rewrite (f_left i) by lia. rewrite B0, A0, C0. rewrite !U by lia. rewrite e. reflexivity.
Qed.
End Nak.
