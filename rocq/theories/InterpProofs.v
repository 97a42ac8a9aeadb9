(** * Proofs about interp *)
From Verif Require Import Np NpLemmas Interp OdeSpec.

(** ** argmin *)
Lemma argmin_from_spec l : forall best bi i pre,
  length pre = i -> (bi < i)%nat -> nth bi pre 0 = best ->
  (forall k, (k < i)%nat -> best <= nth k pre 0) -> (forall k, (k < bi)%nat -> best < nth k pre 0) ->
  let r := argmin_from best bi i l in let v := (pre ++ l)%list in
  (r < length v)%nat /\ (forall k, (k < length v)%nat -> nth r v 0 <= nth k v 0) /\
  (forall k, (k < r)%nat -> nth r v 0 < nth k v 0).
Proof.
  induction l as [ | x l IH]; intros best bi i pre Hl Hb Hn Hmin Hfst r v.
  - unfold v, r; simpl. rewrite app_nil_r. rewrite Hn, Hl. split; [ lia | split; auto ].
  - unfold r, v. simpl.
    replace (pre ++ x :: l)%list with ((pre ++ [x]) ++ l)%list by (rewrite <- app_assoc; reflexivity).
    destruct (Rlt_dec x best) as [H | H].
    + apply IH.
      * rewrite app_length; simpl; lia.
      * lia.
      * rewrite app_nth2, Hl, Nat.sub_diag by lia. reflexivity.
      * intros k Hk. destruct (Nat.eq_dec k i) as [-> | Hne].
        -- rewrite app_nth2, Hl, Nat.sub_diag by lia. simpl; lra.
        -- rewrite app_nth1 by lia. specialize (Hmin k ltac:(lia)). lra.
      * intros k Hk. rewrite app_nth1 by lia. specialize (Hmin k ltac:(lia)). lra.
    + apply IH.
      * rewrite app_length; simpl; lia.
      * lia.
      * rewrite app_nth1 by lia. assumption.
      * intros k Hk. destruct (Nat.eq_dec k i) as [-> | Hne].
        -- rewrite app_nth2, Hl, Nat.sub_diag by lia. simpl; lra.
        -- rewrite app_nth1 by lia. apply Hmin; lia.
      * intros k Hk. rewrite app_nth1 by lia. auto.
Qed.

Lemma argmin_spec l : l <> [] ->
  (argmin l < length l)%nat /\ (forall k, (k < length l)%nat -> el l (argmin l) <= el l k) /\
  (forall k, (k < argmin l)%nat -> el l (argmin l) < el l k).
Proof.
  destruct l as [ | x l]; [ congruence | ]. intros _. unfold argmin.
  apply (argmin_from_spec l x 0 1 [x]); simpl; auto; try lia; intros k Hk.
  replace k with 0%nat by lia. simpl. lra.
Qed.

(** nearest node *)
Definition nearest (x : R) (xp : list R) : nat := argmin (map (fun p => (x - p) ^ 2) xp).
Lemma nearest_spec x xp : xp <> [] ->
  (nearest x xp < length xp)%nat /\ forall k, (k < length xp)%nat -> Rabs (x - el xp (nearest x xp)) <= Rabs (x - el xp k).
Proof.
  intros H. unfold nearest. set (sq := map (fun p => (x - p) ^ 2) xp).
  assert (Hs : sq <> []) by (unfold sq; destruct xp; [ congruence | discriminate ]).
  destruct (argmin_spec sq Hs) as (A & B & _).
  assert (L : length sq = length xp) by (unfold sq; apply map_length). rewrite L in *.
  split; [ exact A | ]. intros k Hk. specialize (B k Hk).
  unfold sq at 1 3, el in B. rewrite !(nth_map_lt (fun p => (x - p) ^ 2) xp _ 0 0) in B by assumption.
  fold (el xp (argmin sq)) (el xp k) in B. apply Rsqr_le_abs_0. unfold Rsqr. simpl in B. lra.
Qed.

(** indexing with a non-negative in-range integer, and with -2 *)
Lemma getZ_nat v i : (i < length v)%nat -> getZ 0 v (Z.of_nat i) = el v i.
Proof.
  intros H. unfold getZ, el, clipZ. destruct (Z.ltb_spec (Z.of_nat i) 0); [ lia | ].
  replace (Z.to_nat (Z.min (Z.max (Z.of_nat i) 0) (Z.of_nat (length v) - 1))) with i by lia. reflexivity.
Qed.
Lemma getZ_m2 v : (2 <= length v)%nat -> getZ 0 v (-2) = el v (length v - 2).
Proof.
  intros H. unfold getZ, el, clipZ. change (-2 <? 0)%Z with true. cbv iota zeta.
  replace (Z.to_nat (Z.min (Z.max (-2 + Z.of_nat (length v)) 0) (Z.of_nat (length v) - 1))) with (length v - 2)%nat by lia.
  reflexivity.
Qed.
Lemma getZ_m1 v : (1 <= length v)%nat -> getZ 0 v (-1) = el v (length v - 1).
Proof.
  intros H. unfold getZ, el, clipZ. change (-1 <? 0)%Z with true. cbv iota zeta.
  replace (Z.to_nat (Z.min (Z.max (-1 + Z.of_nat (length v)) 0) (Z.of_nat (length v) - 1))) with (length v - 1)%nat by lia.
  reflexivity.
Qed.

(** the clipped nearest index *)
Definition near1 (x : R) (xp : list R) : nat := Nat.min (Nat.max (nearest x xp) 1) (length xp - 2).
Lemma near1_range x xp : (3 <= length xp)%nat -> (1 <= near1 x xp <= length xp - 2)%nat.
Proof. unfold near1; lia. Qed.

Lemma line_sym x0 y0 x1 y1 x : x0 <> x1 -> line x0 y0 x1 y1 x = line x1 y1 x0 y0 x.
Proof. intros H. unfold line. field. split; lra. Qed.
Lemma line_at0 x0 y0 x1 y1 : line x0 y0 x1 y1 x0 = y0.
Proof. unfold line. replace (x0 - x0) with 0 by ring. ring. Qed.
Lemma line_at1 x0 y0 x1 y1 : x0 <> x1 -> line x0 y0 x1 y1 x1 = y1.
Proof. intros H; unfold line. field. lra. Qed.

(** what the code computes: the line through node r and the neighbour r+1 or r-1 *)
Lemma interp1_raw x xp fp : (3 <= length xp)%nat -> length fp = length xp ->
  (forall i, (i + 1 < length xp)%nat -> el xp i <> el xp (i + 1)) ->
  let n := length xp in let r := near1 x xp in
  (clip x (el xp 1) (el xp (n - 2)) < el xp r /\ interp1 x xp fp = cell xp fp (r - 1) x) \/
  (el xp r <= clip x (el xp 1) (el xp (n - 2)) /\ interp1 x xp fp = cell xp fp r x).
Proof.
  intros Hn Hl Hd n r. pose proof (near1_range x xp Hn) as Hr. fold r n in Hr.
  assert (Hn' : (3 <= n)%nat) by exact Hn.
  assert (E : forall j, (j < n)%nat -> (j = r - 1 \/ j = r + 1)%nat ->
     isign (clip x (el xp 1) (el xp (n - 2)) - el xp r) = (if Nat.eqb j (r - 1) then (-1)%Z else isign (clip x (el xp 1) (el xp (n - 2)) - el xp r)) ->
     copysign1 (isign (clip x (el xp 1) (el xp (n - 2)) - el xp r)) = (Z.of_nat j - Z.of_nat r)%Z ->
     interp1 x xp fp = line (el xp r) (el fp r) (el xp j) (el fp j) x).
  { intros j Hj Hjr _ Hs. unfold interp1.
    fold (nearest x xp).
    replace (clipZ (Z.of_nat (nearest x xp)) 1 (Z.of_nat (length xp) - 2)) with (Z.of_nat r)
      by (unfold clipZ, r, near1; lia).
    change (getZ 0 xp 1) with (getZ 0 xp (Z.of_nat 1)).
    rewrite getZ_m2 by lia. rewrite !(getZ_nat xp) by (fold n; lia). fold n. cbv zeta. rewrite Hs.
    replace (Z.of_nat r + (Z.of_nat j - Z.of_nat r))%Z with (Z.of_nat j) by lia.
    rewrite !getZ_nat by (rewrite ?Hl; fold n; lia). unfold line. cbv zeta. ring. }
  destruct (Rlt_dec (clip x (el xp 1) (el xp (n - 2))) (el xp r)) as [H | H].
  - left; split; [ assumption | ]. rewrite (E (r - 1)%nat); try lia.
    + unfold cell. replace (r - 1 + 1)%nat with r by lia.
      apply line_sym. intro Q. apply (Hd (r - 1)%nat); [ fold n; lia | ]. replace (r - 1 + 1)%nat with r by lia. congruence.
    + rewrite Nat.eqb_refl. unfold isign. destruct (Rlt_dec _ 0); [ reflexivity | lra ].
    + unfold isign. destruct (Rlt_dec _ 0); [ change (copysign1 (-1)) with (-1)%Z; lia | lra ].
  - right; split; [ lra | ]. rewrite (E (r + 1)%nat); try lia.
    + reflexivity.
    + destruct (Nat.eqb_spec (r + 1) (r - 1)); [ lia | reflexivity ].
    + unfold isign. destruct (Rlt_dec _ 0); [ lra | ]. destruct (Rlt_dec 0 _); [ change (copysign1 1) with 1%Z | change (copysign1 0) with 1%Z ]; lia.
Qed.

(** ** increasing grids: the cell used is the one containing x, except below node 1 *)
Lemma incr_le v i j : incr v -> (i <= j < length v)%nat -> el v i <= el v j.
Proof. intros H Hij. destruct (Nat.eq_dec i j) as [-> | ]; [ lra | ]. left; apply H; lia. Qed.
Lemma incr_neq v : incr v -> forall i, (i + 1 < length v)%nat -> el v i <> el v (i + 1).
Proof. intros H i Hi. assert (el v i < el v (i + 1)) by (apply H; lia). lra. Qed.
Lemma decr_neq v : decr v -> forall i, (i + 1 < length v)%nat -> el v i <> el v (i + 1).
Proof. intros H i Hi. assert (el v (i + 1) < el v i) by (apply H; lia). lra. Qed.

Lemma cell_left xp fp i : el xp i <> el xp (i + 1) -> cell xp fp i (el xp i) = el fp i.
Proof. intros; apply line_at0. Qed.
Lemma cell_right xp fp i : el xp i <> el xp (i + 1) -> cell xp fp i (el xp (i + 1)) = el fp (i + 1).
Proof. intros; now apply line_at1. Qed.

(** every query is answered by cell c with 1 <= c <= n-2, and c is the cell around x where there is one *)
Lemma interp1_cell x xp fp : (3 <= length xp)%nat -> length fp = length xp -> incr xp ->
  exists c, (1 <= c <= length xp - 2)%nat /\ interp1 x xp fp = cell xp fp c x /\
    (el xp c <= x \/ c = 1%nat) /\ (x <= el xp (c + 1) \/ c = (length xp - 2)%nat).
Proof.
  intros Hn Hl Hi. set (n := length xp) in *. pose proof (near1_range x xp Hn) as Hr.
  assert (Hne : xp <> []) by (intros ->; unfold n in Hn; simpl in Hn; lia).
  destruct (nearest_spec x xp Hne) as [Hnr Hmin]. fold n in Hnr, Hmin, Hr.
  destruct (interp1_raw x xp fp Hn Hl (incr_neq xp Hi)) as [[Hc He] | [Hc He]]; fold n in Hc; set (r := near1 x xp) in *.
  - (* below node r *)
    unfold clip in Hc.
    assert (Hx1 : r <> 1%nat).
    { intros E. rewrite E in Hc.
      assert (el xp 1 <= el xp (n - 2)) by (apply incr_le; [ assumption | fold n; lia ]).
      destruct (Rle_dec (Rmax x (el xp 1)) (el xp (n - 2))).
      - rewrite Rmin_left in Hc by assumption. pose proof (Rmax_r x (el xp 1)). lra.
      - rewrite Rmin_right in Hc by lra. lra. }
    assert (Hxr : x < el xp r).
    { assert (el xp r <= el xp (n - 2)) by (apply incr_le; [ assumption | fold n; lia ]).
      pose proof (Rmax_l x (el xp 1)).
      destruct (Rle_dec (Rmax x (el xp 1)) (el xp (n - 2))); [ rewrite Rmin_left in Hc by assumption | rewrite Rmin_right in Hc by lra ]; lra. }
    exists (r - 1)%nat. split; [ lia | split; [ exact He | split ]].
    + left. (* r-1 is not nearer than r *)
      destruct (Rle_dec (el xp (r - 1)) x) as [ | Hlt]; [ assumption | exfalso ].
      apply Rnot_le_lt in Hlt.
      (* then the nearest index is at most r-1 *)
      assert (Hq : (nearest x xp <= r - 1)%nat).
      { destruct (Nat.le_gt_cases (nearest x xp) (r - 1)) as [ | Hgt]; [ assumption | exfalso ].
        specialize (Hmin (r - 1)%nat ltac:(lia)).
        assert (el xp (r - 1) < el xp (nearest x xp)) by (apply Hi; fold n; lia).
        rewrite Rabs_left1, Rabs_left1 in Hmin by lra. lra. }
      unfold r, near1 in Hq, Hx1. fold n in Hq, Hx1. fold r in Hq. unfold r, near1 in Hq. fold n in Hq. lia.
    + left. replace (r - 1 + 1)%nat with r by lia. lra.
  - exists r. split; [ lia | split; [ exact He | split ]].
    + destruct (Nat.eq_dec r 1) as [ | H1]; [ now right | left ].
      destruct (Rle_dec (el xp r) x) as [ | Hlt]; [ assumption | exfalso ]. apply Rnot_le_lt in Hlt.
      assert (Hmx : Rmax x (el xp 1) < el xp r) by (apply Rmax_lub_lt; [ assumption | apply Hi; fold n; lia ]).
      unfold clip in Hc. pose proof (Rmin_l (Rmax x (el xp 1)) (el xp (n - 2))). lra.
    + destruct (Nat.eq_dec r (n - 2)) as [ | H1]; [ now right | left ].
      destruct (Rle_dec x (el xp (r + 1))) as [ | Hlt]; [ assumption | exfalso ]. apply Rnot_le_lt in Hlt.
      assert (Hq : (r + 1 <= nearest x xp)%nat).
      { destruct (Nat.le_gt_cases (r + 1) (nearest x xp)) as [ | Hgt]; [ assumption | exfalso ].
        specialize (Hmin (r + 1)%nat ltac:(lia)).
        assert (el xp (nearest x xp) < el xp (r + 1)) by (apply Hi; fold n; lia).
        rewrite Rabs_right, Rabs_right in Hmin by lra. lra. }
      unfold r, near1 in Hq, H1. fold n in Hq, H1. fold r in H1. unfold r, near1 in H1. fold n in H1. lia.
Qed.

(** C48: x in cell i >= 1 *)
Lemma interp1_incr x xp fp i : (3 <= length xp)%nat -> length fp = length xp -> incr xp ->
  (1 <= i)%nat -> (i + 1 < length xp)%nat -> el xp i <= x <= el xp (i + 1) ->
  interp1 x xp fp = cell xp fp i x.
Proof.
  intros Hn Hl Hi H1 H2 Hx. destruct (interp1_cell x xp fp Hn Hl Hi) as (c & Hc & -> & Hlo & Hhi).
  destruct (Nat.lt_trichotomy c i) as [L | [-> | L]]; [ | reflexivity | ].
  - destruct Hhi as [Hhi | ->]; [ | lia ].
    assert (el xp (c + 1) <= el xp i) by (apply incr_le; [ assumption | lia ]).
    assert (E : (c + 1)%nat = i).
    { destruct (Nat.eq_dec (c + 1) i); [ assumption | ]. assert (el xp (c + 1) < el xp i) by (apply Hi; lia). lra. }
    assert (x = el xp i) by lra. subst x. subst i.
    rewrite cell_right, cell_left by (apply incr_neq; [ assumption | lia ]). reflexivity.
  - destruct Hlo as [Hlo | ->]; [ | lia ].
    assert (el xp (i + 1) <= el xp c) by (apply incr_le; [ assumption | lia ]).
    assert (E : (i + 1)%nat = c).
    { destruct (Nat.eq_dec (i + 1) c); [ assumption | ]. assert (el xp (i + 1) < el xp c) by (apply Hi; lia). lra. }
    assert (x = el xp c) by lra. subst x. subst c.
    rewrite cell_right, cell_left by (apply incr_neq; [ assumption | lia ]). reflexivity.
Qed.

Lemma cell_node1 xp fp : (3 <= length xp)%nat -> incr xp -> cell xp fp 0 (el xp 1) = el fp 1.
Proof. intros Hn Hi. apply (cell_right xp fp 0). apply incr_neq; [ assumption | lia ]. Qed.

(** outside the nodes 1 .. n-1 the end cells are extended *)
Lemma interp1_below x xp fp : (3 <= length xp)%nat -> length fp = length xp -> incr xp ->
  x <= el xp 1 -> interp1 x xp fp = cell xp fp 1 x.
Proof.
  intros Hn Hl Hi Hx. destruct (interp1_cell x xp fp Hn Hl Hi) as (c & Hc & -> & Hlo & Hhi).
  destruct Hlo as [Hlo | ->]; [ | reflexivity ].
  destruct (Nat.eq_dec c 1) as [-> | Hne]; [ reflexivity | ].
  assert (el xp 1 < el xp c) by (apply Hi; lia). lra.
Qed.
Lemma interp1_above x xp fp : (3 <= length xp)%nat -> length fp = length xp -> incr xp ->
  el xp (length xp - 2) <= x -> interp1 x xp fp = cell xp fp (length xp - 2) x.
Proof.
  intros Hn Hl Hi Hx. destruct (Rle_dec x (el xp (length xp - 2 + 1))) as [H | H].
  - apply interp1_incr; auto; lia.
  - destruct (interp1_cell x xp fp Hn Hl Hi) as (c & Hc & -> & Hlo & Hhi).
    destruct Hhi as [Hhi | ->]; [ | reflexivity ].
    assert (el xp (c + 1) <= el xp (length xp - 2 + 1)) by (apply incr_le; [ assumption | lia ]). lra.
Qed.

(** values at nodes *)
Lemma interp1_node xp fp i : (3 <= length xp)%nat -> length fp = length xp -> incr xp ->
  (1 <= i < length xp)%nat -> interp1 (el xp i) xp fp = el fp i.
Proof.
  intros Hn Hl Hi Hr. destruct (Nat.eq_dec i (length xp - 1)) as [E | E].
  - rewrite (interp1_incr _ xp fp (i - 1)); try assumption; try lia.
    + replace i with (i - 1 + 1)%nat at 2 3 by lia. apply cell_right. apply incr_neq; [ assumption | lia ].
    + replace (i - 1 + 1)%nat with i by lia. split; [ apply incr_le; [ assumption | lia ] | lra ].
  - rewrite (interp1_incr _ xp fp i); try assumption; try lia.
    + apply cell_left. apply incr_neq; [ assumption | lia ].
    + split; [ lra | apply incr_le; [ assumption | lia ]].
Qed.

(** ** monotone data gives a monotone interpolant, everywhere *)
Lemma cell_decr xp fp c x y : el xp c < el xp (c + 1) -> el fp (c + 1) <= el fp c -> x <= y ->
  cell xp fp c y <= cell xp fp c x.
Proof.
  intros Hx Hf Hxy. unfold cell, line.
  assert ((el fp (c + 1) - el fp c) / (el xp (c + 1) - el xp c) <= 0).
  { assert (0 < / (el xp (c + 1) - el xp c)) by (apply Rinv_0_lt_compat; lra). unfold Rdiv. nra. }
  nra.
Qed.

Lemma antitone_le fp i j : (forall k, (1 <= k)%nat -> (k + 1 < length fp)%nat -> el fp (k + 1) <= el fp k) ->
  (1 <= i <= j)%nat -> (j < length fp)%nat -> el fp j <= el fp i.
Proof.
  intros H [Hi Hij] Hj. induction j as [ | j IH]; [ replace i with 0%nat by lia; lra | ].
  destruct (Nat.eq_dec i (S j)) as [-> | Hne]; [ lra | ].
  specialize (IH ltac:(lia) ltac:(lia)). specialize (H j ltac:(lia) ltac:(lia)).
  rewrite Nat.add_1_r in H. lra.
Qed.

Lemma interp1_antitone xp fp x y : (3 <= length xp)%nat -> length fp = length xp -> incr xp ->
  (forall k, (1 <= k)%nat -> (k + 1 < length fp)%nat -> el fp (k + 1) <= el fp k) ->
  x <= y -> interp1 y xp fp <= interp1 x xp fp.
Proof.
  intros Hn Hl Hi Hf Hxy.
  destruct (interp1_cell x xp fp Hn Hl Hi) as (c & Hc & -> & Hclo & Hchi).
  destruct (interp1_cell y xp fp Hn Hl Hi) as (d & Hd & -> & Hdlo & Hdhi).
  assert (Hcell : forall i u v, (1 <= i <= length xp - 2)%nat -> u <= v -> cell xp fp i v <= cell xp fp i u).
  { intros i u v Hir Huv. apply cell_decr; [ apply Hi; lia | apply Hf; lia | assumption ]. }
  destruct (Nat.lt_trichotomy c d) as [L | [-> | L]].
  - assert (Hx : x <= el xp (c + 1)) by (destruct Hchi as [ | ->]; [ assumption | lia ]).
    assert (Hy : el xp d <= y) by (destruct Hdlo as [ | ->]; [ assumption | lia ]).
    apply Rle_trans with (el fp d).
    + rewrite <- (cell_left xp fp d) by (apply incr_neq; [ assumption | lia ]). apply Hcell; [ lia | assumption ].
    + apply Rle_trans with (el fp (c + 1)).
      * apply antitone_le; [ assumption | lia | lia ].
      * rewrite <- (cell_right xp fp c) by (apply incr_neq; [ assumption | lia ]). apply Hcell; [ lia | assumption ].
  - now apply Hcell.
  - assert (Hx : el xp c <= x) by (destruct Hclo as [ | ->]; [ assumption | lia ]).
    assert (Hy : y <= el xp (d + 1)) by (destruct Hdhi as [ | ->]; [ assumption | lia ]).
    assert (el xp (d + 1) <= el xp c) by (apply incr_le; [ assumption | lia ]).
    assert (E : (d + 1)%nat = c).
    { destruct (Nat.eq_dec (d + 1) c); [ assumption | ]. assert (el xp (d + 1) < el xp c) by (apply Hi; lia). lra. }
    subst c. assert (x = el xp (d + 1)) by lra. assert (y = el xp (d + 1)) by lra. subst x y.
    rewrite cell_left, cell_right by (apply incr_neq; [ assumption | lia ]). lra.
Qed.

(** increasing data: negate *)
Lemma cell_opp xp fp c x : (c + 1 < length fp)%nat -> cell xp (map Ropp fp) c x = - cell xp fp c x.
Proof.
  intros H. unfold cell, line, el. rewrite !(nth_map_lt Ropp fp _ 0 0) by lia. unfold Rdiv. ring.
Qed.
Lemma interp1_monotone xp fp x y : (3 <= length xp)%nat -> length fp = length xp -> incr xp ->
  (forall k, (1 <= k)%nat -> (k + 1 < length fp)%nat -> el fp k <= el fp (k + 1)) ->
  x <= y -> interp1 x xp fp <= interp1 y xp fp.
Proof.
  intros Hn Hl Hi Hf Hxy.
  assert (Hopp : forall q, interp1 q xp (map Ropp fp) = - interp1 q xp fp).
  { intros q. assert (Hl' : length (map Ropp fp) = length xp) by (now rewrite map_length).
    destruct (interp1_raw q xp (map Ropp fp) Hn Hl' (incr_neq xp Hi)) as [[H1 ->] | [H1 ->]];
    destruct (interp1_raw q xp fp Hn Hl (incr_neq xp Hi)) as [[H2 ->] | [H2 ->]]; try lra;
    pose proof (near1_range q xp Hn); apply cell_opp; lia. }
  assert (interp1 y xp (map Ropp fp) <= interp1 x xp (map Ropp fp)).
  { apply interp1_antitone; auto; [ now rewrite map_length | ].
    intros k Hk Hk2. rewrite map_length in Hk2. unfold el. rewrite !(nth_map_lt Ropp fp _ 0 0) by lia.
    specialize (Hf k Hk Hk2). unfold el in Hf. lra. }
  rewrite !Hopp in H. lra.
Qed.

(** ** C50: affine data *)
Lemma cell_affine xp fp al be c x : el xp c <> el xp (c + 1) ->
  el fp c = al * el xp c + be -> el fp (c + 1) = al * el xp (c + 1) + be -> cell xp fp c x = al * x + be.
Proof. intros H E1 E2. unfold cell, line. rewrite E1, E2. field. lra. Qed.
Lemma interp1_affine x xp fp al be : (3 <= length xp)%nat -> length fp = length xp ->
  (forall i, (i + 1 < length xp)%nat -> el xp i <> el xp (i + 1)) ->
  (forall i, (i < length xp)%nat -> el fp i = al * el xp i + be) ->
  interp1 x xp fp = al * x + be.
Proof.
  intros Hn Hl Hd Ha. pose proof (near1_range x xp Hn).
  destruct (interp1_raw x xp fp Hn Hl Hd) as [[_ ->] | [_ ->]]; apply cell_affine; try apply Hd; try apply Ha; lia.
Qed.

(** ** decreasing grids *)
Lemma decr_le v i j : decr v -> (i <= j < length v)%nat -> el v j <= el v i.
Proof. intros H Hij. destruct (Nat.eq_dec i j) as [-> | ]; [ lra | ]. left; apply H; lia. Qed.

Lemma interp1_decr_raw x xp fp : (3 <= length xp)%nat -> length fp = length xp -> decr xp ->
  let n := length xp in let r := near1 x xp in
  interp1 x xp fp = cell xp fp (if Nat.ltb r (n - 2) then r - 1 else n - 2)%nat x.
Proof.
  intros Hn Hl Hd n r. pose proof (near1_range x xp Hn) as Hr. fold n r in Hr.
  assert (E : clip x (el xp 1) (el xp (n - 2)) = el xp (n - 2)).
  { unfold clip. apply Rmin_right. apply Rle_trans with (el xp 1); [ apply decr_le; [ assumption | fold n; lia ] | apply Rmax_r ]. }
  destruct (interp1_raw x xp fp Hn Hl (decr_neq xp Hd)) as [[Hc ->] | [Hc ->]]; fold n r in Hc |- *; rewrite E in Hc.
  - destruct (Nat.ltb_spec r (n - 2)); [ reflexivity | ]. replace r with (n - 2)%nat in Hc by lia. lra.
  - destruct (Nat.ltb_spec r (n - 2)) as [H | H].
    + assert (el xp (n - 2) < el xp r) by (apply Hd; fold n; lia). lra.
    + replace r with (n - 2)%nat by lia. reflexivity.
Qed.

(** the node nearest to a point of cell i is i or i+1 (strictly decreasing grid), and is within half the cell *)
Lemma nearest_decr x xp i : decr xp -> (i + 1 < length xp)%nat -> el xp (i + 1) <= x <= el xp i ->
  (nearest x xp = i \/ nearest x xp = i + 1)%nat /\
  Rabs (x - el xp (nearest x xp)) <= (el xp i - el xp (i + 1)) / 2.
Proof.
  intros Hd Hi Hx. assert (Hne : xp <> []) by (intros ->; simpl in Hi; lia).
  destruct (nearest_spec x xp Hne) as [Hr Hmin]. set (r := nearest x xp) in *.
  pose proof (Hmin i ltac:(lia)) as M0. pose proof (Hmin (i + 1)%nat ltac:(lia)) as M1.
  rewrite (Rabs_left1 (x - el xp i)) in M0 by lra. rewrite (Rabs_right (x - el xp (i + 1))) in M1 by lra.
  split; [ | lra ].
  destruct (Nat.lt_trichotomy r i) as [L | [-> | L]]; [ exfalso | now left | ].
  - assert (el xp i < el xp r) by (apply Hd; lia). rewrite Rabs_left1 in M0 by lra. lra.
  - destruct (Nat.eq_dec r (i + 1)) as [ | Hne2]; [ now right | exfalso ].
    assert (el xp r < el xp (i + 1)) by (apply Hd; lia). rewrite Rabs_right in M1 by lra. lra.
Qed.

Definition slope (xp fp : list R) (i : nat) : R := (el fp (i + 1) - el fp i) / (el xp (i + 1) - el xp i).

Lemma cell_diff_left xp fp i x : el xp i <> el xp (i + 1) -> el xp (i + 1) <> el xp (i + 2) ->
  cell xp fp (i + 1) x - cell xp fp i x = (slope xp fp (i + 1) - slope xp fp i) * (x - el xp (i + 1)).
Proof.
  intros H1 H2. unfold cell, line, slope. replace (i + 1 + 1)%nat with (i + 2)%nat by lia.
  field. split; lra.
Qed.

(** C49: the answer comes from cell i or a neighbouring cell extended over at most half of cell i *)
Lemma interp1_decr x xp fp i : (4 <= length xp)%nat -> length fp = length xp -> decr xp ->
  (i + 1 < length xp)%nat -> el xp (i + 1) <= x <= el xp i ->
  exists c, (c + 1 < length xp)%nat /\ (c <= i + 1)%nat /\ (i <= c + 1)%nat /\ interp1 x xp fp = cell xp fp c x /\
    Rabs (interp1 x xp fp - cell xp fp i x) <=
      Rabs (slope xp fp c - slope xp fp i) * ((el xp i - el xp (i + 1)) / 2).
Proof.
  intros Hn Hl Hd Hi Hx. rewrite (interp1_decr_raw x xp fp ltac:(lia) Hl Hd).
  destruct (nearest_decr x xp i Hd Hi Hx) as [Hnear Hdist].
  assert (Hsame : forall c, c = i -> Rabs (cell xp fp c x - cell xp fp i x) <=
      Rabs (slope xp fp c - slope xp fp i) * ((el xp i - el xp (i + 1)) / 2)).
  { intros c ->. replace (cell xp fp i x - cell xp fp i x) with 0 by ring.
    replace (slope xp fp i - slope xp fp i) with 0 by ring. rewrite Rabs_R0. lra. }
  pose proof (near1_range x xp ltac:(lia)) as Hr. unfold near1 in *. set (n := length xp) in *.
  destruct (Nat.ltb_spec (Nat.min (Nat.max (nearest x xp) 1) (n - 2)) (n - 2)) as [H | H].
  - eexists; split; [ | split; [ | split; [ | split; [ reflexivity | ]]]]; [ lia | lia | lia | ].
    destruct Hnear as [E | E]; rewrite E in *.
    + destruct (Nat.eq_dec i 0) as [-> | Hi0]; [ apply Hsame; lia | ].
      replace (Nat.min (Nat.max i 1) (n - 2) - 1)%nat with (i - 1)%nat by lia.
      rewrite Rabs_minus_sym. replace i with (i - 1 + 1)%nat at 1 by lia.
      rewrite cell_diff_left.
      * replace (i - 1 + 1)%nat with i by lia. rewrite Rabs_mult, (Rabs_minus_sym (slope xp fp (i - 1))).
        apply Rmult_le_compat_l; [ apply Rabs_pos | assumption ].
      * apply decr_neq; [ assumption | fold n; lia ].
      * replace (i - 1 + 2)%nat with (i + 1)%nat by lia. replace (i - 1 + 1)%nat with i by lia.
        apply decr_neq; [ assumption | fold n; lia ].
    + apply Hsame. lia.
  - eexists; split; [ | split; [ | split; [ | split; [ reflexivity | ]]]]; [ lia | lia | lia | ].
    destruct (Nat.eq_dec i (n - 2)) as [Ei | Hi2]; [ apply Hsame; lia | ].
    assert (Ei : (i + 1 = n - 2)%nat) by lia. rewrite <- Ei.
    destruct Hnear as [E | E]; rewrite E in *; [ lia | ].
    rewrite cell_diff_left; [ | apply decr_neq; [ assumption | fold n; lia ] | ].
    + rewrite Rabs_mult. apply Rmult_le_compat_l; [ apply Rabs_pos | assumption ].
    + replace (i + 2)%nat with (i + 1 + 1)%nat by lia. apply decr_neq; [ assumption | fold n; lia ].
Qed.

(** nodes of a decreasing grid are reproduced (at least four nodes) *)
Lemma nearest_node_decr xp k : decr xp -> (k < length xp)%nat -> nearest (el xp k) xp = k.
Proof.
  intros Hd Hk. assert (Hne : xp <> []) by (intros ->; simpl in Hk; lia).
  destruct (nearest_spec (el xp k) xp Hne) as [Hr Hmin]. specialize (Hmin k Hk).
  replace (el xp k - el xp k) with 0 in Hmin by ring. rewrite Rabs_R0 in Hmin.
  pose proof (Rabs_pos (el xp k - el xp (nearest (el xp k) xp))).
  assert (Rabs (el xp k - el xp (nearest (el xp k) xp)) = 0) as Z by lra.
  destruct (Nat.lt_trichotomy (nearest (el xp k) xp) k) as [L | [ | L]]; [ exfalso | assumption | exfalso ].
  - assert (el xp k < el xp (nearest (el xp k) xp)) by (apply Hd; lia). rewrite Rabs_left in Z by lra. lra.
  - assert (el xp (nearest (el xp k) xp) < el xp k) by (apply Hd; lia). rewrite Rabs_right in Z by lra. lra.
Qed.
Lemma interp1_decr_node xp fp k : (4 <= length xp)%nat -> length fp = length xp -> decr xp ->
  (k < length xp)%nat -> interp1 (el xp k) xp fp = el fp k.
Proof.
  intros Hn Hl Hd Hk. rewrite interp1_decr_raw by (auto; lia). unfold near1. rewrite nearest_node_decr by assumption.
  set (n := length xp) in *.
  assert (Hneq : forall i, (i + 1 < n)%nat -> el xp i <> el xp (i + 1)) by (intros; now apply decr_neq).
  destruct (Nat.ltb_spec (Nat.min (Nat.max k 1) (n - 2)) (n - 2)) as [H | H].
  - destruct (Nat.eq_dec k 0) as [-> | Hk0].
    + replace (Nat.min (Nat.max 0 1) (n - 2) - 1)%nat with 0%nat by lia. apply cell_left. apply Hneq; lia.
    + replace (Nat.min (Nat.max k 1) (n - 2) - 1)%nat with (k - 1)%nat by lia.
      replace k with (k - 1 + 1)%nat at 2 3 by lia. apply cell_right. apply Hneq; lia.
  - destruct (Nat.eq_dec k (n - 2)) as [-> | Hk2].
    + apply cell_left. apply Hneq; lia.
    + replace k with (n - 2 + 1)%nat at 1 2 by lia. apply cell_right. apply Hneq; lia.
Qed.
