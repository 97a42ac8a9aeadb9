(** * Functions glued from pieces: continuity and derivatives (analysis only, no modelling) *)
From Coquelicot Require Import Coquelicot.
From Verif Require Import Np NpLemmas.

(** two functions glued at t *)
Lemma glue2_derive (G f g : R -> R) t l d : 0 < d -> (forall r, t - d < r <= t -> G r = f r) -> (forall r, t <= r < t + d -> G r = g r) ->
  is_derive f t l -> is_derive g t l -> is_derive G t l.
Proof.
  intros Hd HL HR Hf Hg. apply is_derive_Reals in Hf. apply is_derive_Reals in Hg. apply is_derive_Reals.
  intros eps He. destruct (Hf eps He) as [d1 H1]. destruct (Hg eps He) as [d2 H2].
  assert (Hm : 0 < Rmin d (Rmin d1 d2)) by (repeat apply Rmin_pos; try assumption; apply cond_pos).
  exists (mkposreal _ Hm). intros h Hh Hlt. simpl in Hlt.
  assert (Rabs h < d /\ Rabs h < d1 /\ Rabs h < d2) as (K1 & K2 & K3).
  { split; [ eapply Rlt_le_trans; [ exact Hlt | apply Rmin_l ] | ].
    split; (eapply Rlt_le_trans; [ exact Hlt | eapply Rle_trans; [ apply Rmin_r | ]]); [ apply Rmin_l | apply Rmin_r ]. }
  destruct (Rlt_le_dec h 0) as [N | P].
  - rewrite (Rabs_left h N) in K1. rewrite (HL (t + h)), (HL t) by lra. now apply H1.
  - rewrite (Rabs_right h) in K1 by lra. rewrite (HR (t + h)), (HR t) by lra. now apply H2.
Qed.
Lemma glue2_continuous (G f g : R -> R) t d : 0 < d -> (forall r, t - d < r <= t -> G r = f r) -> (forall r, t <= r < t + d -> G r = g r) ->
  continuous f t -> continuous g t -> continuous G t.
Proof.
  intros Hd HL HR Hf Hg. apply continuity_pt_filterlim in Hf. apply continuity_pt_filterlim in Hg. apply continuity_pt_filterlim.
  intros eps He. destruct (Hf eps He) as (d1 & P1 & H1). destruct (Hg eps He) as (d2 & P2 & H2).
  exists (Rmin d (Rmin d1 d2)). split; [ repeat apply Rmin_pos; assumption | ]. intros r [Hr Hlt].
  assert (R_dist r t < d /\ R_dist r t < d1 /\ R_dist r t < d2) as (K1 & K2 & K3).
  { unfold dist, R_met in Hlt. split; [ eapply Rlt_le_trans; [ exact Hlt | apply Rmin_l ] | ].
    split; (eapply Rlt_le_trans; [ exact Hlt | eapply Rle_trans; [ apply Rmin_r | ]]); [ apply Rmin_l | apply Rmin_r ]. }
  pose proof K1 as K0. unfold R_dist in K1. apply Rabs_def2 in K1.
  destruct (Rlt_le_dec r t) as [N | P].
  - rewrite (HL r), (HL t) by lra. apply H1. split; [ exact Hr | exact K2 ].
  - rewrite (HR r), (HR t) by lra. apply H2. split; [ exact Hr | exact K3 ].
Qed.

Section Glue.
Variable t : nat -> R.
Variable M : nat.
Hypothesis HM : (0 < M)%nat.
Hypothesis Ht : forall i j, (i < j)%nat -> (j <= M)%nat -> t i < t j.
Variable idx : R -> nat.
Hypothesis Hidx : forall q, (idx q < M)%nat /\ (idx q = O \/ t (idx q) <= q) /\ (S (idx q) = M \/ q < t (S (idx q))).

Lemma t_le i j : (i <= j)%nat -> (j <= M)%nat -> t i <= t j.
Proof. intros H K. destruct (Nat.eq_dec i j) as [-> | n]; [ lra | ]. left. apply Ht; lia. Qed.
Lemma idx_unique i q : (i < M)%nat -> (i = O \/ t i <= q) -> (S i = M \/ q < t (S i)) -> idx q = i.
Proof.
  intros Hi H1 H2. destruct (Hidx q) as (K0 & K1 & K2). destruct (Nat.lt_trichotomy (idx q) i) as [L | [E | L]]; [ | exact E | ].
  - exfalso. destruct K2 as [K2 | K2]; [ lia | ]. destruct H1 as [H1 | H1]; [ lia | ]. pose proof (t_le (S (idx q)) i ltac:(lia) ltac:(lia)). lra.
  - exfalso. destruct H2 as [H2 | H2]; [ lia | ]. destruct K1 as [K1 | K1]; [ lia | ]. pose proof (t_le (S i) (idx q) ltac:(lia) ltac:(lia)). lra.
Qed.
Definition break (q : R) : Prop := exists i, (S i < M)%nat /\ q = t (S i).

Lemma break_dec q : break q \/ ~ break q.
Proof. unfold break. clear HM Ht Hidx. induction M as [ | m IH]; [ right; intros (i & H & _); lia | ].
  destruct IH as [(i & Hi & E) | N]; [ left; exists i; split; [ lia | exact E ] | ].
  destruct (Req_EM_T q (t m)) as [E | n].
  - destruct m as [ | m]; [ right; intros (i & H & _); lia | left; exists m; split; [ lia | exact E ] ].
  - right. intros (i & Hi & E). destruct (Nat.eq_dec (S i) m) as [e | e]; [ subst; congruence | ]. apply N. exists i. split; [ lia | exact E ].
Qed.
(** away from the interior knots the piece is locally constant *)
Lemma idx_local q : ~ break q -> exists d, 0 < d /\ forall r, Rabs (r - q) < d -> idx r = idx q.
Proof.
  intros NB. destruct (Hidx q) as (K0 & K1 & K2). set (i := idx q) in *.
  assert (L : exists d, 0 < d /\ forall r, Rabs (r - q) < d -> i = O \/ t i <= r).
  { destruct (Nat.eq_dec i 0) as [E | n]; [ exists 1; split; [ lra | now left ] | ]. destruct K1 as [K1 | K1]; [ lia | ].
    assert (t i < q). { destruct K1 as [K | K]; [ exact K | ]. exfalso. apply NB. exists (i - 1)%nat. replace (S (i - 1)) with i by lia. split; [ lia | now symmetry ]. }
    exists (q - t i). split; [ lra | ]. intros r Hr. right. apply Rabs_def2 in Hr. lra. }
  assert (U : exists d, 0 < d /\ forall r, Rabs (r - q) < d -> S i = M \/ r < t (S i)).
  { destruct K2 as [E | K2]; [ exists 1; split; [ lra | now left ] | ]. exists (t (S i) - q). split; [ lra | ]. intros r Hr. right. apply Rabs_def2 in Hr. lra. }
  destruct L as (d1 & P1 & L). destruct U as (d2 & P2 & U). exists (Rmin d1 d2). split; [ now apply Rmin_pos | ].
  intros r Hr. apply idx_unique; [ exact K0 | apply L | apply U ]; eapply Rlt_le_trans; try exact Hr; [ apply Rmin_l | apply Rmin_r ].
Qed.
(** around an interior knot *)
Lemma idx_knot i : (S i < M)%nat -> exists d, 0 < d /\ (forall r, t (S i) - d < r < t (S i) -> idx r = i) /\ (forall r, t (S i) <= r < t (S i) + d -> idx r = S i).
Proof.
  intros Hi. exists (Rmin (t (S i) - t i) (t (S (S i)) - t (S i))).
  pose proof (Ht i (S i) ltac:(lia) ltac:(lia)). pose proof (Ht (S i) (S (S i)) ltac:(lia) ltac:(lia)).
  split; [ apply Rmin_pos; lra | ]. pose proof (Rmin_l (t (S i) - t i) (t (S (S i)) - t (S i))). pose proof (Rmin_r (t (S i) - t i) (t (S (S i)) - t (S i))).
  split; intros r Hr; apply idx_unique; try lia; right; lra.
Qed.

Variable F : nat -> R -> R.
Definition glued (q : R) : R := F (idx q) q.

Lemma glued_left i : (S i < M)%nat -> F i (t (S i)) = F (S i) (t (S i)) ->
  exists d, 0 < d /\ (forall r, t (S i) - d < r <= t (S i) -> glued r = F i r) /\ (forall r, t (S i) <= r < t (S i) + d -> glued r = F (S i) r).
Proof.
  intros Hi E. destruct (idx_knot i Hi) as (d & Pd & L & U). exists d. split; [ exact Pd | split; intros r Hr; unfold glued ].
  - destruct (Req_EM_T r (t (S i))) as [-> | n]; [ rewrite U by lra; now symmetry | rewrite L by lra; reflexivity ].
  - now rewrite U.
Qed.
Lemma glued_continuous : (forall i (q : R), (i < M)%nat -> continuous (F i) q) -> (forall i, (S i < M)%nat -> F i (t (S i)) = F (S i) (t (S i))) ->
  forall q : R, continuous glued q.
Proof.
  intros HC HE q. destruct (break_dec q) as [(i & Hi & ->) | NB].
  - destruct (glued_left i Hi (HE i Hi)) as (d & Pd & L & U). apply (glue2_continuous glued (F i) (F (S i)) (t (S i)) d Pd L U); apply HC; lia.
  - destruct (idx_local q NB) as (d & Pd & L). apply (continuous_ext_loc _ (F (idx q))).
    + exists (mkposreal d Pd). intros r Hr. unfold glued. rewrite (L r Hr). reflexivity.
    + apply HC. apply Hidx.
Qed.
Variable F' : nat -> R -> R.
Hypothesis HF : forall i q, (i < M)%nat -> is_derive (F i) q (F' i q).
Lemma glued_derive_off q : ~ break q -> is_derive glued q (F' (idx q) q).
Proof.
  intros NB. destruct (idx_local q NB) as (d & Pd & L). apply (is_derive_ext_loc (F (idx q))).
  - exists (mkposreal d Pd). intros r Hr. unfold glued. rewrite (L r Hr). reflexivity.
  - apply HF, Hidx.
Qed.
Lemma glued_derive : (forall i, (S i < M)%nat -> F i (t (S i)) = F (S i) (t (S i))) -> (forall i, (S i < M)%nat -> F' i (t (S i)) = F' (S i) (t (S i))) ->
  forall q, is_derive glued q (F' (idx q) q).
Proof.
  intros HE HE' q. destruct (break_dec q) as [(i & Hi & ->) | NB]; [ | now apply glued_derive_off ].
  destruct (glued_left i Hi (HE i Hi)) as (d & Pd & L & U). destruct (idx_knot i Hi) as (d' & Pd' & _ & U').
  rewrite (U' (t (S i))) by lra. apply (glue2_derive glued (F i) (F (S i)) (t (S i)) _ d Pd L U).
  - rewrite <- HE' by exact Hi. apply HF. lia.
  - apply HF. lia.
Qed.
End Glue.
