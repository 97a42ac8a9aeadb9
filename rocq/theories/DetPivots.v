(** * The pivots of the sparse determinant do not vanish when the trailing sub-matrices are invertible *)
From Verif Require Import Np NpLemmas Sparse SparseSpec SparseProofs.
From mathcomp Require Import all_ssreflect all_algebra.
From Verif Require Import Rfield DetSpec MxBridge DetProofs DetProofs2.
Set Implicit Arguments.
Unset Strict Implicit.
Import GRing.Theory.
Local Open Scope ring_scope.
Local Notation "a -c b" := (Nat.sub a b) (at level 50, left associativity).
Local Notation "a +c b" := (Nat.add a b) (at level 50, left associativity).
Local Notation "a <c b" := (lt a b) (at level 70).

Lemma vprod_in v (z : R) : vprod v <> R0 -> List.In z v -> z <> R0.
Proof.
elim: v => [|x v IH] //= H [<-|Hz].
  by move=> E; apply: H; rewrite E; ring.
by apply: IH => // E; apply: H; rewrite E; ring.
Qed.
Lemma trailing_slices N P s : wf3 N N P s -> trailing_invertible N P s -> forall k q, k <c N -> q <c P ->
  exists m, is_slice (N -c k) (N -c k) q (trail s N k) m /\ invertible (N -c k) m.
Proof.
move=> HW HT k q Hk Hq; have [m [[Wm Em] Hm]] := HT k q Hk Hq; exists m; split=> //; split=> // i j Hi Hj.
rewrite Em //; symmetry; apply: (trail_el HW) => //; lia.
Qed.
Lemma slice_trailing N P s : wf3 N N P s -> trailing_invertible N P s -> forall k q, k <c N -> q <c P ->
  invertible (N -c k) (slice (N -c k) (N -c k) q (sub3 k N k N s)).
Proof.
move=> HW HT k q Hk Hq; have [m [[Wm Em] Hm]] := trailing_slices HW HT Hk Hq.
have -> : slice (N -c k) (N -c k) q (sub3 k N k N s) = m; last by [].
apply: (mat_ext (N -c k) (N -c k)) => //; first exact: wf2_tab2.
by move=> i j Hi Hj; rewrite Em // /slice el2_tab.
Qed.
Lemma pivots_nonzero linv N P s : linv_ok linv -> wf3 N N P s -> 0 <c N -> 0 <c P -> trailing_invertible N P s ->
  (forall k z, k +c 1 <c N -> List.In z (Mk linv s k N P) -> z <> R0) /\
  (forall z, List.In z (List.nth (N -c 1) (List.nth (N -c 1) s []) []) -> z <> R0).
Proof.
move=> HL HW HN HP HT; have HS := trailing_slices HW HT; split.
  move=> k z Hk; apply: vprod_in; apply/eqP; exact: (Mk_nz HL HW HP HS).
move=> z; apply: vprod_in; rewrite -(det_last HW HP HN); apply/eqP.
have E1 : N -c (N -c 1) = 1%N by lia.
by have := @det_trail_nz linv N P s HL HW HP HS (N -c 1) ltac:(lia); rewrite E1.
Qed.
