(** * det: final forms, positive definite matrices, and the zero-pivot matrix (C09, C10) *)
From Verif Require Import Np NpLemmas Sparse SparseSpec SparseProofs SparseX SparseXProofs.
From mathcomp Require Import all_ssreflect all_algebra.
From Verif Require Import Rfield DetSpec MxBridge DetProofs.
Set Implicit Arguments.
Unset Strict Implicit.
Delimit Scope R_scope with Re.
Import GRing.Theory.
Local Open Scope ring_scope.
Local Notation "a +c b" := (Nat.add a b) (at level 50, left associativity).
Local Notation "a -c b" := (Nat.sub a b) (at level 50, left associativity).
Local Notation "a *c b" := (Nat.mul a b) (at level 40, left associativity).
Local Notation "a <c b" := (lt a b) (at level 70).
Local Notation "a <=c b" := (le a b) (at level 70).

Lemma det_sparse_correct linv N P s D : linv_ok linv -> wf3 N N P s -> 0 <c N -> 0 <c P ->
  trailing_invertible N P s -> denotes N N P s D ->
  exists sg ld, slogdet linv (A3 N N P s) = Ok (sg, ld) /\ (sg = 1 \/ sg = -1)%Re /\
     (sg * exp ld)%Re = det_of (N *c P) D /\
     det linv (A3 N N P s) = Ok (det_of (N *c P) D).
Proof.
move=> HL HW HN HP HT HD.
have -> : D = dense_of P s by apply: (denotes_unique _ _ _ _ _ _ HD); exact: dense_of_denotes.
apply: slogdet_correct => // k q Hk Hq.
have [m [[Wm Em] Hm]] := HT k q Hk Hq; exists m; split=> //; split=> // i j Hi Hj.
rewrite Em //; symmetry; apply: (trail_el HW) => //; lia.
Qed.

(** positive definite implies invertible *)
Lemma quad_mx n m (x : nat -> R) :
  quad n m x = \sum_(j < n) ((\row_i x i) *m mx n n m) 0 j * x j.
Proof.
rewrite /quad Rsum_swap Rsum_big; apply: eq_bigr => j _.
rewrite (Rsum_scal_r n (x j) (fun i => x i * el2 m i j)%Re) !mxE Rsum_big; by congr (_ * _); apply: eq_bigr => i _; rewrite !mxE.
Qed.

Lemma pos_def_invertible n m : pos_def n m -> invertible n m.
Proof.
move=> H; apply/invertible_det => E.
have /det0P [v nzv Ev] : \det (mx n n m) == 0 by apply/eqP.
have [i Hi] : exists i, v 0 i != 0.
  apply/existsP; apply: contraNT nzv => /existsPn Hv; apply/eqP/rowP => i.
  by move: (Hv i); rewrite negbK mxE => /eqP.
pose x (k : nat) : R := mxget v 0 k.
have xE (k : 'I_n) : x k = v 0 k.
  by rewrite /x /mxget -[0%N]/(val (0 : 'I_1)) !valK.
have := H x; rewrite quad_mx.
have -> : \row_i0 x i0 = v by apply/rowP => k; rewrite mxE xE.
rewrite Ev big1; last by move=> j _; rewrite mxE mul0r.
move=> Hlt; have : (0 < 0)%Re.
  by apply: Hlt; exists i; split=> //; rewrite xE; apply/eqP.
by move=> ?; lra.
Qed.

(** a vector on slice q of the trailing blocks, extended by zero to the full matrix *)
Definition embed (P k q : nat) (x : nat -> R) (r : nat) : R :=
  if Nat.eqb (Nat.modulo r P) q && Nat.leb k (Nat.div r P) then x (Nat.div r P -c k) else R0.

Lemma quad_embed N P s m k q x : wf3 N N P s -> k <c N -> q <c P -> is_trailing_slice N k q s m ->
  quad (N *c P) (dense_of P s) (embed P k q x) = quad (N -c k) m x.
Proof.
move=> HW Hk Hq [Wm Em]; rewrite /quad.
have HP : P <> 0%N by lia.
have idx (j q' : nat) : q' <c P -> Nat.modulo (j *c P +c q') P = q' /\ Nat.div (j *c P +c q') P = j.
  move=> H; rewrite Nat.add_comm Nat.mod_add // Nat.div_add // Nat.mod_small // Nat.div_small //; lia.
have sumE (f : nat -> R) : (forall r, Nat.eqb (Nat.modulo r P) q && Nat.leb k (Nat.div r P) = false -> f r = R0) ->
    Rsum (N *c P) f = Rsum (N -c k) (fun i => f ((k +c i) *c P +c q)).
  move=> Hf; rewrite Rsum_mul.
  rewrite (Rsum_ext N _ (fun j => if Nat.leb k j then f (j *c P +c q) else R0)); last first.
    move=> j Hj; case El: (Nat.leb k j).
      rewrite (Rsum_ext P _ (fun q' => if Nat.eqb q' q then f (j *c P +c q') else R0)).
        by rewrite Rsum_delta.
      move=> q' Hq'; case E: (Nat.eqb q' q) => //; apply: Hf.
      by have [-> ->] := idx j q' Hq'; rewrite E.
    apply: Rsum_0_ext => q' Hq'; apply: Hf; have [-> ->] := idx j q' Hq'; by rewrite El andbF.
  have -> : N = k +c (N -c k) by lia.
  rewrite Rsum_add Rsum_0_ext; last first.
    by move=> j Hj; have -> : Nat.leb k j = false by apply/Nat.leb_gt.
  rewrite Rplus_0_l; have -> : (k +c (N -c k)) -c k = (N -c k) by lia.
  apply: Rsum_ext => i Hi; by have -> : Nat.leb k (k +c i) = true by apply/Nat.leb_le; lia.
have emb i : embed P k q x ((k +c i) *c P +c q) = x i.
  have [E1 E2] := idx (k +c i) q Hq; rewrite /embed E1 E2 Nat.eqb_refl.
  have -> : Nat.leb k (k +c i) = true by apply/Nat.leb_le; lia.
  by rewrite /=; congr (x _); lia.
rewrite sumE; last first.
  move=> r Hr; apply: Rsum_0_ext => j Hj; rewrite /embed Hr; ring.
apply: Rsum_ext => i Hi; rewrite sumE; last first.
  move=> r Hr; rewrite {2}/embed Hr; ring.
apply: Rsum_ext => j Hj; rewrite !emb Em //.
have [_ ->] := dense_of_denotes _ _ _ _ HW; try nia.
have [E1 E2] := idx (k +c i) q Hq; have [E3 E4] := idx (k +c j) q Hq.
by rewrite /dense_entry E1 E2 E3 E4 Nat.eqb_refl.
Qed.

Lemma pos_def_trailing N P s D : wf3 N N P s -> 0 <c P -> denotes N N P s D -> pos_def (N *c P) D ->
  trailing_invertible N P s.
Proof.
move=> HW HP HD HPD k q Hk Hq.
have ED : D = dense_of P s by apply: (denotes_unique _ _ _ _ _ _ HD); exact: dense_of_denotes.
exists (tab (N -c k) (fun i => tab (N -c k) (fun j => el3 s (k +c i) (k +c j) q))).
set m := tab _ _.
have Hm : is_trailing_slice N k q s m.
  by split; [exact: wf2_tab2|move=> i j Hi Hj; rewrite /m el2_tab].
split=> //; apply: pos_def_invertible => x [i [Hi Hx]].
rewrite -(quad_embed x HW Hk Hq Hm) -ED; apply: HPD.
exists ((k +c i) *c P +c q); split; first nia.
rewrite /embed Nat.add_comm Nat.mod_add; last lia.
rewrite Nat.div_add; last lia.
rewrite Nat.mod_small // Nat.div_small // Nat.eqb_refl.
have -> : Nat.leb k (0 +c (k +c i)) = true by apply/Nat.leb_le; lia.
by rewrite /=; have -> : (k +c i) -c k = i by lia.
Qed.

Lemma det_swap : det_of (2 *c 1) [[0; 1]; [1; 0]]%Re = (-1)%Re.
Proof.
rewrite /det_of (expand_det_row _ 0) !big_ord_recl big_ord0 /cofactor !det_mx11 !mxE /el2 /= /bump /=.
rewrite /GRing.exp /=; rewrite -[RHS]/(Ropp 1); rewrite /GRing.mul /GRing.add /GRing.opp /GRing.one /GRing.zero /=; ring.
Qed.

Lemma swap_invertible : invertible (2 *c 1) [[0; 1]; [1; 0]]%Re.
Proof. by apply/invertible_det; rewrite det_swap => ?; have : (-1 = 0)%Re by []; lra. Qed.

Lemma swap_denotes : denotes 2 2 1 swapmat [[0; 1]; [1; 0]]%Re.
Proof.
have H : wf3 2 2 1 swapmat.
  split=> // row [<-|[<-|[]]]; split=> // v [<-|[<-|[]]] //.
have := dense_of_denotes _ _ _ _ H; by [].
Qed.
