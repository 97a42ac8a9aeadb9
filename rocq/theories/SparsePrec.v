(** * The inverse of a positive definite sparse matrix: symmetric, positive definite, opposite log-determinant *)
From Verif Require Import Np NpLemmas Sparse SparseSpec SparseProofs DetSpec MxBridge DetProofs2 DetPos LikelihoodSpec LikelihoodProofs SparseLaws LikelihoodLaws DetBlocks.

Lemma inverse_symmetric n C P : symmetric n C -> is_inverse n C P -> symmetric n P.
Proof.
  intros S (W & A & B).
  (* the transpose of P is also an inverse of C *)
  set (T := tab n (fun i => tab n (fun j => el2 P j i))).
  assert (HT : is_inverse n C T).
  { split; [ apply wf2_tab2 | split ]; intros i j Hi Hj; unfold T.
    - rewrite (Rsum_ext _ _ (fun l => el2 P j l * el2 C l i)) by (intros l Hl; rewrite el2_tab by assumption; rewrite (S i l) by assumption; ring).
      rewrite B by assumption. now rewrite Nat.eqb_sym.
    - rewrite (Rsum_ext _ _ (fun l => el2 C j l * el2 P l i)) by (intros l Hl; rewrite el2_tab by assumption; rewrite (S l j) by assumption; ring).
      rewrite A by assumption. now rewrite Nat.eqb_sym. }
  assert (HP : is_inverse n C P) by (split; [ exact W | split; assumption ]).
  pose proof (is_inverse_unique _ _ _ _ HP HT) as E. intros i j Hi Hj. transitivity (el2 T i j); [ now rewrite <- E | ].
  unfold T. now rewrite el2_tab.
Qed.

Lemma precision linv a n s D : linv_ok linv -> wf3 a a n s -> (0 < a)%nat -> (0 < n)%nat -> denotes a a n s D ->
  symmetric (a * n) D -> pos_def (a * n) D ->
  exists t DT ld, inv linv (A3 a a n s) = Ok (A3 a a n t) /\ to_dense (A3 a a n t) = Ok (A2 (a * n) (a * n) DT) /\
    symmetric (a * n) DT /\ pos_def (a * n) DT /\
    slogdet linv (A3 a a n s) = Ok (1, ld) /\ slogdet linv (A3 a a n t) = Ok (1, - ld).
Proof.
  intros HL W Ha Hn HD HS HP. pose proof (pos_def_trailing W Hn HD HP) as HT. pose proof (trailing_slices a n s Ha HT) as HI.
  destruct (inv_correct linv a n s HL W HI) as (t & E & Wt & Ht). destruct (to_dense_correct a a n t Wt) as (DT & ET & HDT).
  specialize (Ht D DT HD HDT). pose proof (pos_def_inverse _ _ _ HP Ht) as HPT.
  destruct (det_sparse_correct HL W Ha Hn HT HD) as (sg & ld & Es & Hsg & Hd & _).
  destruct (det_sparse_correct HL Wt Ha Hn (pos_def_trailing Wt Hn HDT HPT) HDT) as (sg' & ld' & Es' & Hsg' & Hd' & _).
  pose proof (pos_def_det HP) as P1. pose proof (pos_def_det HPT) as P2. pose proof (inverse_det Ht) as HI1.
  pose proof (exp_pos ld) as X1. pose proof (exp_pos ld') as X2.
  assert (S1 : sg = 1) by (destruct Hsg as [ | -> ]; [ assumption | exfalso; lra ]).
  assert (S2 : sg' = 1) by (destruct Hsg' as [ | -> ]; [ assumption | exfalso; lra ]). subst sg sg'.
  exists t, DT, ld. split; [ exact E | split; [ exact ET | split; [ now apply (inverse_symmetric _ D) | split; [ exact HPT | split; [ exact Es | ]]]]].
  rewrite Es'. do 2 f_equal. apply exp_inv. rewrite exp_Ropp. rewrite Rmult_1_l in Hd, Hd'. rewrite Hd, Hd'.
  apply Rmult_eq_reg_l with (det_of (a * n) D); [ | lra ]. change (det_of (a * n) D * det_of (a * n) DT = 1) in HI1. rewrite HI1. symmetry. apply Rinv_r. lra.
Qed.
