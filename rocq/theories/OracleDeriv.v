(** * How the results of the linear-algebra oracles move with the matrix they are given *)
From Verif Require Import Np NpLemmas Sparse SparseSpec Likelihood LikelihoodSpec LikelihoodProofs Deriv PosDefOpen AdLike.
From mathcomp Require Import all_ssreflect all_algebra.
From Verif Require Import Rfield DetSpec MxBridge MxDeriv.
Set Implicit Arguments.
Unset Strict Implicit.
Import GRing.Theory.
Local Open Scope ring_scope.
#[local] Arguments dv f%function_scope t%ring_scope d%ring_scope.
Local Notation "m < n" := (lt m n) (only parsing) : type_scope.

Definition moving (n : nat) (V : R -> list (list R)) (t : R) (V' : list (list R)) : Prop :=
  forall i j, (i < n)%coq_nat -> (j < n)%coq_nat -> dv (fun s => el2 (V s) i j) t (el2 V' i j).
Lemma moving_mx n V t V' : moving n V t V' -> mdv (fun s => mx n n (V s)) t (mx n n V').
Proof.
move=> H i j; rewrite mxE; apply: (@dv_ext (fun s => el2 (V s) i j)); [ by move=> s; rewrite mxE | exact: H ].
Qed.
Lemma mmul_mx n X Y : mx n n (mmul n X Y) = mx n n X *m mx n n Y.
Proof.
apply/matrixP => i j; rewrite !mxE /mmul el2_tab // vsum_tab Rsum_big.
by apply: eq_bigr => k _; rewrite !mxE.
Qed.
Lemma trace_mx n X : trace n X = \tr (mx n n X).
Proof. rewrite /trace vsum_tab Rsum_big /mxtrace; by apply: eq_bigr => k _; rewrite mxE. Qed.

Section Oracles.
Variable la : linalg.
Hypothesis Hla : linalg_ok la.
Lemma inv_mx n V : wf2 n n V -> mx n n V \in unitmx -> mx n n (la_inv la n V) = invmx (mx n n V).
Proof. move=> W /invertible_unit I; apply: is_inverse_inv; by apply: (proj1 Hla). Qed.
Lemma near_inv n V t V' : (forall s, wf2 n n (V s)) -> invertible n (V t) -> moving n V t V' ->
  near t (fun s => mx n n (la_inv la n (V s)) = invmx (mx n n (V s))).
Proof.
move=> W /invertible_unit I M; apply: (near_imp _ _ (mdv_unit (moving_mx M) I)) => s Us; exact: inv_mx.
Qed.
Lemma inv_moving n V t V' : (forall s, wf2 n n (V s)) -> invertible n (V t) -> moving n V t V' ->
  forall i j, (i < n)%coq_nat -> (j < n)%coq_nat ->
  dv (fun s => el2 (la_inv la n (V s)) i j) t (- el2 (mmul n (mmul n (la_inv la n (V t)) V') (la_inv la n (V t))) i j).
Proof.
move=> W I M i j Hi Hj; have [/ltP Hi' /ltP Hj'] := (Hi, Hj).
have U : mx n n (V t) \in unitmx by apply/invertible_unit.
have K := mdv_inv (moving_mx M) U (Ordinal Hi') (Ordinal Hj').
apply: (@dv_near (fun s => invmx (mx n n (V s)) (Ordinal Hi') (Ordinal Hj'))).
  apply: (near_imp _ _ (near_inv W I M)) => s E; by rewrite -E mxE.
apply: (dv_eq _ K); rewrite mxE -inv_mx // -!mmul_mx; by rewrite mxE.
Qed.
Lemma logdet_near n V t V' : (forall s, wf2 n n (V s)) -> invertible n (V t) -> moving n V t V' ->
  near t (fun s => (2 * snd (la_slogdet la n (V s)) = ln (\det (mx n n (V s)) * \det (mx n n (V s))))%Re).
Proof.
move=> W /invertible_unit I M; apply: (near_imp _ _ (mdv_unit (moving_mx M) I)) => s Us.
have D : det_of n (V s) <> R0 by move: Us; rewrite unitmxE unitfE => /eqP.
have [] := proj1 (proj2 Hla) n (V s) (W s) D; set sg := fst _; set ld := snd _ => S E.
rewrite -[\det _]/(det_of n (V s)) -E.
have -> : (sg * exp ld * (sg * exp ld) = exp (2 * ld))%Re.
  have -> : (2 * ld = ld + ld)%Re by ring.
  rewrite exp_plus; case: S => ->; ring.
by rewrite ln_exp.
Qed.
Lemma logdet_moving n V t V' : (forall s, wf2 n n (V s)) -> invertible n (V t) -> moving n V t V' ->
  dv (fun s => snd (la_slogdet la n (V s))) t (trace n (mmul n (la_inv la n (V t)) V')).
Proof.
move=> W I M; have U : mx n n (V t) \in unitmx by apply/invertible_unit.
have D : \det (mx n n (V t)) <> 0 by move: U; rewrite unitmxE unitfE => /eqP.
have K := dv_det (moving_mx M); rewrite det_trace // in K.
set d := (fun s => \det (mx n n (V s))) in K *; set q := \tr _ in K.
have K2 := dv_mult K K.
have P : (0 < d t * d t)%Re by apply: Rsqr_pos_lt.
have K3 := rv_scale (/ 2)%Re (dv_ln K2 P).
have -> : trace n (mmul n (la_inv la n (V t)) V') = q by rewrite trace_mx mmul_mx inv_mx.
apply: (@dv_near (fun s => (/ 2 * ln (d s * d s))%Re)).
  apply: (near_imp _ _ (logdet_near W I M)) => s E; rewrite /d -E; field.
have Dt : d t <> R0 by [].
apply: (dv_eq _ K3); rewrite -[\det _]/(d t).
by change ((/ 2 * ((d t * q * d t + d t * (d t * q)) / (d t * d t)))%Re = q); field.
Qed.
(** cho_solve: solution of V y = r *)
Definition colv (n : nat) (r : list R) : 'M[R]_(n, 1) := \matrix_(i < n, j < 1) el r i.
Lemma cho_mx n V r : wf2 n n V -> SparseSpec.symmetric n V -> pos_def n V -> wf1 n r -> colv n (la_cho_solve la n V r) = invmx (mx n n V) *m colv n r.
Proof.
move=> W S P Wr; have [[_ E] _] := proj2 (proj2 Hla) n V r W S P Wr.
have U : mx n n V \in unitmx by apply/invertible_unit; exact: DetProofs2.pos_def_invertible.
have -> : colv n r = mx n n V *m colv n (la_cho_solve la n V r).
  apply/matrixP => i j; rewrite !mxE E // Rsum_big; by apply: eq_bigr => k _; rewrite !mxE.
by rewrite mulmxA mulVmx // mul1mx.
Qed.
Lemma cho_moving n V t V' r r' : (forall s, wf2 n n (V s)) -> (forall s, SparseSpec.symmetric n (V s)) -> pos_def n (V t) -> (forall s, wf1 n (r s)) -> wf1 n r' -> wf2 n n V' ->
  moving n V t V' -> (forall i, (i < n)%coq_nat -> dv (fun s => el (r s) i) t (el r' i)) ->
  forall i, (i < n)%coq_nat ->
  dv (fun s => el (la_cho_solve la n (V s) (r s)) i) t (el (la_cho_solve la n (V t) (vsub r' (mv V' (la_cho_solve la n (V t) (r t))))) i).
Proof.
move=> W S P Wr Wr' W' M Mr i Hi; have /ltP Hi' := Hi.
have U : mx n n (V t) \in unitmx by apply/invertible_unit; exact: DetProofs2.pos_def_invertible.
have Nr := @pos_def_open n V V' t (S t) P M.
have Mc : mdv (fun s => colv n (r s)) t (colv n r').
  move=> k j; rewrite mxE; apply: (@dv_ext (fun s => el (r s) k)); [ by move=> s; rewrite mxE | exact: Mr ].
have K := mdv_mul (mdv_inv (moving_mx M) U) Mc (Ordinal Hi') 0.
apply: (@dv_near (fun s => (invmx (mx n n (V s)) *m colv n (r s)) (Ordinal Hi') 0)).
  apply: (near_imp _ _ Nr) => s Ps; rewrite -cho_mx //; by rewrite mxE.
have Wy : wf1 n (la_cho_solve la n (V t) (r t)) by have [_] := proj2 (proj2 Hla) n (V t) (r t) (W t) (S t) P (Wr t).
have Wv : wf1 n (vsub r' (mv V' (la_cho_solve la n (V t) (r t)))).
  rewrite /wf1 LikelihoodProofs.length_vsub // LikelihoodProofs.length_mv; have [-> _] := W'; exact: Wr'.
apply: (dv_eq _ K).
transitivity (colv n (la_cho_solve la n (V t) (vsub r' (mv V' (la_cho_solve la n (V t) (r t))))) (Ordinal Hi') 0); last by rewrite mxE.
rewrite cho_mx //.
have -> : colv n (vsub r' (mv V' (la_cho_solve la n (V t) (r t)))) = colv n r' - mx n n V' *m (invmx (mx n n (V t)) *m colv n (r t)).
  rewrite -cho_mx //; apply/matrixP => k j; rewrite !mxE LikelihoodProofs.el_vsub'; last by rewrite LikelihoodProofs.length_mv; have [-> _] := W'.
  rewrite (LikelihoodProofs.el_mv n n) // Rsum_big; congr (_ - _); apply: eq_bigr => l _; by rewrite !mxE.
by rewrite mulmxBr mulNmx addrC -!mulmxA.
Qed.
End Oracles.
