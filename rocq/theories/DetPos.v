(** * The determinant of a positive definite matrix is positive *)
From Verif Require Import Np NpLemmas Sparse SparseSpec.
From mathcomp Require Import all_ssreflect all_algebra.
From Verif Require Import Rfield DetSpec MxBridge DetProofs2.
Set Implicit Arguments.
Unset Strict Implicit.
Delimit Scope R_scope with Re.
Delimit Scope ring_scope with Ri.
Import GRing.Theory.
Local Open Scope ring_scope.

Definition mposdef n (A : 'M[R]_n) : Prop :=
  forall v : 'rV[R]_n, v != 0 -> Rlt R0 ((v *m A *m v^T) 0 0)%Ri.

Lemma mposdef_unit n (A : 'M[R]_n) : mposdef A -> A \in unitmx.
Proof.
move=> H; rewrite unitmxE unitfE; apply/negP => /det0P [v nz E].
by have := H v nz; rewrite E mul0mx mxE => H0; have : (0 < 0)%Re by []; lra.
Qed.

Lemma mposdef_det n (A : 'M[R]_n) : mposdef A -> Rlt R0 (\det A).
Proof.
elim: n A => [|n IH] A H; first by rewrite det_mx00; exact: Rlt_0_1.
suff step : forall B : 'M[R]_(1 + n), mposdef B -> Rlt R0 (\det B) by exact: (step A).
move=> {A H} B HB0; rewrite -[B]submxK.
set a := ulsubmx B; set b := ursubmx B; set c := dlsubmx B; set D := drsubmx B.
have HB (v1 : 'rV_1) (v2 : 'rV_n) : row_mx v1 v2 != 0 ->
   Rlt R0 (((v1 *m a + v2 *m c) *m v1^T + (v1 *m b + v2 *m D) *m v2^T) 0 0)%Ri.
  move=> nz; have := HB0 _ nz; rewrite -{1}[B]submxK -/a -/b -/c -/D.
  by rewrite mul_row_block tr_row_mx mul_row_col.
have HD : mposdef D.
  move=> w nz; have := HB 0 w; rewrite !mul0mx !add0r trmx0 mulmx0 add0r; apply.
  by apply: contra nz; rewrite -row_mx0 => /eqP /eq_row_mx [_ ->].
have UD := mposdef_unit HD.
rewrite det_schur //; apply: Rmult_lt_0_compat; first exact: IH.
have := HB 1%:M (- (b *m invmx D)).
rewrite mul1mx trmx1 mulmx1 mul1mx mulNmx -mulmxA mulNmx -mulmxA mulVmx // mulmx1 subrr mul0mx addr0.
rewrite det_mx11; apply.
apply/eqP => /rowP /(_ (lshift n 0)); rewrite row_mxEl !mxE eqxx => E.
by have : (1 = 0)%Re by []; lra.
Qed.

Lemma pos_def_det n m : pos_def n m -> Rlt 0%Re (det_of n m).
Proof.
move=> H; apply: mposdef_det => v nz.
have [i Hi] : exists i, v 0 i != 0.
  apply/existsP; apply: contraNT nz => /existsPn Hv; apply/eqP/rowP => i.
  by move: (Hv i); rewrite negbK mxE => /eqP.
pose x (k : nat) : R := mxget v 0 k.
have xE (k : 'I_n) : x k = v 0 k.
  by rewrite /x /mxget -[0%N]/(val (0 : 'I_1)) !valK.
have := H x; rewrite quad_mx.
have -> : \row_i0 x i0 = v by apply/rowP => k; rewrite mxE xE.
have -> : \sum_(j < n) (v *m mx n n m) 0 j * x j = (v *m mx n n m *m v^T) 0 0.
  by rewrite [RHS]mxE; apply: eq_bigr => j _; rewrite xE [in RHS](_ : v^T j 0 = v 0 j) ?mxE.
by apply; exists i; split=> //; rewrite xE; apply/eqP.
Qed.

Lemma det_1 x : det_of 1 [[x]] = x.
Proof. by rewrite /det_of det_mx11 mxE. Qed.
