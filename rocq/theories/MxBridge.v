(** * Bridge between nested-list matrices and mathcomp matrices *)
From Verif Require Import Np NpLemmas Sparse SparseSpec.
From mathcomp Require Import all_ssreflect all_algebra.
From Verif Require Import Rfield DetSpec.
Set Implicit Arguments.
Unset Strict Implicit.
Delimit Scope R_scope with Re.
Delimit Scope ring_scope with Ri.
Import GRing.Theory.
Local Open Scope ring_scope.

Lemma Rsum_big n (f : nat -> R) : Rsum n f = \sum_(l < n) f l.
Proof. by elim: n => [|n IH]; rewrite ?big_ord0 //= big_ord_recr /= IH. Qed.

Lemma ltP' i n : (i < n)%N -> (i < n)%coq_nat. Proof. by move/ltP. Qed.
Lemma ord_lt n (i : 'I_n) : (i < n)%coq_nat. Proof. by apply/ltP. Qed.
#[export] Hint Resolve ord_lt : core.

Lemma mxE' r c m (i : 'I_r) (j : 'I_c) : mx r c m i j = el2 m i j.
Proof. by rewrite mxE. Qed.

Lemma mx_inj r c m1 m2 : wf2 r c m1 -> wf2 r c m2 -> mx r c m1 = mx r c m2 -> m1 = m2.
Proof.
move=> W1 W2 E; apply: (mat_ext _ _ _ _ W1 W2) => i j Hi Hj.
have [/ltP Hi' /ltP Hj'] := (Hi, Hj).
move: E => /matrixP /(_ (Ordinal Hi') (Ordinal Hj')); by rewrite !mxE.
Qed.

Definition mxget r c (M : 'M[R]_(r, c)) (i j : nat) : R :=
  match insub i, insub j with Some i', Some j' => M i' j' | _, _ => R0 end.
Definition of_mx r c (M : 'M[R]_(r, c)) : list (list R) := tab r (fun i => tab c (fun j => mxget M i j)).

Lemma wf2_of_mx r c (M : 'M[R]_(r, c)) : wf2 r c (of_mx M).
Proof. exact: wf2_tab2. Qed.

Lemma of_mxK r c (M : 'M[R]_(r, c)) : mx r c (of_mx M) = M.
Proof.
apply/matrixP => i j; rewrite mxE /of_mx el2_tab //.
by rewrite /mxget !valK.
Qed.

Lemma is_matmul_mx r k c A B P :
  is_matmul r k c A B P <-> wf2 r c P /\ mx r c P = mx r k A *m mx k c B.
Proof.
split=> [[W E]|[W /matrixP E]]; split=> //.
- apply/matrixP => i j; rewrite !mxE E // Rsum_big.
  by apply: eq_bigr => l _; rewrite !mxE.
- move=> i j Hi Hj; have [/ltP Hi' /ltP Hj'] := (Hi, Hj).
  move: (E (Ordinal Hi') (Ordinal Hj')); rewrite !mxE /= => ->.
  by rewrite Rsum_big; apply: eq_bigr => l _; rewrite !mxE.
Qed.

Lemma id_mx n (f : nat -> nat -> R) :
  (forall i j, (i < n)%coq_nat -> (j < n)%coq_nat -> f i j = if Nat.eqb i j then IZR 1 else IZR 0) <->
  (\matrix_(i < n, j < n) f i j = 1%:M).
Proof.
have eqb i j : Nat.eqb i j = (i == j) by apply/idP/idP => [/Nat.eqb_spec ->|/eqP ->]; rewrite ?eqxx ?Nat.eqb_refl.
split=> [E|/matrixP E].
- apply/matrixP => i j; rewrite !mxE E // eqb -val_eqE /=; by case: eqP.
- move=> i j Hi Hj; have [/ltP Hi' /ltP Hj'] := (Hi, Hj).
  move: (E (Ordinal Hi') (Ordinal Hj')); rewrite !mxE /= => ->; rewrite eqb -val_eqE /=; by case: eqP.
Qed.

Lemma is_inverse_mx n m mi : is_inverse n m mi <->
  wf2 n n mi /\ mx n n m *m mx n n mi = 1%:M /\ mx n n mi *m mx n n m = 1%:M.
Proof.
have E (A B : list (list R)) : mx n n A *m mx n n B = \matrix_(i, j) Rsum n (fun l => (el2 A i l * el2 B l j)%Re).
  by apply/matrixP => i j; rewrite !mxE Rsum_big; apply: eq_bigr => l _; rewrite !mxE.
rewrite !E; split=> [[W [H1 H2]]|[W [H1 H2]]]; split=> //; split.
- by apply/(id_mx n (fun i j => Rsum n (fun l => (el2 m i l * el2 mi l j)%Re))).
- by apply/(id_mx n (fun i j => Rsum n (fun l => (el2 mi i l * el2 m l j)%Re))).
- by apply/(id_mx n (fun i j => Rsum n (fun l => (el2 m i l * el2 mi l j)%Re))).
- by apply/(id_mx n (fun i j => Rsum n (fun l => (el2 mi i l * el2 m l j)%Re))).
Qed.

Lemma is_inverse_unit n m mi : is_inverse n m mi -> mx n n m \in unitmx.
Proof. by move/is_inverse_mx => [_ [/mulmx1_unit []]]. Qed.

Lemma is_inverse_inv n m mi : is_inverse n m mi -> mx n n mi = invmx (mx n n m).
Proof.
move=> H; have U := is_inverse_unit H; move/is_inverse_mx: H => [_ [H _]].
by rewrite -[LHS]mul1mx -(mulVmx U) -mulmxA H mulmx1.
Qed.

Lemma invertible_unit n m : invertible n m <-> mx n n m \in unitmx.
Proof.
split=> [[mi]|U]; first exact: is_inverse_unit.
exists (of_mx (invmx (mx n n m))); apply/is_inverse_mx; rewrite of_mxK mulmxV // mulVmx //.
by split=> //; exact: wf2_of_mx.
Qed.

Lemma invertible_det n m : invertible n m <-> det_of n m <> R0.
Proof. by rewrite invertible_unit unitmxE unitfE /det_of; split=> [/eqP|/eqP]. Qed.

(** an oracle meeting the specification of np.linalg.inv exists *)
Definition linv_mx : linv_t := fun n m => of_mx (invmx (mx n n m)).
Lemma linv_mx_ok : linv_ok linv_mx.
Proof.
move=> n m W /invertible_unit U; apply/is_inverse_mx; rewrite of_mxK mulmxV // mulVmx //.
by split=> //; exact: wf2_of_mx.
Qed.

(** Schur complement *)
Lemma det_schur p q (A : 'M[R]_p) (B : 'M[R]_(p, q)) (C : 'M[R]_(q, p)) (D : 'M[R]_q) :
  D \in unitmx -> \det (block_mx A B C D) = \det D * \det (A - B *m (invmx D *m C)).
Proof.
move=> U.
have -> : block_mx A B C D = block_mx 1%:M (B *m invmx D) 0 1%:M *m block_mx (A - B *m (invmx D *m C)) 0 C D.
  rewrite mulmx_block !mul1mx !mul0mx !add0r mulmxA subrK.
  by rewrite -mulmxA mulVmx // mulmx1.
by rewrite det_mulmx det_ublock det_lblock !det1 !mul1r mulrC.
Qed.
