(** * The determinant of a sparse matrix is the product of the determinants of its slices; congruences *)
From Verif Require Import Np NpLemmas Sparse SparseSpec SparseProofs.
From mathcomp Require Import all_ssreflect all_algebra all_fingroup.
From Verif Require Import Rfield DetSpec MxBridge DetProofs DetProofs2.
Set Implicit Arguments.
Unset Strict Implicit.
Delimit Scope R_scope with Re.
Import GRing.Theory.
Local Open Scope ring_scope.
Local Notation "a *c b" := (Nat.mul a b) (at level 40, left associativity).
Local Notation "a <c b" := (lt a b) (at level 70).

(** renumbering rows and columns by the same bijection *)
Lemma det_reindex m n (g : 'I_m -> 'I_n) (M : 'M[R]_n) : m = n -> injective g ->
  \det (\matrix_(i < m, j < m) M (g i) (g j)) = \det M.
Proof.
move=> E; move: g; rewrite E => g gi.
have -> : (\matrix_(i < n, j < n) M (g i) (g j)) = row_perm (perm gi) (col_perm (perm gi) M).
  by apply/matrixP => i j; rewrite !mxE !permE.
rewrite row_permE col_permE !det_mulmx !det_perm odd_permV mulrCA -signr_addb addbb.
by rewrite expr0 mulr1.
Qed.

(** block diagonal matrices with n blocks of size a *)
Definition bdiag (a n : nat) (S : nat -> 'M[R]_a) : 'M[R]_(n * a) :=
  \matrix_(i < n * a, j < n * a) (if (i %/ a == j %/ a)%N then mxget (S (i %/ a)%N) (i %% a)%N (j %% a)%N else 0).

Lemma mxgetE r c (M : 'M[R]_(r, c)) (i : 'I_r) (j : 'I_c) : mxget M i j = M i j.
Proof. by rewrite /mxget !valK. Qed.

Lemma det_bdiag a n (S : nat -> 'M[R]_a) : (0 < a)%N -> \det (bdiag n S) = \prod_(k < n) \det (S k).
Proof.
move=> Ha; elim: n S => [|n IH] S; first by rewrite big_ord0 -[bdiag _ _]/(_ : 'M_0) det_mx00.
rewrite big_ord_recl -(IH (fun k => S k.+1)) /= -(det_ublock (S 0%N) 0 (bdiag n (fun k => S k.+1))).
congr (\det _); apply/matrixP => i j; rewrite !mxE.
case: (splitP i) => i' Ei; rewrite mxE; case: (splitP j) => j' Ej; rewrite ?mxE /= Ei Ej.
- by rewrite !divn_small // eqxx !modn_small // mxgetE.
- by rewrite divn_small // divnDl // divnn Ha.
- by rewrite divnDl // divnn Ha (divn_small (ltn_ord j')).
- by rewrite !divnDl // divnn Ha eqn_add2l !modnDl.
Qed.

Lemma det_slices a n s D : wf3 a a n s -> 0 <c a -> denotes a a n s D ->
  det_of (a *c n) D = \prod_(k < n) det_of a (slice a a k s).
Proof.
move=> W Ha [WD ED]; have Ha' : (0 < a)%N by apply/ltP.
rewrite /det_of -(det_bdiag n (fun k => mx a a (slice a a k s)) Ha').
have En : (n * a)%N = (a *c n)%N by rewrite mulnC.
have gP (i : 'I_(n * a)) : (((i %% a) * n + i %/ a)%N < a *c n)%N.
  have Hi : (i %/ a < n)%N by rewrite ltn_divLR.
  have Hr : (i %% a < a)%N by rewrite ltn_mod.
  apply: (@leq_trans (((i %% a).+1 * n)%N)); first by rewrite mulSn addnC ltn_add2r.
  by rewrite -[Nat.mul a n]/(muln a n) leq_mul2r Hr orbT.
pose g (i : 'I_(n * a)) : 'I_(a *c n) := Ordinal (gP i).
have gdiv (i : 'I_(n * a)) : Nat.div (g i) n = (i %% a)%N /\ Nat.modulo (g i) n = (i %/ a)%N.
  have Hi : (i %/ a < n)%N by rewrite ltn_divLR.
  move/ltP: Hi; rewrite /g /=; move: (i %% a)%N (i %/ a)%N => u v Hv; rewrite -[(u * n + v)%N]/(Nat.add (Nat.mul u n) v); split.
    symmetry; apply: (Nat.div_unique _ _ _ v) => //; lia.
  symmetry; apply: (Nat.mod_unique _ _ u) => //; lia.
have gi : injective g.
  move=> i j E; apply: val_inj; rewrite /= (divn_eq i a) (divn_eq j a).
  have [<- <-] := gdiv i; have [<- <-] := gdiv j; by rewrite E.
rewrite -(det_reindex _ En gi); congr (\det _); apply/matrixP => i j; rewrite !mxE ED; try exact: ord_lt.
rewrite /dense_entry; have [-> ->] := gdiv i; have [-> ->] := gdiv j.
have -> : Nat.eqb (i %/ a) (j %/ a) = (i %/ a == j %/ a)%N.
  by apply/idP/idP => [/Nat.eqb_spec ->|/eqP ->]; rewrite ?eqxx ?Nat.eqb_refl.
case: eqP => // _; have Hr : (i %% a < a)%N by rewrite ltn_mod. have Hc : (j %% a < a)%N by rewrite ltn_mod.
rewrite -[(i %% a)%N]/(val (Ordinal Hr)) -[(j %% a)%N]/(val (Ordinal Hc)) mxgetE mxE /slice el2_tab //; exact/ltP.
Qed.

(** ** congruences *)
From Verif Require Import LawsSpec.

Lemma quad_row n m (x : nat -> R) :
  quad n m x = ((\row_(i < n) x i) *m mx n n m *m (\row_(i < n) x i)^T) 0 0.
Proof. by rewrite quad_mx [RHS]mxE; apply: eq_bigr => j _; rewrite !mxE. Qed.

Lemma congruence_mx n A C C' : is_congruence n A C C' -> mx n n C' = mx n n A *m mx n n C *m (mx n n A)^T.
Proof.
move=> [_ E]; apply/matrixP => i j; rewrite mxE E // Rsum_swap Rsum_big mxE; apply: eq_bigr => l _.
by rewrite !mxE (Rsum_scal_r n (el2 A j l) (fun k => el2 A i k * el2 C k l)%Re) Rsum_big; congr (_ * _); apply: eq_bigr => k _; rewrite !mxE.
Qed.

Lemma congruence_det n A C C' : is_congruence n A C C' -> det_of n C' = (det_of n A * det_of n A * det_of n C)%Re.
Proof. by move=> /congruence_mx E; rewrite /det_of E !det_mulmx det_tr mulrAC. Qed.

Lemma congruence_unit n A C C' : is_congruence n A C C' -> invertible n A -> invertible n C -> invertible n C'.
Proof. by move=> /congruence_mx E /invertible_unit UA /invertible_unit UC; apply/invertible_unit; rewrite E !unitmx_mul UA UC unitmx_tr UA. Qed.

Lemma congruence_quad n A C C' P P' (x x' : nat -> R) : is_congruence n A C C' -> invertible n A ->
  is_inverse n C P -> is_inverse n C' P' ->
  (forall i, i <c n -> x' i = Rsum n (fun l => el2 A i l * x l)%Re) -> quad n P' x' = quad n P x.
Proof.
move=> /congruence_mx E /invertible_unit UA HP HP' Hx.
have UC := is_inverse_unit HP; have EP := is_inverse_inv HP; have EP' := is_inverse_inv HP'.
rewrite !quad_row EP EP' E.
have -> : \row_(i < n) x' i = (\row_(i < n) x i) *m (mx n n A)^T.
  by apply/rowP => i; rewrite !mxE Hx // Rsum_big; apply: eq_bigr => l _; rewrite !mxE mulrC.
have UAt : (mx n n A)^T \in unitmx by rewrite unitmx_tr.
have UAC : mx n n A *m mx n n C \in unitmx by rewrite unitmx_mul UA UC.
rewrite -[mx n n A *m mx n n C *m _]/(mulmx _ _).
have -> : invmx (mx n n A *m mx n n C *m (mx n n A)^T) = invmx (mx n n A)^T *m invmx (mx n n C) *m invmx (mx n n A).
  have U : mx n n A *m mx n n C *m (mx n n A)^T \in unitmx by rewrite unitmx_mul UAC UAt.
  apply: (can_inj (mulmxK U)); rewrite mulVmx // !mulmxA -(mulmxA _ (invmx (mx n n A)) (mx n n A)) mulVmx // mulmx1.
  by rewrite -(mulmxA _ (invmx (mx n n C))) mulVmx // mulmx1 mulVmx.
congr (_ 0 0).
rewrite trmx_mul trmxK !mulmxA -(mulmxA _ (mx n n A)^T) mulmxV // mulmx1.
by rewrite -(mulmxA _ (invmx (mx n n A))) mulVmx // mulmx1.
Qed.

(** ** reorderings *)
Definition pmat (n : nat) (p : nat -> nat) : list (list R) := tab n (fun i => tab n (fun l => if Nat.eqb (p i) l then R1 else R0)).
Section Reorder.
Variables (n : nat) (p : nat -> nat).
Hypothesis Hp : permutes n p.
Lemma pltn (i : 'I_n) : (p i < n)%N.
Proof. by apply/ltP; apply: (proj1 Hp). Qed.
Definition pg (i : 'I_n) : 'I_n := Ordinal (pltn i).
Lemma pg_inj : injective pg.
Proof. move=> i j E; apply: val_inj; apply: (proj2 Hp _ _ (ord_lt i) (ord_lt j)); exact: (congr1 (@nat_of_ord n) E). Qed.
Lemma pmat_unit : invertible n (pmat n p).
Proof.
apply/invertible_unit; have -> : mx n n (pmat n p) = perm_mx (perm pg_inj); last exact: unitmx_perm.
apply/matrixP => i j; rewrite mxE /pmat el2_tab // !mxE permE -val_eqE /=.
by case: (Nat.eqb_spec (p i) j) => [->|/eqP/negPf E]; rewrite ?eqxx // E.
Qed.
Lemma pmat_sum i (f : nat -> R) : i <c n -> Rsum n (fun l => el2 (pmat n p) i l * f l)%Re = f (p i).
Proof.
move=> Hi; rewrite (Rsum_ext _ _ (fun l => if Nat.eqb (p i) l then f l else R0)).
  by rewrite Rsum_delta_r //; apply: (proj1 Hp).
by move=> l Hl; rewrite /pmat el2_tab //; case: (Nat.eqb _ _); ring.
Qed.
Lemma reordered_congruence C C' : reordered2 n p C C' -> is_congruence n (pmat n p) C C'.
Proof.
move=> [W E]; split=> // i j Hi Hj; rewrite E //.
rewrite (Rsum_ext _ _ (fun k => el2 (pmat n p) i k * Rsum n (fun l => el2 (pmat n p) j l * el2 C k l))%Re).
  by rewrite (pmat_sum (fun k => Rsum n (fun l => el2 (pmat n p) j l * el2 C k l)%Re)) // (pmat_sum (fun l => el2 C (p i) l)).
by move=> k Hk; rewrite -Rsum_scal; apply: Rsum_ext => l _; ring.
Qed.
Lemma reordered_det C C' : reordered2 n p C C' -> det_of n C' = det_of n C.
Proof.
move=> [_ E]; rewrite /det_of -(det_reindex (mx n n C) (erefl n) pg_inj); congr (\det _).
by apply/matrixP => i j; rewrite !mxE E.
Qed.
End Reorder.
Lemma big_vprod n (f : nat -> R) : \prod_(k < n) f k = vprod (tab n f).
Proof.
elim: n f => [|n IH] f; first by rewrite big_ord0.
by rewrite big_ord_recl (IH (fun k => f k.+1)) tab_S.
Qed.
Lemma det_slices_vprod a n s D : wf3 a a n s -> 0 <c a -> denotes a a n s D ->
  det_of (a *c n) D = vprod (tab n (fun k => det_of a (slice a a k s))).
Proof. by move=> W Ha HD; rewrite (det_slices W Ha HD) -(big_vprod n (fun k => det_of a (slice a a k s))). Qed.
Lemma inverse_det n C P : is_inverse n C P -> (det_of n C * det_of n P)%Re = R1.
Proof. by move=> /is_inverse_mx [_ [E _]]; rewrite /det_of -[Rmult _ _]/(\det (mx n n C) * \det (mx n n P)) -det_mulmx E det1. Qed.
