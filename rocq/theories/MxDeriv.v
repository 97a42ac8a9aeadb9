(** * Derivatives of determinants and inverses of matrices that move with a parameter *)
From Verif Require Import Np NpLemmas Sparse SparseSpec Deriv.
From mathcomp Require Import all_ssreflect all_algebra perm.
From Verif Require Import Rfield DetSpec MxBridge.
Set Implicit Arguments.
Unset Strict Implicit.
Import GRing.Theory.
Local Open Scope ring_scope.
#[local] Arguments dv f%function_scope t%ring_scope d%ring_scope.

Lemma rv_plus (f g : R -> R) (t a b : R) : dv f t a -> dv g t b -> dv (fun s => f s + g s) t (a + b).
Proof. exact: dv_plus. Qed.
Lemma rv_mult (f g : R -> R) (t a b : R) : dv f t a -> dv g t b -> dv (fun s => f s * g s) t (a * g t + f t * b).
Proof. exact: dv_mult. Qed.
Lemma rv_const (x t : R) : dv (fun _ => x) t 0.
Proof. exact: dv_const. Qed.
Lemma rv_scale (c : R) (f : R -> R) (t a : R) : dv f t a -> dv (fun s => c * f s) t (c * a).
Proof. by move=> H; have := rv_mult (rv_const c t) H; rewrite mul0r add0r. Qed.
Lemma dv_bigsum (I : Type) (r : seq I) (F : I -> R -> R) (t : R) (d : I -> R) :
  (forall i, dv (F i) t (d i)) -> dv (fun s => \sum_(i <- r) F i s) t (\sum_(i <- r) d i).
Proof.
move=> H; elim: r => [|i r IH].
  rewrite big_nil; apply: (@dv_ext (fun _ => 0)); [ by move=> s; rewrite big_nil | exact: rv_const ].
rewrite big_cons; apply: (@dv_ext (fun s => F i s + \sum_(j <- r) F j s)); [ by move=> s; rewrite big_cons | ].
exact: rv_plus.
Qed.
Lemma dv_bigprod (I : eqType) (r : seq I) (f : I -> R -> R) (t : R) (d : I -> R) : uniq r -> (forall i, dv (f i) t (d i)) ->
  dv (fun s => \prod_(i <- r) f i s) t (\sum_(i <- r) \prod_(j <- r) (if j == i then d j else f j t)).
Proof.
move=> U H; elim: r U => [|i r IH] /=.
  move=> _; rewrite big_nil; apply: (@dv_ext (fun _ => 1)); [ by move=> s; rewrite big_nil | exact: rv_const ].
case/andP=> Hi U; rewrite big_cons; apply: (@dv_ext (fun s => f i s * \prod_(j <- r) f j s)); [ by move=> s; rewrite big_cons | ].
apply: (dv_eq _ (rv_mult (H i) (IH U))).
rewrite big_cons eqxx; congr (_ * _ + _).
  by rewrite !big_seq; apply: eq_bigr => j Hj; case: eqP => // E; rewrite -E Hj in Hi.
transitivity (f i t * \sum_(k <- r) \prod_(j <- r) (if j == k then d j else f j t)); first by [].
rewrite mulr_sumr !big_seq; apply: eq_bigr => j Hj; rewrite big_cons; case: eqP => // E; by rewrite E Hj in Hi.
Qed.

Definition mdv n p (A : R -> 'M[R]_(n, p)) (t : R) (D : 'M[R]_(n, p)) : Prop := forall i j, dv (fun s => A s i j) t (D i j).

Lemma dv_det n (A : R -> 'M[R]_n) t D : mdv A t D -> dv (fun s => \det (A s)) t (\sum_i \sum_j D i j * cofactor (A t) i j).
Proof.
move=> H; rewrite /determinant.
have E : \sum_i \sum_j D i j * cofactor (A t) i j = \sum_(s : 'S_n) (-1) ^+ s * (\sum_i \prod_j (if j == i then D j (s j) else A t j (s j))).
  under [RHS]eq_bigr do rewrite big_distrr /=.
  rewrite [RHS]exchange_big /=; apply: eq_bigr => i _.
  pose B : 'M[R]_n := \matrix_(j, k) if j == i then D j k else A t j k.
  transitivity (\det B).
    rewrite (expand_det_row B i); apply: eq_bigr => j _; rewrite mxE eqxx /cofactor; congr (_ * (_ * \det _)).
    by apply/matrixP => k l; rewrite !mxE eq_sym (negbTE (neq_lift _ _)).
  by rewrite /determinant; apply: eq_bigr => s _; congr (_ * _); apply: eq_bigr => j _; rewrite mxE.
rewrite E; apply: dv_bigsum => s; apply: rv_scale; exact: (dv_bigprod (index_enum_uniq _) (fun i => H i (s i))).
Qed.
Lemma det_trace n (A D : 'M[R]_n) : A \in unitmx -> \sum_i \sum_j D i j * cofactor A i j = \det A * \tr (invmx A *m D).
Proof.
move=> U; have -> : \sum_i \sum_j D i j * cofactor A i j = \tr (\adj A *m D).
  rewrite mxtrace_mulC /mxtrace; apply: eq_bigr => i _; rewrite mxE; apply: eq_bigr => j _; by rewrite mxE.
by rewrite /invmx U -scalemxAl mxtraceZ mulrA divff ?mul1r // -unitfE -unitmxE.
Qed.
Lemma mdv_mul n p q (A : R -> 'M[R]_(n, p)) (B : R -> 'M[R]_(p, q)) t D E : mdv A t D -> mdv B t E ->
  mdv (fun s => A s *m B s) t (D *m B t + A t *m E).
Proof.
move=> HA HB i j; rewrite !mxE -big_split /=; apply: (@dv_ext (fun s => \sum_k A s i k * B s k j)); [ by move=> s; rewrite mxE | ].
apply: dv_bigsum => k; exact: (rv_mult (HA i k) (HB k j)).
Qed.
Lemma mdv_unit n (A : R -> 'M[R]_n) t D : mdv A t D -> A t \in unitmx -> near t (fun s => is_true (A s \in unitmx)).
Proof.
move=> H U; have dN : \det (A t) <> 0 by move: U; rewrite unitmxE unitfE => /eqP.
have N := dv_nonzero (dv_det H) dN.
apply: (@near_imp t (fun s => \det (A s) <> 0) (fun s => is_true (A s \in unitmx)) _ N) => s K.
by rewrite unitmxE unitfE; apply/eqP.
Qed.
Lemma mdv_inv n (A : R -> 'M[R]_n) t D : mdv A t D -> A t \in unitmx -> mdv (fun s => invmx (A s)) t (- (invmx (A t) *m D *m invmx (A t))).
Proof.
move=> H U.
have NU := mdv_unit H U.
have dN : \det (A t) <> 0 by move: U; rewrite unitmxE unitfE => /eqP.
have E i j : near t (fun s => (/ \det (A s))%Re * cofactor (A s) j i = invmx (A s) i j).
  apply: (near_imp _ _ NU) => s Us; rewrite /invmx Us !mxE; congr (_ * _).
  by move: Us; rewrite unitmxE unitfE /GRing.inv /= /invR => /negbTE ->.
have [Q HQ] : exists Q : 'M[R]_n, mdv (fun s => invmx (A s)) t Q.
  have HH i j : exists q, dv (fun s => invmx (A s) i j) t q.
    have Hr : mdv (fun s => row' j (col' i (A s))) t (row' j (col' i D)).
      move=> k l; rewrite !mxE; apply: (@dv_ext (fun s => A s (lift j k) (lift i l))); [ by move=> s; rewrite !mxE | exact: H ].
    have K := rv_mult (dv_inv (dv_det H) dN) (rv_scale ((-1) ^+ (j + i)) (dv_det Hr)).
    eexists; exact: (@dv_near (fun s => (/ \det (A s))%Re * cofactor (A s) j i) (fun s => invmx (A s) i j) _ _ (E i j) K).
  pose Q i j := proj1_sig (ClassicalEpsilon.constructive_indefinite_description _ (HH i j)).
  exists (\matrix_(i, j) Q i j) => i j; rewrite mxE; exact: (proj2_sig (ClassicalEpsilon.constructive_indefinite_description _ (HH i j))).
have Z : D *m invmx (A t) + A t *m Q = 0.
  apply/matrixP => i j; rewrite [in RHS]mxE.
  have M := mdv_mul H HQ i j; apply: (dv_unique M).
  apply: (@dv_near (fun _ => (1%:M : 'M[R]_n) i j)); last exact: rv_const.
  by apply: (near_imp _ _ NU) => s Us; rewrite mulmxV.
have {}Z : A t *m Q = - (D *m invmx (A t)) by apply/eqP; rewrite -addr_eq0 addrC Z.
have -> : - (invmx (A t) *m D *m invmx (A t)) = Q by rewrite -[RHS]mul1mx -(mulVmx U) -!mulmxA Z !mulmxN mulmxA.
exact: HQ.
Qed.
