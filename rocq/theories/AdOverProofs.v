(** * Second derivatives: relations between the modes *)
From Verif Require Import Np NpLemmas Core Likelihood SparseSpec GradSpec Ad AdLike AdParam AdParamCl AdJacSpec AdJac AdBack AdBackProofs AdOver.
Local Open Scope R_scope.

Local Notation hyper := (dual * dual)%type.
Local Notation NO := (num_over num_dual).
Local Notation NB := (num_back_over num_dual).
Ltac dual_eq := repeat match goal with H : dual |- _ => destruct H | H : (R * R)%type |- _ => destruct H end; unfold num_dual, num_over, num_back_over, ncosh, nsel; cbn [cst val nadd nsub nmul ndiv nneg nexp nln nsqrt nsin ncos nsinh nabs nipow npow nmax nmin fst snd]; f_equal; unfold Rdiv; try ring.

(** the outer tangent *)
Definition ro_out (z : hyper) (y : dual) : Prop := fst z = y.
Lemma ro_out_num : num_rel ro_out NO num_dual.
Proof. unfold ro_out. constructor; cbn [cst val nadd nsub nmul ndiv nneg nexp nln nsqrt nsin ncos nsinh nabs nipow npow nmax nmin num_over fst snd]; intros; subst; reflexivity. Qed.
(** the inner tangent *)
Definition ro_in (z : hyper) (y : dual) : Prop := (fst (fst z), fst (snd z)) = y.
Lemma ro_in_num : num_rel ro_in NO num_dual.
Proof.
  unfold ro_in. constructor; cbn [cst val nadd nsub nmul ndiv nneg nexp nln nsqrt nsin ncos nsinh nabs nipow npow nmax nmin num_over fst snd]; intros; subst; try reflexivity.
  all: try (dual_eq; fail).
  - destruct x as [[? ?] [? ?]], x' as [[? ?] [? ?]]. unfold num_dual. cbn [ndiv nsub nmul nipow fst snd]. f_equal. change (ipow r3 2) with (r3 ^ 2). unfold Rdiv. ring.
  - unfold nsel, num_dual, sel3. cbn [fst snd val nmax nadd ndiv cst]. f_equal. destruct (Rlt_dec _ _); [ reflexivity | ]. destruct (Rlt_dec _ _); reflexivity.
  - unfold nsel, num_dual, sel3. cbn [fst snd val nmin nadd ndiv cst]. f_equal. destruct (Rlt_dec _ _); [ reflexivity | ]. destruct (Rlt_dec _ _); reflexivity.
Qed.
(** reverse mode on dual numbers: the pairing with the input tangents w, itself a dual number *)
Section Pairing.
Variables (k : nat) (w : nat -> R).
Definition pd (f : nat -> dual) : dual := (pair_ k w (fun q => fst (f q)), pair_ k w (fun q => snd (f q))).
Definition rbo (x : back_over dual) (z : hyper) : Prop := fst x = fst z /\ forall u, pd (snd x u) = nmul num_dual u (snd z).
Lemma pd_plus f g : pd (fun q => nadd num_dual (f q) (g q)) = nadd num_dual (pd f) (pd g).
Proof. unfold pd. cbn [nadd num_dual fst snd]. now rewrite !pair_plus. Qed.
Lemma pd_0 : pd (fun _ => cst num_dual 0) = cst num_dual 0.
Proof. unfold pd. cbn [cst num_dual fst snd]. now rewrite !pair_0. Qed.
Lemma rbo_num : num_rel rbo NB NO.
Proof.
  unfold rbo. constructor; cbn [cst val nadd nsub nmul ndiv nneg nexp nln nsqrt nsin ncos nsinh nabs nipow npow nmax nmin num_over num_back_over fst snd].
  - intros x. split; [ reflexivity | ]. intros u. rewrite pd_0. dual_eq.
  - intros x y [-> _]. reflexivity.
  - intros x y x' y' [-> E] [-> E']. split; [ reflexivity | ]. intros u. rewrite pd_plus, E, E'. dual_eq.
  - intros x y x' y' [-> E] [-> E']. split; [ reflexivity | ]. intros u. rewrite pd_plus, E, E'. dual_eq.
  - intros x y x' y' [-> E] [-> E']. split; [ reflexivity | ]. intros u. rewrite pd_plus, E, E'. dual_eq.
  - intros x y x' y' [-> E] [-> E']. split; [ reflexivity | ]. intros u. rewrite pd_plus, E, E'. dual_eq.
  - intros x y [-> E]. split; [ reflexivity | ]. intros u. rewrite E. dual_eq.
  - intros x y [-> E]. split; [ reflexivity | ]. intros u. rewrite E. dual_eq.
  - intros x y [-> E]. split; [ reflexivity | ]. intros u. rewrite E. dual_eq.
  - intros x y [-> E]. split; [ reflexivity | ]. intros u. rewrite E. dual_eq.
  - intros x y [-> E]. split; [ reflexivity | ]. intros u. rewrite E. dual_eq.
  - intros x y [-> E]. split; [ reflexivity | ]. intros u. rewrite E. dual_eq.
  - intros x y [-> E]. split; [ reflexivity | ]. intros u. rewrite E. dual_eq.
  - intros x y [-> E]. split; [ reflexivity | ]. intros u. rewrite E. dual_eq.
  - intros z x y [-> E]. split; [ reflexivity | ]. intros u. rewrite E. dual_eq.
  - intros x y x' y' [-> E] [-> E']. split; [ reflexivity | ]. intros u. rewrite pd_plus, E, E'. dual_eq.
  - intros x y x' y' [-> E] [-> E']. split; [ reflexivity | ]. intros u. rewrite pd_plus, E, E'. unfold nsel. destruct (Rlt_dec _ _); [ dual_eq | ]. destruct (Rlt_dec _ _); dual_eq.
  - intros x y x' y' [-> E] [-> E']. split; [ reflexivity | ]. intros u. rewrite pd_plus, E, E'. unfold nsel. destruct (Rlt_dec _ _); [ dual_eq | ]. destruct (Rlt_dec _ _); dual_eq.
Qed.
End Pairing.
