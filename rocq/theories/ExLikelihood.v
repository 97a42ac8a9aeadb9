(** * Concrete cases for the likelihood theorems, existence of the library oracles, refutation of C14 *)
From Verif Require Import Np NpLemmas Sparse SparseSpec SparseProofs DetSpec MxBridge DetProofs2 DetPos ExSparse
  Likelihood LikelihoodSpec LikelihoodProofs.

(** an instance of all three oracles *)
Definition la_mx : linalg := {|
  la_inv := linv_mx;
  la_slogdet := fun n m => (Rsgn (det_of n m), ln (Rabs (det_of n m)));
  la_cho_solve := fun n m r => mv (linv_mx n m) r |}.

Lemma la_mx_ok : linalg_ok la_mx.
Proof.
  split; [apply linv_mx_ok|]. split.
  - intros n m W H. simpl. unfold Rsgn.
    destruct (Rlt_dec (det_of n m) 0) as [Hl|Hl].
    + split; [now right|]. rewrite exp_ln by (apply Rabs_pos_lt; exact H). rewrite Rabs_left by lra. ring.
    + destruct (Rlt_dec 0 (det_of n m)) as [Hr|Hr]; [|exfalso; apply H; lra].
      split; [now left|]. rewrite exp_ln by (apply Rabs_pos_lt; exact H). rewrite Rabs_right by lra. ring.
  - intros n m r W HS HP Hr. pose proof (pos_def_invertible HP) as HI.
    destruct (linv_mx_ok W HI) as [WP [HR HL]]. simpl.
    assert (Wy : wf1 n (mv (linv_mx n m) r)) by (unfold wf1; rewrite length_mv; apply WP).
    split; [|exact Wy]. split; [exact Hr|]. intros i Hi. symmetry.
    rewrite (Rsum_ext n _ (fun l => Rsum n (fun k => el2 m i l * el2 (linv_mx n m) l k * el r k))).
    2:{ intros l Hl. rewrite (el_mv n n) by auto. rewrite <- Rsum_scal. apply Rsum_ext. intros; ring. }
    rewrite Rsum_swap.
    rewrite (Rsum_ext n _ (fun k => if Nat.eqb k i then el r k else 0)).
    2:{ intros k Hk. rewrite Rsum_scal_r, HR by auto. rewrite Nat.eqb_sym. destruct (Nat.eqb k i); ring. }
    rewrite Rsum_delta; auto.
Qed.

Lemma pos_def_1 x : 0 < x -> pos_def 1 [[x]].
Proof.
  intros Hx y [i [Hi Hy]]. replace i with 0%nat in * by lia.
  cbv -[Rplus Rmult Rminus Ropp IZR Rlt]. assert (0 < y 0%nat * y 0%nat) by nra. nra.
Qed.
Lemma symmetric_1 x : symmetric 1 [[x]].
Proof. intros i j Hi Hj. replace i with 0%nat by lia. replace j with 0%nat by lia. reflexivity. Qed.
Lemma wf2_1 x : wf2 1 1 [[x]].
Proof. wf_. Qed.
Lemma is_inverse_1 x : x <> 0 -> is_inverse 1 [[x]] [[/ x]].
Proof.
  intros H. split; [apply wf2_1|]. split; intros i j Hi Hj; replace i with 0%nat by lia; replace j with 0%nat by lia;
  unfold el2; simpl; field; exact H.
Qed.

Section Props.
Variable la : linalg.
Hypothesis Hla : linalg_ok la.

(** C13 *)
Lemma no_logdet_value n C P data mu : wf2 n n C -> is_inverse n C P -> wf1 n data -> wf1 n mu ->
  gaussian_log_likelihood la data mu (A2 n n C) false "inverse" = Ok (- (1/2) * chi2 n P data mu).
Proof. intros. now rewrite (gll_dense_inverse la Hla n C P). Qed.

Lemma no_logdet_value_sparse a n s D P data mu method : wf3 a a n s -> (0 < a)%nat -> (0 < n)%nat ->
  denotes a a n s D -> trailing_invertible a n s -> is_inverse (a * n) D P -> wf1 (a * n) data -> wf1 (a * n) mu ->
  gaussian_log_likelihood la data mu (A3 a a n s) false method = Ok (- (1/2) * chi2 (a * n) P data mu).
Proof. intros. now rewrite (gll_sparse la Hla a n s D P). Qed.

Lemma no_logdet_swap n C data mu il : wf2 n n C -> invertible n C -> wf1 n data -> wf1 n mu ->
  gaussian_log_likelihood la data mu (A2 n n C) il "inverse" = gaussian_log_likelihood la mu data (A2 n n C) il "inverse".
Proof.
  intros W [P HI] Hd Hm. rewrite !(gll_dense_inverse la Hla n C P) by auto. now rewrite chi2_sym.
Qed.

Lemma no_logdet_max n C data mu : wf2 n n C -> pos_def n C -> wf1 n data -> wf1 n mu ->
  exists v, gaussian_log_likelihood la data mu (A2 n n C) false "inverse" = Ok v /\ v <= 0 /\ (v = 0 <-> data = mu).
Proof.
  intros W HC Hd Hm. destruct (pos_def_invertible HC) as [P HI].
  rewrite (gll_dense_inverse la Hla n C P) by auto.
  destruct (chi2_nonneg n C P data mu HC HI Hd Hm) as [H0 H1].
  eexists. split; [reflexivity|]. split; [lra|]. rewrite <- H1. split; intros; lra.
Qed.

(** C14 *)
Lemma logdet_value n C P data mu : wf2 n n C -> pos_def n C -> is_inverse n C P -> wf1 n data -> wf1 n mu ->
  0 < det_of n C /\
  gaussian_log_likelihood la data mu (A2 n n C) true "inverse" = Ok (- (1/2) * (chi2 n P data mu - ln (det_of n C))).
Proof.
  intros W HC HI Hd Hm. pose proof (pos_def_det HC) as Hdet. split; [exact Hdet|].
  rewrite (gll_dense_inverse la Hla n C P) by auto.
  rewrite (dense_logdet la Hla) by (auto; now exists P). rewrite Rabs_right by lra. reflexivity.
Qed.

Lemma logdet_error n C P data mu v : wf2 n n C -> pos_def n C -> is_inverse n C P -> wf1 n data -> wf1 n mu ->
  gaussian_log_likelihood la data mu (A2 n n C) true "inverse" = Ok v ->
  v - log_density n C P data mu = ln (det_of n C).
Proof.
  intros W HC HI Hd Hm. destruct (logdet_value n C P data mu) as [_ ->]; auto.
  intros E. injection E as <-. unfold log_density. field.
Qed.

Lemma logdet_refuted : exists n C P data mu v,
  wf2 n n C /\ symmetric n C /\ pos_def n C /\ is_inverse n C P /\ wf1 n data /\ wf1 n mu /\
  gaussian_log_likelihood la data mu (A2 n n C) true "inverse" = Ok v /\ v <> log_density n C P data mu.
Proof.
  assert (HI : is_inverse 1 [[2]] [[/ 2]]) by (apply is_inverse_1; lra).
  assert (HP : pos_def 1 [[2]]) by (apply pos_def_1; lra).
  destruct (logdet_value 1 [[2]] [[/2]] [0] [0] (wf2_1 2) HP HI eq_refl eq_refl) as [_ E].
  exists 1%nat, [[2]], [[/ 2]], [0], [0]. eexists. 
  split; [apply wf2_1|]. split; [apply symmetric_1|]. split; [exact HP|]. split; [exact HI|].
  split; [reflexivity|]. split; [reflexivity|]. split; [exact E|].
  intros H. pose proof (logdet_error 1 _ _ [0] [0] _ (wf2_1 2) HP HI eq_refl eq_refl E) as H'.
  rewrite H in H'. rewrite det_1 in H'.
  assert (0 < ln 2) by (rewrite <- ln_1; apply ln_increasing; lra). lra.
Qed.
End Props.

Lemma ex_C11 : (exists la, linalg_ok la) /\ wf3 2 2 1 [[[2]; [1]]; [[1]; [3]]] /\
  trailing_invertible 2 1 [[[2]; [1]]; [[1]; [3]]] /\
  denotes 2 2 1 [[[2]; [1]]; [[1]; [3]]] [[2; 1]; [1; 3]] /\ wf1 (2 * 1) [5; 7].
Proof.
  destruct ex_C09 as [H1 [H2 [H3 H4]]]. split; [exists la_mx; apply la_mx_ok|]. repeat (split; auto). 
Qed.

Lemma ex_C12 : (exists la, linalg_ok la) /\ wf2 2 2 [[2; 1]; [1; 3]] /\ symmetric 2 [[2; 1]; [1; 3]] /\
  pos_def 2 [[2; 1]; [1; 3]] /\ wf1 2 [5; 7] /\ "lu"%string <> "inverse"%string /\ "lu"%string <> "cholesky"%string.
Proof.
  destruct ex_C09 as [H1 [H2 [H3 H4]]]. split; [exists la_mx; apply la_mx_ok|]. split; [wf_|].
  split; [|split; [exact H3|split; [reflexivity|split; discriminate]]].
  intros i j Hi Hj. destruct i as [|[|i]]; [| |lia]; (destruct j as [|[|j]]; [| |lia]); reflexivity.
Qed.
