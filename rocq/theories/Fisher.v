(** * Score and Fisher information of the Gaussian likelihood *)
From Coquelicot Require Import Coquelicot.
From Verif Require Import Np NpLemmas Sparse SparseSpec SparseProofs DetSpec MxBridge DetProofs2 DetPos Likelihood LikelihoodSpec LikelihoodProofs SparseLaws LawsSpec DetBlocks
  LikelihoodLaws SparsePrec RombProofs ExSparse ExLikelihood FisherSpec.

Lemma given_value la n C P cov method data mu il : linalg_ok la -> wf2 n n C -> symmetric n C -> pos_def n C -> is_inverse n C P ->
  given_as cov method n C -> wf1 n data -> wf1 n mu ->
  gaussian_log_likelihood la data mu cov il method =
  Ok (if il then - (1/2) * (chi2 n P data mu - ln (Rabs (det_of n C))) else - (1/2) * chi2 n P data mu).
Proof.
  intros Hla W HS HP I HG Hd Hm. rewrite <- (gll_value la Hla n C P data mu il W I Hd Hm).
  destruct HG as [[-> [-> | ->]] | (a & m & s & -> & -> & W3 & Ha & Hm0 & HD)]; [ reflexivity | | ].
  - destruct (cholesky_eq_inverse la Hla n C data mu il W HS HP Hd Hm) as (v & -> & ->). reflexivity.
  - destruct (sparse_eq_dense la Hla a m s C data mu il method W3 Ha Hm0 HD) as (v & -> & ->); [ | assumption | assumption | reflexivity ].
    apply (pos_def_trailing W3 Hm0 HD HP).
Qed.

Lemma bilin_sym n P u v : symmetric n P -> bilin n P u v = bilin n P v u.
Proof.
  intros S. unfold bilin. rewrite Rsum_swap. apply Rsum_ext. intros i Hi. apply Rsum_ext. intros j Hj. rewrite (S j i) by assumption. ring.
Qed.
Lemma bilin_ext n P u v u' v' : (forall i, (i < n)%nat -> u i = u' i) -> (forall i, (i < n)%nat -> v i = v' i) -> bilin n P u v = bilin n P u' v'.
Proof. intros A B. unfold bilin. apply Rsum_ext. intros i Hi. apply Rsum_ext. intros j Hj. now rewrite A, B. Qed.
Lemma bilin_opp_r n P u v : bilin n P u (fun i => - v i) = - bilin n P u v.
Proof.
  unfold bilin. replace (- Rsum n (fun i => Rsum n (fun j => u i * el2 P i j * v j))) with (-1 * Rsum n (fun i => Rsum n (fun j => u i * el2 P i j * v j))) by ring.
  rewrite <- Rsum_scal. apply Rsum_ext. intros i Hi. rewrite <- Rsum_scal. apply Rsum_ext. intros; ring.
Qed.
Lemma is_derive_bilin n P (u v : R -> nat -> R) u' v' t :
  (forall i, (i < n)%nat -> is_derive (fun t => u t i) t (u' i)) -> (forall i, (i < n)%nat -> is_derive (fun t => v t i) t (v' i)) ->
  is_derive (fun t => bilin n P (u t) (v t)) t (bilin n P u' (v t) + bilin n P (u t) v').
Proof.
  intros A B. unfold bilin. rewrite <- Rsum_plus.
  apply (is_derive_Rsum n (fun i t => Rsum n (fun j => u t i * el2 P i j * v t j))). intros i Hi. rewrite <- Rsum_plus.
  apply (is_derive_Rsum n (fun j t => u t i * el2 P i j * v t j)). intros j Hj.
  pose proof (is_derive_mult (fun t => u t i * el2 P i j) (fun t => v t j) t (u' i * el2 P i j) (v' j)) as M.
  apply M; [ | now apply B | intros; apply Rmult_comm ].
  pose proof (is_derive_scal_l (fun t => u t i) t (u' i) (el2 P i j) (A i Hi)) as S. exact S.
Qed.

Lemma loglik_derive n (P : list (list R)) (D : bool -> R) data (mu : R -> list R) dmu t il : symmetric n P ->
  (forall i, (i < n)%nat -> is_derive (fun t => el (mu t) i) t (dmu i)) ->
  is_derive (fun t => if il : bool then - (1/2) * (chi2 n P data (mu t) - D il) else - (1/2) * chi2 n P data (mu t)) t
    (bilin n P dmu (fun i => el data i - el (mu t) i)).
Proof.
  intros S H. set (r := fun t i => el (mu t) i - el data i).
  assert (Hr : forall i, (i < n)%nat -> is_derive (fun t => r t i) t (dmu i)).
  { intros i Hi. unfold r. replace (dmu i) with (minus (dmu i) (zero : R)) by (unfold minus, plus, opp, zero; simpl; ring).
    apply (is_derive_minus (V := R_NormedModule) (fun t => el (mu t) i) (fun _ => el data i)); [ now apply H | apply (is_derive_const (V := R_NormedModule)) ]. }
  pose proof (is_derive_bilin n P r r dmu dmu t Hr Hr) as HD.
  assert (E : bilin n P dmu (fun i => el data i - el (mu t) i) = - (1 / 2) * (bilin n P dmu (r t) + bilin n P (r t) dmu)).
  { rewrite (bilin_sym n P (r t) dmu S). rewrite (bilin_ext n P dmu (fun i => el data i - el (mu t) i) dmu (fun i => - r t i)); [ | reflexivity | intros; unfold r; ring ].
    rewrite bilin_opp_r. field. }
  rewrite E.
  assert (HS : is_derive (fun t => - (1 / 2) * bilin n P (r t) (r t)) t (- (1 / 2) * (bilin n P dmu (r t) + bilin n P (r t) dmu))).
  { apply (is_derive_scal (fun t => bilin n P (r t) (r t))). exact HD. }
  destruct il; [ | exact HS ].
  apply (is_derive_ext (fun t => - (1 / 2) * bilin n P (r t) (r t) + (1 / 2) * D true)).
  - intros u. change (chi2 n P data (mu u)) with (bilin n P (r u) (r u)). match goal with |- ?a = ?b => change (@eq R a b) end. ring.
  - set (d := - (1 / 2) * (bilin n P dmu (r t) + bilin n P (r t) dmu)) in *.
    replace d with (plus d (zero : R)) by (unfold plus, zero; simpl; ring).
    apply (is_derive_plus (V := R_NormedModule) (fun t => - (1 / 2) * bilin n P (r t) (r t)) (fun _ => 1 / 2 * D true)); [ exact HS | apply (is_derive_const (V := R_NormedModule)) ].
Qed.

Lemma score : forall la, linalg_ok la -> forall n C P cov method data (mu : R -> list R) dmu t il,
  wf2 n n C -> symmetric n C -> pos_def n C -> is_inverse n C P -> given_as cov method n C ->
  wf1 n data -> (forall t, wf1 n (mu t)) -> (forall i, (i < n)%nat -> is_derive (fun t => el (mu t) i) t (dmu i)) ->
  exists L, (forall t, gaussian_log_likelihood la data (mu t) cov il method = Ok (L t)) /\
    is_derive L t (bilin n P dmu (fun i => el data i - el (mu t) i)).
Proof.
  intros la Hla n C P cov method data mu dmu t il W HS HP I HG Hd Hm H.
  eexists. split; [ intros u; now apply (given_value la n C P) | ].
  apply (loglik_derive n P (fun _ => ln (Rabs (det_of n C)))); [ now apply (inverse_symmetric n C) | exact H ].
Qed.

Lemma fisher : forall la, linalg_ok la -> forall n C P cov method data (mu : R -> R -> list R) ms mt mst s0 t0 il,
  wf2 n n C -> symmetric n C -> pos_def n C -> is_inverse n C P -> given_as cov method n C ->
  wf1 n data -> (forall s t, wf1 n (mu s t)) ->
  locally t0 (fun t => forall i, (i < n)%nat -> is_derive (fun s => el (mu s t) i) s0 (ms t i)) ->
  (forall i, (i < n)%nat -> is_derive (fun t => ms t i) t0 (mst i)) ->
  (forall i, (i < n)%nat -> is_derive (fun t => el (mu s0 t) i) t0 (mt i)) ->
  exists L S, (forall s t, gaussian_log_likelihood la data (mu s t) cov il method = Ok (L s t)) /\
    locally t0 (fun t => is_derive (fun s => L s t) s0 (S t)) /\
    is_derive S t0 (bilin n P mst (fun i => el data i - el (mu s0 t0) i) - bilin n P (ms t0) mt) /\
    (data = mu s0 t0 -> S t0 = 0 /\ is_derive S t0 (- bilin n P (ms t0) mt)).
Proof.
  intros la Hla n C P cov method data mu ms mt mst s0 t0 il W HS HP I HG Hd Hm H1 H2 H3.
  pose proof (inverse_symmetric n C P HS I) as SP.
  set (S := fun t => bilin n P (ms t) (fun i => el data i - el (mu s0 t) i)).
  assert (HD : is_derive S t0 (bilin n P mst (fun i => el data i - el (mu s0 t0) i) - bilin n P (ms t0) mt)).
  { unfold S. replace (bilin n P mst (fun i => el data i - el (mu s0 t0) i) - bilin n P (ms t0) mt)
      with (bilin n P mst (fun i => el data i - el (mu s0 t0) i) + bilin n P (ms t0) (fun i => - mt i)) by (rewrite bilin_opp_r; ring).
    apply (is_derive_bilin n P ms (fun t i => el data i - el (mu s0 t) i) mst (fun i => - mt i) t0 H2).
    intros i Hi. replace (- mt i) with (minus (zero : R) (mt i)) by (unfold minus, plus, opp, zero; simpl; ring).
    apply (is_derive_minus (V := R_NormedModule) (fun _ => el data i) (fun t => el (mu s0 t) i)); [ apply (is_derive_const (V := R_NormedModule)) | now apply H3 ]. }
  eexists. exists S. split; [ intros s t; now apply (given_value la n C P) | ]. split; [ | split; [ exact HD | ]].
  - revert H1. apply filter_imp. intros t Ht. apply (loglik_derive n P (fun _ => ln (Rabs (det_of n C))) data (fun s => mu s t)); assumption.
  - intros E. assert (Z : forall u, bilin n P u (fun i => el data i - el (mu s0 t0) i) = 0).
    { intros u. unfold bilin. rewrite E. apply Rsum_0_ext. intros i Hi. apply Rsum_0_ext. intros j Hj. ring. }
    split; [ apply Z | ]. rewrite (Z mst) in HD. now rewrite Rminus_0_l in HD.
Qed.

(** the information along a direction: non-negative, zero only if the model does not change *)
Lemma information_definite : forall n C P u, pos_def n C -> is_inverse n C P ->
  0 <= bilin n P u u /\ (bilin n P u u = 0 <-> forall i, (i < n)%nat -> u i = 0).
Proof.
  intros n C P u HC HI. pose proof (pos_def_inverse n C P HC HI) as HP.
  assert (Z : (forall i, (i < n)%nat -> u i = 0) -> bilin n P u u = 0).
  { intros H. unfold bilin. apply Rsum_0_ext. intros i Hi. apply Rsum_0_ext. intros j Hj. rewrite H by exact Hi. ring. }
  assert (D : (forall i, (i < n)%nat -> u i = 0) \/ exists i, (i < n)%nat /\ u i <> 0).
  { clear. induction n as [ | n IH]; [ left; intros; lia | ]. destruct IH as [A | (i & Hi & B)]; [ | right; exists i; split; [ lia | exact B ]].
    destruct (Req_dec (u n) 0) as [E | E]; [ left; intros i Hi; destruct (Nat.eq_dec i n); [ now subst | apply A; lia ] | right; exists n; split; [ lia | exact E ]]. }
  destruct D as [D | D].
  - rewrite (Z D). split; [ lra | tauto ].
  - pose proof (HP u D) as Q. change (quad n P u) with (bilin n P u u) in Q. split; [ lra | ]. split; [ lra | ].
    intros A. destruct D as (i & Hi & B). now specialize (A i Hi).
Qed.

(** a concrete case: two data, the mean (s + t^2, exp s * t) at (1, 2) *)
Definition ex_mean (s t : R) : list R := [s + t ^ 2; exp s * t].
Definition ex_ms (t : R) (i : nat) : R := match i with 0%nat => 1 | _ => exp 1 * t end.
Definition ex_mt (i : nat) : R := match i with 0%nat => 4 | _ => exp 1 end.
Definition ex_mst (i : nat) : R := match i with 0%nat => 0 | _ => exp 1 end.
Lemma ex_mean_derives : (forall s t, wf1 2 (ex_mean s t)) /\
  (forall t i, (i < 2)%nat -> is_derive (fun s => el (ex_mean s t) i) 1 (ex_ms t i)) /\
  (forall i, (i < 2)%nat -> is_derive (fun t => ex_ms t i) 2 (ex_mst i)) /\
  (forall i, (i < 2)%nat -> is_derive (fun t => el (ex_mean 1 t) i) 2 (ex_mt i)).
Proof.
  split; [ reflexivity | ]. split; [ | split ]; [ intros t | | ]; intros i Hi; destruct i as [ | [ | i]]; try lia; unfold el, ex_mean, ex_ms, ex_mt, ex_mst; simpl;
    auto_derive; auto; ring.
Qed.
Lemma ex_fisher : (exists la, linalg_ok la) /\ wf2 2 2 [[2; 1]; [1; 3]] /\ symmetric 2 [[2; 1]; [1; 3]] /\ pos_def 2 [[2; 1]; [1; 3]] /\
  is_inverse 2 [[2; 1]; [1; 3]] [[3 / 5; -1 / 5]; [-1 / 5; 2 / 5]] /\
  given_as (A2 2 2 [[2; 1]; [1; 3]]) "cholesky" 2 [[2; 1]; [1; 3]] /\
  given_as (A3 2 2 1 [[[2]; [1]]; [[1]; [3]]]) "inverse" 2 [[2; 1]; [1; 3]] /\
  (forall s t, wf1 2 (ex_mean s t)) /\
  locally 2 (fun t => forall i, (i < 2)%nat -> is_derive (fun s => el (ex_mean s t) i) 1 (ex_ms t i)) /\
  (forall i, (i < 2)%nat -> is_derive (fun t => ex_ms t i) 2 (ex_mst i)) /\
  (forall i, (i < 2)%nat -> is_derive (fun t => el (ex_mean 1 t) i) 2 (ex_mt i)).
Proof.
  destruct ex_C12 as (A & B & C & D & _). destruct ex_C11 as (_ & E & _ & F & _). destruct ex_mean_derives as (G & H & I & J).
  split; [ exact A | split; [ exact B | split; [ exact C | split; [ exact D | ]]]]. split.
  { assert (W : wf2 2 2 [[3 / 5; -1 / 5]; [-1 / 5; 2 / 5]]) by wf_.
    split; [ exact W | ]. split; intros i j Hi Hj; destruct i as [ | [ | i]]; try lia; destruct j as [ | [ | j]]; try lia; unfold el2, el, Rsum; simpl; lra. }
  split; [ left; split; [ reflexivity | now right ] | ]. split; [ right; exists 2%nat, 1%nat, [[[2]; [1]]; [[1]; [3]]]; split; [ reflexivity | split; [ reflexivity | split; [ exact E | split; [ lia | split; [ lia | exact F ]]]]] | ].
  split; [ exact G | split; [ | split; [ exact I | exact J ]]]. exists (mkposreal 1 Rlt_0_1). intros t _. apply H.
Qed.
