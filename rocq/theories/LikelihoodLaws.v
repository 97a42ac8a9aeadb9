(** * Laws of the Gaussian likelihood: linear changes of the data vector, reorderings, independent multipoles *)
From Verif Require Import Np NpLemmas Sparse SparseSpec SparseProofs DetSpec MxBridge DetProofs2 Likelihood LikelihoodSpec LikelihoodProofs SparseLaws LawsSpec DetBlocks.

Section Laws.
Variable la : linalg.
Hypothesis Hla : linalg_ok la.

Lemma gll_value n C P data mu il : wf2 n n C -> is_inverse n C P -> wf1 n data -> wf1 n mu ->
  gaussian_log_likelihood la data mu (A2 n n C) il "inverse" =
  Ok (if il then - (1/2) * (chi2 n P data mu - ln (Rabs (det_of n C))) else - (1/2) * chi2 n P data mu).
Proof.
  intros W I Hd Hm. rewrite (gll_dense_inverse la Hla n C P) by assumption. destruct il; [ | reflexivity ].
  rewrite (dense_logdet la Hla) by (auto; now exists P). reflexivity.
Qed.

Lemma matvec_diff n A d d' m m' i : is_matvec n n A d d' -> is_matvec n n A m m' -> (i < n)%nat ->
  el m' i - el d' i = Rsum n (fun l => el2 A i l * (el m l - el d l)).
Proof. intros [_ Ed] [_ Em] Hi. rewrite Ed, Em by exact Hi. rewrite <- Rsum_minus. apply Rsum_ext; intros; ring. Qed.

Lemma linear_change n A C C' data data' mu mu' il : wf2 n n C -> invertible n C -> invertible n A -> is_congruence n A C C' ->
  wf1 n data -> wf1 n mu -> is_matvec n n A data data' -> is_matvec n n A mu mu' ->
  exists v, gaussian_log_likelihood la data mu (A2 n n C) il "inverse" = Ok v /\
    gaussian_log_likelihood la data' mu' (A2 n n C') il "inverse" = Ok (if il then v + ln (Rabs (det_of n A)) else v).
Proof.
  intros W [P IC] IA HC Hd Hm Ed Em. destruct (congruence_unit HC IA (ex_intro _ P IC)) as [P' IC'].
  eexists. split; [ now apply (gll_value n C P) | ]. rewrite (gll_value n C' P'); [ | apply HC | exact IC' | apply Ed | apply Em ]. f_equal.
  assert (Q : chi2 n P' data' mu' = chi2 n P data mu).
  { unfold chi2. apply (congruence_quad HC IA IC IC'). intros i Hi. exact (matvec_diff n A data data' mu mu' i Ed Em Hi). }
  rewrite Q. destruct il; [ | reflexivity ]. rewrite (congruence_det HC).
  assert (NA : det_of n A <> 0) by (apply invertible_det; exact IA). assert (NC : det_of n C <> 0) by (apply invertible_det; now exists P).
  rewrite !Rabs_mult. rewrite !ln_mult; try (apply Rabs_pos_lt; assumption); [ lra | ]. apply Rmult_lt_0_compat; apply Rabs_pos_lt; assumption.
Qed.

Lemma reorder n p C C' data data' mu mu' il : permutes n p -> wf2 n n C -> invertible n C -> reordered2 n p C C' ->
  wf1 n data -> wf1 n mu -> reordered1 n p data data' -> reordered1 n p mu mu' ->
  exists v, gaussian_log_likelihood la data mu (A2 n n C) il "inverse" = Ok v /\ gaussian_log_likelihood la data' mu' (A2 n n C') il "inverse" = Ok v.
Proof.
  intros Hp W [P IC] HR Hd Hm [Wd Ed] [Wm Em]. pose proof (reordered_congruence Hp HR) as HC. pose proof (pmat_unit Hp) as IA.
  destruct (congruence_unit HC IA (ex_intro _ P IC)) as [P' IC'].
  eexists. split; [ now apply (gll_value n C P) | ]. rewrite (gll_value n C' P'); [ | apply HC | exact IC' | assumption | assumption ].
  rewrite (reordered_det Hp HR).
  assert (Q : chi2 n P' data' mu' = chi2 n P data mu).
  { unfold chi2. apply (congruence_quad HC IA IC IC'). intros i Hi. rewrite (pmat_sum Hp (fun l => el mu l - el data l) Hi). now rewrite Ed, Em. }
  now rewrite Q.
Qed.

Lemma trailing_slices a n s : (0 < a)%nat -> trailing_invertible a n s -> slices_invertible a n s.
Proof.
  intros Ha HT k Hk. destruct (HT 0%nat k Ha Hk) as [m [[Wm Em] Hm]]. rewrite Nat.sub_0_r in *. exists m. split; [ | exact Hm ].
  split; [ exact Wm | ]. intros i j Hi Hj. now apply Em.
Qed.

Lemma ln_prod n (f : nat -> R) : (forall k, (k < n)%nat -> f k <> 0) ->
  ln (Rabs (vprod (tab n f))) = Rsum n (fun k => ln (Rabs (f k))) /\ vprod (tab n f) <> 0.
Proof.
  revert f. induction n as [ | n IH ]; intros f Hf.
  - split; [ | cbn; lra ]. cbn. rewrite Rabs_R1. apply ln_1.
  - rewrite tab_S, Rsum_S_l. destruct (IH (fun i => f (S i))) as [E N]; [ intros; apply Hf; lia | ].
    change (vprod (f 0%nat :: tab n (fun i => f (S i)))) with (f 0%nat * vprod (tab n (fun i => f (S i)))).
    assert (N0 : f 0%nat <> 0) by (apply Hf; lia). split; [ | now apply Rmult_integral_contrapositive ].
    rewrite Rabs_mult, ln_mult by (apply Rabs_pos_lt; assumption). now rewrite E.
Qed.

Lemma quad_dense a n t x : wf3 a a n t -> (0 < n)%nat ->
  quad (a * n) (dense_of n t) x = Rsum n (fun k => quad a (slice a a k t) (fun i => x (i * n + k)%nat)).
Proof.
  intros W Hn. unfold quad. destruct (dense_of_denotes a a n t W) as [_ E].
  rewrite (Rsum_ext (a * n) _ (fun i => x i * Rsum a (fun j => el3 t (i / n) j (i mod n) * x (j * n + i mod n)%nat))).
  2:{ intros i Hi. rewrite <- dense_row_sum by exact Hn. rewrite <- Rsum_scal. apply Rsum_ext. intros j Hj. rewrite E by assumption. ring. }
  rewrite Rsum_mul, Rsum_swap. apply Rsum_ext. intros k Hk. apply Rsum_ext. intros i Hi. rewrite <- Rsum_scal. apply Rsum_ext. intros j Hj.
  rewrite (Nat.add_comm (i * n) k), Nat.mod_add, Nat.div_add by lia. rewrite (Nat.div_small k n), (Nat.mod_small k n) by lia.
  rewrite (Nat.add_comm k (i * n)), Nat.add_0_l. unfold slice. rewrite el2_tab by assumption. ring.
Qed.

Lemma multipoles_add a n s data mu il method : wf3 a a n s -> (0 < a)%nat -> (0 < n)%nat -> trailing_invertible a n s ->
  wf1 (a * n) data -> wf1 (a * n) mu ->
  exists v, gaussian_log_likelihood la data mu (A3 a a n s) il method = Ok (Rsum n v) /\
    forall k m dk mk, (k < n)%nat -> is_slice a a k s m -> at_multipole a n k data dk -> at_multipole a n k mu mk ->
      gaussian_log_likelihood la dk mk (A2 a a m) il "inverse" = Ok (v k).
Proof.
  intros W Ha Hn HT Hd Hm. pose proof (proj1 Hla) as HL. pose proof (trailing_slices a n s Ha HT) as HI.
  set (t := inv_data (la_inv la) a n s). pose proof (wf3_inv_data (la_inv la) a n s) as Wt. fold t in Wt.
  pose proof (dense_of_denotes a a n s W) as HD.
  assert (IP : is_inverse (a * n) (dense_of n s) (dense_of n t)).
  { destruct (inv_correct (la_inv la) a n s HL W HI) as (t' & E & Wt' & HI'). rewrite inv_value in E. injection E as E. fold t in E. subst t'.
    apply HI'; [ exact HD | now apply dense_of_denotes ]. }
  exists (fun k => if il then - (1/2) * (quad a (slice a a k t) (fun i => el mu (i * n + k) - el data (i * n + k)) - ln (Rabs (det_of a (slice a a k s))))
                   else - (1/2) * quad a (slice a a k t) (fun i => el mu (i * n + k) - el data (i * n + k))).
  split.
  - rewrite (gll_sparse la Hla a n s (dense_of n s) (dense_of n t)) by assumption. unfold chi2. rewrite (quad_dense a n t) by assumption. f_equal.
    destruct il.
    + rewrite (det_slices_vprod W Ha HD). rewrite (proj1 (ln_prod n (fun k => det_of a (slice a a k s)) ltac:(
        intros k Hk; apply invertible_det; exists (la_inv la a (slice a a k s)); exact (slices_inverse (la_inv la) a n s k HL HI Hk)))).
      rewrite <- Rsum_minus. now rewrite <- Rsum_scal.
    + now rewrite <- Rsum_scal.
  - intros k m dk mk Hk Hs [Wd Ed] [Wm Em]. rewrite (slice_unique _ _ _ _ _ _ Hs (is_slice_slice a a k s)).
    rewrite (gll_value a _ (slice a a k t)); [ | apply wf2_tab2 | | assumption | assumption ].
    2:{ unfold t. rewrite inv_slice by assumption. now apply slices_inverse with (n := n). }
    assert (Q : chi2 a (slice a a k t) dk mk = quad a (slice a a k t) (fun i => el mu (i * n + k) - el data (i * n + k))).
    { unfold chi2. apply quad_ext. intros i Hi. now rewrite Ed, Em. }
    now rewrite Q.
Qed.
End Laws.
