(** * Algebraic laws of sparse products and inverses *)
From Verif Require Import Np NpLemmas Sparse SparseSpec SparseProofs DetSpec MxBridge DetProofs2 LikelihoodSpec LikelihoodProofs ExSparse.

Lemma cube_ext a b n s t : wf3 a b n s -> wf3 a b n t -> (forall i j k, (i < a)%nat -> (j < b)%nat -> (k < n)%nat -> el3 s i j k = el3 t i j k) -> s = t.
Proof.
  intros [L1 W1] [L2 W2] H. apply nth_ext with (d := []) (d' := []); [ congruence | ]. intros i Hi. rewrite L1 in Hi.
  apply (mat_ext b n); [ apply W1, nth_In; lia | apply W2, nth_In; lia | ]. intros j k Hj Hk. exact (H i j k Hi Hj Hk).
Qed.

Definition slices_invertible (a n : nat) (s : list (list (list R))) : Prop :=
  forall k, (k < n)%nat -> exists m, is_slice a a k s m /\ invertible a m.

Lemma slice_unique a b k s m m' : is_slice a b k s m -> is_slice a b k s m' -> m = m'.
Proof. intros [W E] [W' E']. apply (mat_ext a b); auto. intros i j Hi Hj. now rewrite E, E'. Qed.
Lemma slices_inverse linv a n s k : linv_ok linv -> slices_invertible a n s -> (k < n)%nat -> is_inverse a (slice a a k s) (linv a (slice a a k s)).
Proof.
  intros HL Hi Hk. destruct (Hi k Hk) as (m & Hm & HI). rewrite (slice_unique _ _ _ _ _ _ Hm (is_slice_slice a a k s)) in HI.
  apply HL; [ apply wf2_tab2 | exact HI ].
Qed.
Lemma is_inverse_sym n m mi : wf2 n n m -> is_inverse n m mi -> is_inverse n mi m.
Proof. intros W (W' & A & B). split; [ exact W | split; assumption ]. Qed.
Lemma inv_slice linv a n s k : linv_ok linv -> slices_invertible a n s -> (k < n)%nat -> slice a a k (inv_data linv a n s) = linv a (slice a a k s).
Proof.
  intros HL Hi Hk. pose proof (slices_inverse linv a n s k HL Hi Hk) as (W & _).
  apply (mat_ext a a); [ apply wf2_tab2 | exact W | ]. intros i j Hi' Hj'. unfold slice at 1. rewrite el2_tab by assumption. now rewrite el3_inv_data.
Qed.
Lemma inv_data_invertible linv a n s : linv_ok linv -> slices_invertible a n s -> slices_invertible a n (inv_data linv a n s).
Proof.
  intros HL Hi k Hk. exists (slice a a k (inv_data linv a n s)). split; [ apply is_slice_slice | ]. rewrite inv_slice by assumption.
  exists (slice a a k s). apply is_inverse_sym; [ apply wf2_tab2 | now apply slices_inverse with (n := n) ].
Qed.
Lemma inv_value linv a n s : inv linv (A3 a a n s) = Ok (A3 a a n (inv_data linv a n s)).
Proof. unfold inv, check_sparse. rewrite Nat.eqb_refl. reflexivity. Qed.

Lemma inv_involutive linv a n s : linv_ok linv -> wf3 a a n s -> slices_invertible a n s ->
  exists t, inv linv (A3 a a n s) = Ok t /\ inv linv t = Ok (A3 a a n s).
Proof.
  intros HL W Hi. exists (A3 a a n (inv_data linv a n s)). split; [ apply inv_value | ]. rewrite inv_value. do 2 f_equal.
  apply (cube_ext a a n); [ apply wf3_inv_data | exact W | ]. intros i j k Hi' Hj' Hk. rewrite el3_inv_data by assumption.
  pose proof (slices_inverse linv a n _ k HL (inv_data_invertible linv a n s HL Hi) Hk) as I1. rewrite inv_slice in * by assumption.
  pose proof (slices_inverse linv a n s k HL Hi Hk) as I2. apply is_inverse_sym in I2; [ | apply wf2_tab2 ].
  rewrite (is_inverse_unique _ _ _ _ I1 I2). unfold slice. now rewrite el2_tab.
Qed.

Lemma dot_sds a b n d s1 s2 : dot [A3 a b n s1; A3 b d n s2] = Ok (A3 a d n (sds a b n d s1 s2)).
Proof. simpl. unfold dot2. simpl. rewrite Nat.eqb_refl. simpl. apply sds_eq. Qed.

Lemma dot_assoc a b d e n s1 s2 s3 : wf3 a b n s1 -> wf3 b d n s2 -> wf3 d e n s3 ->
  exists p q r, dot [A3 a b n s1; A3 b d n s2] = Ok p /\ dot [A3 b d n s2; A3 d e n s3] = Ok q /\ dot [p; A3 d e n s3] = Ok r /\ dot [A3 a b n s1; q] = Ok r.
Proof.
  intros W1 W2 W3. exists (A3 a d n (sds a b n d s1 s2)), (A3 b e n (sds b d n e s2 s3)), (A3 a e n (sds a d n e (sds a b n d s1 s2) s3)).
  split; [ apply dot_sds | split; [ apply dot_sds | split; [ apply dot_sds | ]]]. rewrite dot_sds. do 2 f_equal.
  destruct (sds_correct a b n d s1 s2 W1 W2) as [W12 E12]. destruct (sds_correct b d n e s2 s3 W2 W3) as [W23 E23].
  destruct (sds_correct a b n e s1 _ W1 W23) as [WL EL]. destruct (sds_correct a d n e _ s3 W12 W3) as [WR ER].
  apply (cube_ext a e n); auto. intros i j k Hi Hj Hk. rewrite EL, ER by assumption.
  rewrite (Rsum_ext _ _ (fun l => Rsum d (fun q => el3 s1 i l k * el3 s2 l q k * el3 s3 q j k))).
  2:{ intros l Hl. rewrite E23 by assumption. rewrite <- Rsum_scal. apply Rsum_ext; intros; ring. }
  rewrite Rsum_swap. apply Rsum_ext. intros q Hq. rewrite E12 by assumption. now rewrite Rsum_scal_r.
Qed.

(** inverse of a product *)
Lemma slice_prod a n s1 s2 k : wf3 a a n s1 -> wf3 a a n s2 -> (k < n)%nat ->
  forall i j, (i < a)%nat -> (j < a)%nat -> el2 (slice a a k (sds a a n a s1 s2)) i j = Rsum a (fun l => el2 (slice a a k s1) i l * el2 (slice a a k s2) l j).
Proof.
  intros W1 W2 Hk i j Hi Hj. unfold slice at 1. rewrite el2_tab by assumption. rewrite (proj2 (sds_correct a a n a s1 s2 W1 W2)) by assumption.
  apply Rsum_ext. intros l Hl. unfold slice. now rewrite !el2_tab.
Qed.
Lemma inverse_prod a m1 m2 i1 i2 p q : is_inverse a m1 i1 -> is_inverse a m2 i2 -> wf2 a a q ->
  (forall i j, (i < a)%nat -> (j < a)%nat -> el2 p i j = Rsum a (fun l => el2 m1 i l * el2 m2 l j)) ->
  (forall i j, (i < a)%nat -> (j < a)%nat -> el2 q i j = Rsum a (fun l => el2 i2 i l * el2 i1 l j)) -> is_inverse a p q.
Proof.
  assert (K : forall (p q m1 m2 i1 i2 : list (list R)),
    (forall i j, (i < a)%nat -> (j < a)%nat -> el2 p i j = Rsum a (fun l => el2 m1 i l * el2 m2 l j)) ->
    (forall i j, (i < a)%nat -> (j < a)%nat -> el2 q i j = Rsum a (fun l => el2 i2 i l * el2 i1 l j)) ->
    (forall i j, (i < a)%nat -> (j < a)%nat -> Rsum a (fun l => el2 m1 i l * el2 i1 l j) = if Nat.eqb i j then 1 else 0) ->
    (forall i j, (i < a)%nat -> (j < a)%nat -> Rsum a (fun l => el2 m2 i l * el2 i2 l j) = if Nat.eqb i j then 1 else 0) ->
    forall i j, (i < a)%nat -> (j < a)%nat -> Rsum a (fun l => el2 p i l * el2 q l j) = if Nat.eqb i j then 1 else 0).
  { intros P Q M1 M2 I1 I2 HP HQ H1 H2 i j Hi Hj. rewrite <- (H1 i j Hi Hj).
    rewrite (Rsum_ext _ _ (fun l => Rsum a (fun u => Rsum a (fun v => el2 M1 i u * el2 M2 u l * (el2 I2 l v * el2 I1 v j))))).
    2:{ intros l Hl. rewrite HP, HQ by assumption. rewrite <- Rsum_scal_r. apply Rsum_ext; intros u Hu. now rewrite Rsum_scal. }
    rewrite Rsum_swap. apply Rsum_ext; intros u Hu. rewrite Rsum_swap.
    rewrite (Rsum_ext _ _ (fun v => if Nat.eqb u v then el2 M1 i u * el2 I1 v j else 0)).
    2:{ intros v Hv. rewrite (Rsum_ext _ _ (fun l => el2 M1 i u * el2 I1 v j * (el2 M2 u l * el2 I2 l v))) by (intros; ring). rewrite Rsum_scal, H2 by assumption. destruct (Nat.eqb u v); ring. }
    now rewrite Rsum_delta_r. }
  intros (W1 & A1 & B1) (W2 & A2 & B2) WQ HP HQ. split; [ exact WQ | split ].
  - now apply (K p q m1 m2 i1 i2).
  - now apply (K q p i2 i1 m2 m1).
Qed.
Lemma inv_product linv a n s1 s2 : linv_ok linv -> wf3 a a n s1 -> wf3 a a n s2 -> slices_invertible a n s1 -> slices_invertible a n s2 ->
  exists p i1 i2 t, dot [A3 a a n s1; A3 a a n s2] = Ok p /\ inv linv (A3 a a n s1) = Ok i1 /\ inv linv (A3 a a n s2) = Ok i2 /\
    inv linv p = Ok t /\ dot [i2; i1] = Ok t.
Proof.
  intros HL W1 W2 H1 H2. exists (A3 a a n (sds a a n a s1 s2)), (A3 a a n (inv_data linv a n s1)), (A3 a a n (inv_data linv a n s2)), (A3 a a n (inv_data linv a n (sds a a n a s1 s2))).
  split; [ apply dot_sds | split; [ apply inv_value | split; [ apply inv_value | split; [ apply inv_value | ]]]]. rewrite dot_sds. do 2 f_equal.
  pose proof (sds_correct a a n a _ _ (wf3_inv_data linv a n s2) (wf3_inv_data linv a n s1)) as [WQ EQ].
  apply (cube_ext a a n); [ exact WQ | apply wf3_inv_data | ]. intros i j k Hi Hj Hk. rewrite el3_inv_data by assumption.
  assert (I : is_inverse a (slice a a k (sds a a n a s1 s2)) (slice a a k (sds a a n a (inv_data linv a n s2) (inv_data linv a n s1)))).
  { apply (inverse_prod a (slice a a k s1) (slice a a k s2) (linv a (slice a a k s1)) (linv a (slice a a k s2))).
    - now apply slices_inverse with (n := n).
    - now apply slices_inverse with (n := n).
    - apply wf2_tab2.
    - intros u v Hu Hv. now apply (slice_prod a n).
    - intros u v Hu Hv. rewrite (slice_prod a n _ _ k (wf3_inv_data linv a n s2) (wf3_inv_data linv a n s1)) by assumption. now rewrite !inv_slice by assumption. }
  assert (II : is_inverse a (slice a a k (sds a a n a s1 s2)) (linv a (slice a a k (sds a a n a s1 s2)))).
  { apply HL; [ apply wf2_tab2 | eexists; exact I ]. }
  rewrite (is_inverse_unique _ _ _ _ II I). unfold slice. now rewrite el2_tab.
Qed.

(** solving a linear system with the sparse inverse *)
Lemma inv_solves linv a n s v : linv_ok linv -> wf3 a a n s -> slices_invertible a n s -> wf1 (a * n) v ->
  exists t w, inv linv (A3 a a n s) = Ok t /\ dot [t; A1 (a * n) v] = Ok w /\ dot [A3 a a n s; w] = Ok (A1 (a * n) v).
Proof.
  intros HL W Hi Hv. destruct (inv_correct linv a n s HL W Hi) as (t & E & Wt & HI).
  pose proof (dense_of_denotes a a n s W) as D1. pose proof (dense_of_denotes a a n t Wt) as D2. specialize (HI _ _ D1 D2).
  destruct (dot_sparse_vec a a n t v _ Wt Hv D2) as (w & E1 & [Lw Ew]). destruct (dot_sparse_vec a a n s w _ W Lw D1) as (u & E2 & [Lu Eu]).
  exists (A3 a a n t), (A1 (a * n) w). split; [ exact E | split; [ exact E1 | ]]. rewrite E2. do 2 f_equal.
  apply nth_ext with (d := 0) (d' := 0); [ unfold wf1 in *; congruence | ]. intros i Hi'. unfold wf1 in Lu. rewrite Lu in Hi'. change (el u i = el v i). rewrite Eu by exact Hi'.
  rewrite (Rsum_ext _ _ (fun l => Rsum (a * n) (fun q => el2 (dense_of n s) i l * el2 (dense_of n t) l q * el v q))).
  2:{ intros l Hl. rewrite Ew by exact Hl. rewrite <- Rsum_scal. apply Rsum_ext; intros; ring. }
  rewrite Rsum_swap. rewrite (Rsum_ext _ _ (fun q => if Nat.eqb i q then el v q else 0)).
  2:{ intros q Hq. rewrite Rsum_scal_r, (proj1 (proj2 HI)) by assumption. destruct (Nat.eqb i q); ring. }
  now rewrite Rsum_delta_r.
Qed.
