(** * Proofs for the likelihood (C11-C14) *)
From Verif Require Import Np NpLemmas Sparse SparseSpec SparseProofs DetSpec MxBridge DetProofs2
  Likelihood LikelihoodSpec.

Lemma el_vsub' (u v : list R) i : length u = length v -> el (vsub u v) i = el u i - el v i.
Proof.
  revert v i; induction u as [|x u IH]; intros [|y v] i H; simpl in *; try discriminate.
  - destruct i; unfold el; simpl; ring.
  - destruct i; unfold el in *; simpl; [ring|]. apply IH. congruence.
Qed.
Lemma length_vsub (u v : list R) : length u = length v -> length (vsub u v) = length u.
Proof. intros H. unfold vsub. rewrite length_map2. lia. Qed.

Lemma length_mv m v : length (mv m v) = length m.
Proof. apply map_length. Qed.
Lemma el_mv r c m v i : wf2 r c m -> wf1 c v -> (i < r)%nat -> el (mv m v) i = Rsum c (fun j => el2 m i j * el v j).
Proof.
  intros H Hv Hi. unfold el at 1, mv. rewrite nth_map_lt with (d := []) by (destruct H as [-> _]; exact Hi).
  rewrite (vdot_Rsum c); [reflexivity|eapply wf2_row; eauto|exact Hv].
Qed.

Lemma Rabs_m1 : Rabs (-1) = 1.
Proof. rewrite Rabs_left; lra. Qed.

Lemma bind_Ok {A B} (a : A) (f : A -> res B) : bind (Ok a) f = f a.
Proof. reflexivity. Qed.

(** inverses are unique *)
Lemma is_inverse_unique n m m1 m2 : is_inverse n m m1 -> is_inverse n m m2 -> m1 = m2.
Proof.
  intros [W1 [_ L1]] [W2 [R2 _]]. eapply mat_ext; eauto. intros i j Hi Hj.
  transitivity (Rsum n (fun l => el2 m1 i l * Rsum n (fun k => el2 m l k * el2 m2 k j))).
  - rewrite (Rsum_ext n _ (fun l => if Nat.eqb l j then el2 m1 i l else 0)).
    + rewrite Rsum_delta; auto.
    + intros l Hl. rewrite R2 by auto. destruct (Nat.eqb l j); ring.
  - rewrite (Rsum_ext n _ (fun l => Rsum n (fun k => el2 m1 i l * el2 m l k * el2 m2 k j))).
    2:{ intros l Hl. rewrite <- Rsum_scal. apply Rsum_ext. intros; ring. }
    rewrite Rsum_swap.
    rewrite (Rsum_ext n _ (fun k => if Nat.eqb k i then el2 m2 k j else 0)).
    + rewrite Rsum_delta; auto.
    + intros k Hk. rewrite Rsum_scal_r. rewrite L1 by auto. rewrite Nat.eqb_sym. destruct (Nat.eqb k i); ring.
Qed.

(** quadratic form computed by the dense path *)
Lemma dense_quad n P r : wf2 n n P -> wf1 n r -> vdot r (mv P r) = quad n P (el r).
Proof.
  intros HP Hr. rewrite (vdot_Rsum n); [|exact Hr|rewrite length_mv; apply HP].
  apply Rsum_ext. intros i Hi. rewrite (el_mv n n) by auto. rewrite <- Rsum_scal. apply Rsum_ext. intros; ring.
Qed.

Lemma quad_ext n m x y : (forall i, (i < n)%nat -> x i = y i) -> quad n m x = quad n m y.
Proof. intros H. apply Rsum_ext. intros i Hi. apply Rsum_ext. intros j Hj. now rewrite !H. Qed.

(** quadratic form computed by the sparse path *)
Lemma sparse_quad a n Y r DY : wf3 a a n Y -> wf1 (a * n) r -> denotes a a n Y DY ->
  bind (dot [A2 1 (a * n) [r]; A3 a a n Y; A2 (a * n) 1 (map (fun x => [x]) r)]) at00 = Ok (quad (a * n) DY (el r)).
Proof.
  intros HY Hr HD. set (N := (a * n)%nat) in *.
  assert (WX : wf2 1 N [r]) by (split; [reflexivity|]; intros row [<-|[]]; exact Hr).
  assert (WZ : wf2 N 1 (map (fun x => [x]) r)).
  { split; [rewrite map_length; exact Hr|]. intros row Hin. apply in_map_iff in Hin as [x [<- _]]. reflexivity. }
  set (XY := tab 1 (fun i => tab N (fun j => Rsum N (fun l => el2 [r] i l * el2 DY l j)))).
  assert (HXY : is_matmul 1 N N [r] DY XY).
  { split; [apply wf2_tab2|]. intros i j Hi Hj. unfold XY. now rewrite el2_tab. }
  destruct (bilinear_correct 1 a a n 1 [r] Y _ DY XY WX HY WZ HD HXY) as [P [E [WP EP]]].
  fold N in E. rewrite E. simpl. f_equal. rewrite EP by lia. fold N.
  unfold quad. rewrite Rsum_swap. apply Rsum_ext. intros k Hk.
  unfold XY. rewrite el2_tab by lia. rewrite <- Rsum_scal_r. apply Rsum_ext. intros l Hl.
  assert (E1 : el2 [r] 0 l = el r l) by reflexivity.
  assert (E2 : el2 (map (fun x => [x]) r) k 0 = el r k).
  { unfold el2. rewrite nth_map_lt with (d := 0) by (rewrite Hr; exact Hk). reflexivity. }
  rewrite E1, E2. reflexivity.
Qed.

Section Like.
Variable la : linalg.
Hypothesis Hla : linalg_ok la.

Lemma gll_dense_inverse n C P data mu il : wf2 n n C -> is_inverse n C P -> wf1 n data -> wf1 n mu ->
  gaussian_log_likelihood la data mu (A2 n n C) il "inverse" =
  Ok (if il then - (1/2) * (chi2 n P data mu - snd (la_slogdet la n C)) else - (1/2) * chi2 n P data mu).
Proof.
  intros WC HI Hd Hm. unfold wf1 in *.
  unfold gaussian_log_likelihood, is_sparse. simpl ndim. simpl Nat.eqb at 1.
  rewrite String.eqb_refl. rewrite Nat.eqb_refl. simpl negb at 1.
  rewrite length_vsub by congruence. rewrite Hm, Nat.eqb_refl. simpl negb at 1. cbv iota. simpl bind at 1.
  assert (E : la_inv la n C = P).
  { destruct Hla as [HL _]. apply (is_inverse_unique n C); auto. apply HL; auto. now exists P. }
  rewrite E. rewrite (dense_quad n P); [|apply HI|unfold wf1; rewrite length_vsub; congruence].
  assert (Q : quad n P (el (vsub mu data)) = chi2 n P data mu).
  { apply quad_ext. intros i Hi. apply el_vsub'. congruence. }
  rewrite Q. destruct il; reflexivity.
Qed.

Lemma gll_sparse a n s D P data mu il method : wf3 a a n s -> (0 < a)%nat -> (0 < n)%nat ->
  denotes a a n s D -> trailing_invertible a n s -> is_inverse (a * n) D P ->
  wf1 (a * n) data -> wf1 (a * n) mu ->
  gaussian_log_likelihood la data mu (A3 a a n s) il method =
  Ok (if il then - (1/2) * (chi2 (a * n) P data mu - ln (Rabs (det_of (a * n) D))) else - (1/2) * chi2 (a * n) P data mu).
Proof.
  intros W Ha Hn HD HT HI Hd Hm. destruct Hla as [HL [HS HC]].
  destruct (inv_correct (la_inv la) a n s HL W) as [t [Et [Wt Ht]]].
  { intros k Hk. destruct (HT 0%nat k Ha Hk) as [m [[Wm Em] Hm']]. rewrite Nat.sub_0_r in *.
    exists m. split; [|exact Hm']. split; [exact Wm|]. intros i j Hi Hj. now apply Em. }
  pose proof (dense_of_denotes a a n t Wt) as HDT.
  pose proof (Ht D _ HD HDT) as HI'. pose proof (is_inverse_unique _ _ _ _ HI HI') as ->.
  unfold gaussian_log_likelihood. change (is_sparse (A3 a a n s)) with true. cbv iota.
  rewrite Et. unfold wf1 in *. rewrite length_vsub by congruence. rewrite Hm. rewrite bind_Ok.
  rewrite (sparse_quad a n t _ (dense_of n t)); auto.
  2:{ unfold wf1. rewrite length_vsub; congruence. }
  assert (Q : quad (a * n) (dense_of n t) (el (vsub mu data)) = chi2 (a * n) (dense_of n t) data mu).
  { apply quad_ext. intros i Hi. apply el_vsub'. congruence. }
  rewrite Q, bind_Ok. destruct il; [|reflexivity]. simpl negb. cbv iota.
  destruct (det_sparse_correct HL W Ha Hn HT HD) as [sg [ld [Es [Hsg [Hdet _]]]]].
  rewrite Es. simpl. do 2 f_equal. f_equal.
  rewrite <- Hdet. rewrite Rabs_mult, (Rabs_right (exp ld)) by (left; apply exp_pos).
  destruct Hsg as [-> | ->]; [rewrite Rabs_R1|rewrite Rabs_m1]; rewrite Rmult_1_l; symmetry; apply ln_exp.
Qed.

Lemma dense_logdet n C : wf2 n n C -> invertible n C -> snd (la_slogdet la n C) = ln (Rabs (det_of n C)).
Proof.
  intros W HI. destruct Hla as [_ [HS _]]. apply invertible_det in HI. 
  destruct (HS n C W HI) as [Hsg Hdet]. rewrite <- Hdet.
  rewrite Rabs_mult, (Rabs_right (exp _)) by (left; apply exp_pos).
  destruct Hsg as [-> | ->]; [rewrite Rabs_R1|rewrite Rabs_m1]; rewrite Rmult_1_l; symmetry; apply ln_exp.
Qed.

(** C11 *)
Lemma sparse_eq_dense a n s D data mu il method : wf3 a a n s -> (0 < a)%nat -> (0 < n)%nat ->
  denotes a a n s D -> trailing_invertible a n s -> wf1 (a * n) data -> wf1 (a * n) mu ->
  exists v, gaussian_log_likelihood la data mu (A3 a a n s) il method = Ok v /\
            gaussian_log_likelihood la data mu (A2 (a * n) (a * n) D) il "inverse" = Ok v.
Proof.
  intros W Ha Hn HD HT Hd Hm.   destruct (inv_correct (la_inv la) a n s (proj1 Hla) W) as [t [Et [Wt Ht]]].
  { intros k Hk. destruct (HT 0%nat k Ha Hk) as [m [[Wm Em] Hm']]. rewrite Nat.sub_0_r in *.
    exists m. split; [|exact Hm']. split; [exact Wm|]. intros i j Hi Hj. now apply Em. }
  pose proof (Ht D _ HD (dense_of_denotes a a n t Wt)) as HI.
  eexists. split; [apply (gll_sparse a n s D (dense_of n t)); auto|].
  rewrite (gll_dense_inverse (a * n) D (dense_of n t)); auto; [|apply HD].
  rewrite dense_logdet; [reflexivity|apply HD|now exists (dense_of n t)].
Qed.

(** C12 *)
Lemma cholesky_eq_inverse n C data mu il : wf2 n n C -> symmetric n C -> pos_def n C -> wf1 n data -> wf1 n mu ->
  exists v, gaussian_log_likelihood la data mu (A2 n n C) il "cholesky" = Ok v /\
            gaussian_log_likelihood la data mu (A2 n n C) il "inverse" = Ok v.
Proof.
  intros W HS HP Hd Hm. destruct (pos_def_invertible HP) as [P HI].
  rewrite (gll_dense_inverse n C P) by auto. eexists. split; [|reflexivity].
  unfold gaussian_log_likelihood, is_sparse. simpl ndim. simpl Nat.eqb at 1. cbv iota.
  replace (String.eqb "cholesky" "inverse") with false by reflexivity. cbv iota.
  rewrite String.eqb_refl. unfold wf1 in *.
  rewrite length_vsub by congruence. rewrite Hm, !Nat.eqb_refl. simpl negb at 1 2. cbv iota. simpl bind at 1.
  set (r := vsub mu data). assert (Hr : wf1 n r) by (unfold wf1, r; rewrite length_vsub; congruence).
  destruct Hla as [_ [_ HC]]. destruct (HC n C r W HS HP Hr) as [[_ Hy] Wy].
  set (y := la_cho_solve la n C r) in *.
  assert (Ey : vdot r y = quad n P (el r)).
  { rewrite (vdot_Rsum n) by auto. apply Rsum_ext. intros i Hi.
    destruct HI as [WP [_ HL]].
    transitivity (el r i * Rsum n (fun j => el2 P i j * el r j)).
    2:{ rewrite <- Rsum_scal. apply Rsum_ext. intros; ring. }
    f_equal.
    transitivity (Rsum n (fun j => Rsum n (fun l => el2 P i j * el2 C j l) * 0 + el2 P i j * Rsum n (fun l => el2 C j l * el y l))).
    2:{ apply Rsum_ext. intros j Hj. rewrite (Hy j Hj). ring. }
    rewrite (Rsum_ext n _ (fun j => Rsum n (fun l => el2 P i j * el2 C j l * el y l))).
    2:{ intros j Hj. rewrite Rmult_0_r, Rplus_0_l, <- Rsum_scal. apply Rsum_ext. intros; ring. }
    rewrite Rsum_swap.
    rewrite (Rsum_ext n _ (fun l => if Nat.eqb l i then el y l else 0)).
    2:{ intros l Hl. rewrite Rsum_scal_r, HL by auto. rewrite Nat.eqb_sym. destruct (Nat.eqb l i); ring. }
    rewrite Rsum_delta; auto. }
  assert (Q : quad n P (el r) = chi2 n P data mu).
  { apply quad_ext. intros i Hi. apply el_vsub'. congruence. }
  rewrite Ey, Q. destruct il; reflexivity.
Qed.

End Like.

Lemma unknown_method_dense la data mu n m C il method : method <> "inverse"%string -> method <> "cholesky"%string ->
  gaussian_log_likelihood la data mu (A2 n m C) il method = Err NotImplementedError.
Proof.
  intros H1 H2. unfold gaussian_log_likelihood, is_sparse. simpl ndim. simpl Nat.eqb at 1. cbv iota.
  apply String.eqb_neq in H1, H2. now rewrite H1, H2.
Qed.

Lemma method_ignored_sparse la data mu a b n s il m1 m2 :
  gaussian_log_likelihood la data mu (A3 a b n s) il m1 = gaussian_log_likelihood la data mu (A3 a b n s) il m2.
Proof. reflexivity. Qed.

(** C13 *)
Lemma chi2_sym n P data mu : chi2 n P data mu = chi2 n P mu data.
Proof. apply Rsum_ext. intros i _. apply Rsum_ext. intros j _. ring. Qed.

(** the inverse of a positive definite matrix is positive definite *)
Lemma pos_def_inverse n C P : pos_def n C -> is_inverse n C P -> pos_def n P.
Proof.
  intros HC [WP [HR HL]] x [i [Hi Hx]].
  set (y := fun k => Rsum n (fun l => el2 P k l * x l)).
  assert (E : forall k, (k < n)%nat -> x k = Rsum n (fun l => el2 C k l * y l)).
  { intros k Hk. unfold y.
    rewrite (Rsum_ext n _ (fun l => Rsum n (fun j => el2 C k l * el2 P l j * x j))).
    2:{ intros l Hl. rewrite <- Rsum_scal. apply Rsum_ext. intros; ring. }
    rewrite Rsum_swap.
    rewrite (Rsum_ext n _ (fun j => if Nat.eqb j k then x j else 0)).
    2:{ intros j Hj. rewrite Rsum_scal_r, HR by auto. rewrite Nat.eqb_sym. destruct (Nat.eqb j k); ring. }
    rewrite Rsum_delta; auto. }
  assert (Q : quad n P x = quad n C y).
  { unfold quad.
    transitivity (Rsum n (fun k => x k * y k)).
    { apply Rsum_ext. intros k Hk. unfold y. rewrite <- Rsum_scal. apply Rsum_ext. intros; ring. }
    apply Rsum_ext. intros k Hk. rewrite (E k Hk) at 1. rewrite <- Rsum_scal_r. 
    rewrite (Rsum_ext n (fun l => el2 C k l * y l * y k) (fun l => y k * el2 C k l * y l)); [reflexivity|intros; ring]. }
  rewrite Q. apply HC. 
  destruct (Classical_Prop.classic (exists k, (k < n)%nat /\ y k <> 0)) as [|Hno]; [assumption|exfalso].
  apply Hx. rewrite (E i Hi). apply Rsum_0_ext. intros l Hl.
  destruct (Req_dec (y l) 0) as [->|Hyl]; [ring|]. exfalso. apply Hno. now exists l.
Qed.

Lemma chi2_nonneg n C P data mu : pos_def n C -> is_inverse n C P -> wf1 n data -> wf1 n mu ->
  0 <= chi2 n P data mu /\ (chi2 n P data mu = 0 <-> data = mu).
Proof.
  intros HC HI Hd Hm. pose proof (pos_def_inverse n C P HC HI) as HP. unfold wf1 in *.
  assert (Z : data = mu -> chi2 n P data mu = 0).
  { intros ->. apply Rsum_0_ext. intros i _. apply Rsum_0_ext. intros; ring. }
  assert (NZ : data <> mu -> 0 < chi2 n P data mu).
  { intros Hne. apply HP.
    destruct (Classical_Prop.classic (exists i, (i < n)%nat /\ el mu i - el data i <> 0)) as [|Hno]; [assumption|exfalso].
    apply Hne. apply list_eq_nth with (d := 0); [congruence|]. intros i Hi.
    destruct (Req_dec (el mu i - el data i) 0) as [E|E]; [unfold el in E; lra|].
    exfalso. apply Hno. exists i. split; [lia|exact E]. }
  destruct (Classical_Prop.classic (data = mu)) as [E|E].
  - split; [rewrite (Z E); lra|]. split; auto.
  - specialize (NZ E). split; [lra|]. split; [lra|]. intros E'. contradiction.
Qed.
