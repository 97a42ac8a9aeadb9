(** * The Gaussian covariance is positive (semi-)definite *)
From Verif Require Import Np NpLemmas Core Interp Integrate Background Power Redshift Bias Probes Sparse SparseSpec
  SparseProofs AngularCl CovSpec Gram CovProofs.

(** sum over the ordering = sum over i <= j *)
Lemma vsum_flat_map {A} (f : A -> list R) l : vsum (flat_map f l) = vsum (map (fun x => vsum (f x)) l).
Proof. induction l as [ | x l IH]; simpl; [ reflexivity | ]. now rewrite vsum_app, IH. Qed.

Lemma flat_map_map {A B C} (g : B -> C) (f : A -> list B) l : map g (flat_map f l) = flat_map (fun x => map g (f x)) l.
Proof. induction l as [ | x l IH]; simpl; [ reflexivity | ]. now rewrite map_app, IH. Qed.

Lemma vsum_seq_from (F : nat -> R) n i : (i <= n)%nat ->
  vsum (map F (seq i (n - i))) = Rsum n (fun j => if Nat.leb i j then F j else 0).
Proof.
  intros Hi. transitivity (Rsum (n - i) (fun q => F (i + q)%nat)).
  - rewrite vsum_Rsum, map_length, seq_length. apply Rsum_ext; intros q Hq. unfold el.
    rewrite (nth_map_lt F (seq i (n - i)) q 0%nat 0) by (now rewrite seq_length). now rewrite seq_nth.
  - replace n with (i + (n - i))%nat at 2 by lia. rewrite Rsum_add.
    rewrite (Rsum_0_ext i) by (intros j Hj; destruct (Nat.leb_spec i j); [ lia | reflexivity ]).
    rewrite Rplus_0_l. apply Rsum_ext; intros q Hq. destruct (Nat.leb_spec i (i + q)); [ reflexivity | lia ].
Qed.

Lemma Rsum_ordering n (F : nat * nat -> R) :
  Rsum (length (cl_ordering n)) (fun s => F (nth s (cl_ordering n) (0, 0)%nat)) =
  Rsum n (fun i => Rsum n (fun j => if Nat.leb i j then F (i, j) else 0)).
Proof.
  transitivity (vsum (map F (cl_ordering n))).
  - rewrite vsum_Rsum, map_length. apply Rsum_ext; intros s Hs. unfold el.
    now rewrite (nth_map_lt F _ s (0, 0)%nat 0).
  - unfold cl_ordering. rewrite flat_map_map, vsum_flat_map.
    change (map ?f (seq 0 n)) with (tab n f). rewrite vsum_tab. apply Rsum_ext; intros i Hi.
    rewrite map_map. apply (vsum_seq_from (fun j => F (i, j))). lia.
Qed.

(** the covariance form at one multipole equals half the form of the symmetrised vector *)
Definition tri (X : nat -> nat -> R) (i j : nat) : R := if Nat.leb i j then X i j else 0.

Lemma form_split n S X :
  form4 n S (fun i j => X i j + X j i) =
  2 * Rsum n (fun i => Rsum n (fun j => Rsum n (fun m => Rsum n (fun k => X i j * X m k * (S i m * S j k + S i k * S j m))))).
Proof.
  set (f := fun i j m k => X i j * X m k * (S i m * S j k)).
  set (g := fun i j m k => X i j * X m k * (S i k * S j m)).
  assert (E1 : form4 n S (fun i j => X i j + X j i) =
    Rsum n (fun i => Rsum n (fun j => Rsum n (fun m => Rsum n (fun k => f i j m k + g i j k m))))
    + Rsum n (fun i => Rsum n (fun j => Rsum n (fun m => Rsum n (fun k => g j i m k + f j i k m))))).
  { unfold form4. rewrite <- Rsum_plus. apply Rsum_ext; intros i Hi.
    rewrite <- Rsum_plus. apply Rsum_ext; intros j Hj. rewrite <- Rsum_plus. apply Rsum_ext; intros m Hm.
    rewrite <- Rsum_plus. apply Rsum_ext; intros k Hk. unfold f, g. ring. }
  assert (E2 : forall i j, Rsum n (fun m => Rsum n (fun k => f i j m k + g i j k m)) =
                      Rsum n (fun m => Rsum n (fun k => f i j m k + g i j m k))).
  { intros i j.
    rewrite (Rsum_ext n (fun m => Rsum n (fun k => f i j m k + g i j k m))
                        (fun m => Rsum n (fun k => f i j m k) + Rsum n (fun k => g i j k m)))
      by (intros; apply Rsum_plus).
    rewrite (Rsum_ext n (fun m => Rsum n (fun k => f i j m k + g i j m k))
                        (fun m => Rsum n (fun k => f i j m k) + Rsum n (fun k => g i j m k)))
      by (intros; apply Rsum_plus).
    rewrite !Rsum_plus. f_equal. apply Rsum_swap. }
  assert (E3 : forall i j, Rsum n (fun m => Rsum n (fun k => g i j m k + f i j k m)) =
                      Rsum n (fun m => Rsum n (fun k => f i j m k + g i j m k))).
  { intros i j.
    rewrite (Rsum_ext n (fun m => Rsum n (fun k => g i j m k + f i j k m))
                        (fun m => Rsum n (fun k => g i j m k) + Rsum n (fun k => f i j k m)))
      by (intros; apply Rsum_plus).
    rewrite (Rsum_ext n (fun m => Rsum n (fun k => f i j m k + g i j m k))
                        (fun m => Rsum n (fun k => f i j m k) + Rsum n (fun k => g i j m k)))
      by (intros; apply Rsum_plus).
    rewrite !Rsum_plus. rewrite Rplus_comm. f_equal. apply Rsum_swap. }
  rewrite E1.
  rewrite (Rsum_ext n _ (fun i => Rsum n (fun j => Rsum n (fun m => Rsum n (fun k => f i j m k + g i j m k)))))
    by (intros; apply Rsum_ext; intros; apply E2).
  rewrite (Rsum_ext n (fun i => Rsum n (fun j => Rsum n (fun m => Rsum n (fun k => g j i m k + f j i k m))))
            (fun i => Rsum n (fun j => Rsum n (fun m => Rsum n (fun k => f j i m k + g j i m k)))))
    by (intros; apply Rsum_ext; intros; apply E3).
  rewrite (Rsum_swap n n (fun i j => Rsum n (fun m => Rsum n (fun k => f j i m k + g j i m k)))).
  rewrite <- double. apply f_equal.
  apply Rsum_ext; intros i Hi; apply Rsum_ext; intros j Hj; apply Rsum_ext; intros m Hm; apply Rsum_ext; intros k Hk.
  unfold f, g; ring.
Qed.

(** quadratic form of a dense matrix denoted by a sparse array, slice by slice *)
Lemma quad_dense a n s m x : wf3 a a n s -> denotes a a n s m ->
  quad (a * n) m x = Rsum n (fun l => Rsum a (fun i => Rsum a (fun j => x (i * n + l)%nat * el3 s i j l * x (j * n + l)%nat))).
Proof.
  intros Hw [Hm He]. unfold quad. rewrite Rsum_mul.
  transitivity (Rsum a (fun i => Rsum n (fun l => Rsum a (fun j => x (i * n + l)%nat * el3 s i j l * x (j * n + l)%nat)))).
  2: apply Rsum_swap.
  apply Rsum_ext; intros i Hi; apply Rsum_ext; intros l Hl. rewrite Rsum_mul.
  apply Rsum_ext; intros j Hj.
  assert (Hn : (0 < n)%nat) by lia.
  rewrite (Rsum_ext n _ (fun q => if Nat.eqb l q then x (i * n + l)%nat * el3 s i j q * x (j * n + q)%nat else 0)).
  - rewrite Rsum_delta_r by assumption. reflexivity.
  - intros q Hq. rewrite He by nia. unfold dense_entry.
    rewrite !(Nat.add_comm (_ * n)), !Nat.mod_add, !Nat.div_add by lia.
    rewrite !Nat.mod_small, !Nat.div_small by assumption. simpl.
    destruct (Nat.eqb_spec l q) as [-> | ]; [ reflexivity | ring ].
Qed.

Definition idx (n i j : nat) : nat := match find_index (cl_ordering n) i j with Ok s => s | Err _ => 0%nat end.
Lemma idx_ok n s i j : nth_error (cl_ordering n) s = Some (i, j) -> idx n i j = s.
Proof.
  intros Hs. assert (Hin : In (i, j) (cl_ordering n)) by (eapply nth_error_In; eauto).
  apply In_cl_ordering in Hin. unfold idx.
  destruct (find_index_ok n i j) as (x & Hx & Nx); try lia. rewrite Hx.
  unfold names in Nx. rewrite Nat.min_l, Nat.max_r in Nx by lia. now apply (ordering_unique n x s (i, j)).
Qed.

Lemma half_inv c Q : / (2 * c) * (2 * Q) = / c * Q.
Proof.
  destruct (Req_dec c 0) as [-> | Hc].
  - replace (2 * 0) with 0 by ring. rewrite Rinv_0. ring.
  - field. assumption.
Qed.

(** one multipole *)
Lemma slice_form n (S : nat -> nat -> R) (c : R) (e : nat -> nat -> R) (x : nat -> R) :
  (forall s t i j m k, nth_error (cl_ordering n) s = Some (i, j) -> nth_error (cl_ordering n) t = Some (m, k) ->
     e s t = (S i m * S j k + S i k * S j m) / c) ->
  let X := tri (fun i j => x (idx n i j)) in
  Rsum (length (cl_ordering n)) (fun s => Rsum (length (cl_ordering n)) (fun t => x s * e s t * x t)) =
  / (2 * c) * form4 n S (fun i j => X i j + X j i).
Proof.
  intros He X. set (ord := cl_ordering n).
  assert (Hne : forall s, (s < length ord)%nat -> nth_error ord s = Some (nth s ord (0, 0)%nat))
    by (intros s Hs; apply nth_error_nth'; assumption).
  transitivity (Rsum (length ord) (fun s => Rsum (length ord) (fun t =>
    (fun p q => x (idx n (fst p) (snd p)) * ((S (fst p) (fst q) * S (snd p) (snd q) + S (fst p) (snd q) * S (snd p) (fst q)) / c)
       * x (idx n (fst q) (snd q))) (nth s ord (0, 0)%nat) (nth t ord (0, 0)%nat)))).
  { apply Rsum_ext; intros s Hs; apply Rsum_ext; intros t Ht. cbv beta.
    pose proof (Hne s Hs) as Es. pose proof (Hne t Ht) as Et.
    destruct (nth s ord (0, 0)%nat) as [i j], (nth t ord (0, 0)%nat) as [m k]. simpl fst; simpl snd.
    now rewrite (He s t i j m k Es Et), (idx_ok n s i j Es), (idx_ok n t m k Et). }
  cbv beta.
  rewrite (Rsum_ext (length ord) _ (fun s => (fun p => Rsum n (fun m => Rsum n (fun k => if Nat.leb m k then
     x (idx n (fst p) (snd p)) * ((S (fst p) m * S (snd p) k + S (fst p) k * S (snd p) m) / c) * x (idx n m k) else 0)))
     (nth s ord (0, 0)%nat))).
  2:{ intros s Hs. cbv beta.
      apply (Rsum_ordering n (fun q => x (idx n (fst (nth s ord (0, 0)%nat)) (snd (nth s ord (0, 0)%nat))) *
        ((S (fst (nth s ord (0, 0)%nat)) (fst q) * S (snd (nth s ord (0, 0)%nat)) (snd q) +
          S (fst (nth s ord (0, 0)%nat)) (snd q) * S (snd (nth s ord (0, 0)%nat)) (fst q)) / c) * x (idx n (fst q) (snd q)))). }
  cbv beta. unfold ord.
  rewrite (Rsum_ordering n (fun p => Rsum n (fun m => Rsum n (fun k => if Nat.leb m k then
     x (idx n (fst p) (snd p)) * ((S (fst p) m * S (snd p) k + S (fst p) k * S (snd p) m) / c) * x (idx n m k) else 0)))).
  rewrite form_split.
  replace (/ (2 * c) * (2 * Rsum n (fun i => Rsum n (fun j => Rsum n (fun m => Rsum n (fun k =>
            X i j * X m k * (S i m * S j k + S i k * S j m)))))))
    with (/ c * Rsum n (fun i => Rsum n (fun j => Rsum n (fun m => Rsum n (fun k =>
            X i j * X m k * (S i m * S j k + S i k * S j m))))))
    by (rewrite half_inv; reflexivity).
  rewrite <- Rsum_scal. apply Rsum_ext; intros i Hi. rewrite <- Rsum_scal. apply Rsum_ext; intros j Hj.
  simpl fst; simpl snd. unfold X, tri.
  destruct (Nat.leb i j).
  - rewrite <- Rsum_scal. apply Rsum_ext; intros m Hm. rewrite <- Rsum_scal. apply Rsum_ext; intros k Hk.
    unfold tri. destruct (Nat.leb m k); unfold Rdiv; ring.
  - symmetry. rewrite (Rsum_0_ext n).
    + ring.
    + intros m Hm. apply Rsum_0_ext; intros k Hk. ring.
Qed.

Lemma el3_knox_slice ell probes sig noi f_sky S s3 l :
  (forall s t i j m k l, nth_error (get_cl_ordering probes) s = Some (i, j) ->
     nth_error (get_cl_ordering probes) t = Some (m, k) -> (l < length ell)%nat ->
     el3 s3 s t l = knox S ell f_sky i j m k l) -> (l < length ell)%nat ->
  cov_input ell probes sig noi -> forall x,
  let n := n_bins probes in
  let X := tri (fun i j => x (idx n i j)) in
  let N := length (get_cl_ordering probes) in
  Rsum N (fun s => Rsum N (fun t => x s * el3 s3 s t l * x t)) =
  / (2 * knox_norm ell f_sky l) * form4 n (fun i j => S i j l) (fun i j => X i j + X j i).
Proof.
  intros HE Hl _ x n X N. unfold N, X, n in *. unfold get_cl_ordering in *. rewrite total_tracers_bins in *.
  apply (slice_form (n_bins probes) (fun i j => S i j l) (knox_norm ell f_sky l) (fun s t => el3 s3 s t l)).
  intros s t i j m k Hs Ht. now apply HE.
Qed.

Lemma covariance_psd ell probes sig noi f_sky S : cov_input ell probes sig noi ->
  spectra_of (get_cl_ordering probes) (madd sig noi) S ->
  (forall l, (l < length ell)%nat -> 0 < knox_norm ell f_sky l) ->
  (forall l, (l < length ell)%nat -> symf (n_bins probes) (fun i j => S i j l)) ->
  (forall l, (l < length ell)%nat -> psdf (n_bins probes) (fun i j => S i j l)) ->
  exists d m, gaussian_cl_covariance (Array1 ell) probes sig noi f_sky false = Ok (A2 d d m) /\ psd d m.
Proof.
  intros Hin HS Hn Hsy Hp.
  destruct (covariance_main ell probes sig noi f_sky S Hin HS) as (s3 & m2 & _ & Hw & H2 & -> & HE).
  exists (length ell * length (get_cl_ordering probes))%nat; eexists; split; [ exact H2 | ].
  intros x. rewrite Nat.mul_comm.
  rewrite (quad_dense _ _ s3 _ x Hw) by (now apply dense_of_denotes).
  apply Rsum_nonneg; intros l Hl.
  rewrite (el3_knox_slice ell probes sig noi f_sky S s3 l HE Hl Hin (fun s => x (s * length ell + l)%nat)).
  apply Rmult_le_pos.
  - left. apply Rinv_0_lt_compat. specialize (Hn l Hl). lra.
  - apply form4_nonneg; auto.
Qed.

Lemma covariance_pd ell probes sig noi f_sky S : cov_input ell probes sig noi ->
  spectra_of (get_cl_ordering probes) (madd sig noi) S ->
  (forall l, (l < length ell)%nat -> 0 < knox_norm ell f_sky l) ->
  (forall l, (l < length ell)%nat -> symf (n_bins probes) (fun i j => S i j l)) ->
  (forall l, (l < length ell)%nat -> pdf (n_bins probes) (fun i j => S i j l)) ->
  exists d m, gaussian_cl_covariance (Array1 ell) probes sig noi f_sky false = Ok (A2 d d m) /\ pos_def d m.
Proof.
  intros Hin HS Hn Hsy Hp.
  destruct (covariance_main ell probes sig noi f_sky S Hin HS) as (s3 & m2 & _ & Hw & H2 & -> & HE).
  exists (length ell * length (get_cl_ordering probes))%nat; eexists; split; [ exact H2 | ].
  intros x (r & Hr & Hx). rewrite Nat.mul_comm in *.
  rewrite (quad_dense _ _ s3 _ x Hw) by (now apply dense_of_denotes).
  destruct (mod_div_lt r _ _ Hr) as [Hd Hm].
  set (nl := length ell) in *.
  apply (Rsum_pos_one nl _ (r mod nl) Hm).
  - intros l Hl.
    rewrite (el3_knox_slice ell probes sig noi f_sky S s3 l HE Hl Hin (fun s => x (s * nl + l)%nat)).
    apply Rmult_le_pos.
    + left. apply Rinv_0_lt_compat. specialize (Hn l Hl). lra.
    + apply form4_nonneg; auto. apply pdf_psdf; auto.
  - rewrite (el3_knox_slice ell probes sig noi f_sky S s3 _ HE Hm Hin (fun s => x (s * nl + r mod nl)%nat)).
    apply Rmult_lt_0_compat.
    + apply Rinv_0_lt_compat. specialize (Hn _ Hm). lra.
    + apply form4_pos; auto.
      destruct (nth_error (get_cl_ordering probes) (r / nl)) as [[i j] | ] eqn:E.
      2:{ apply nth_error_None in E. lia. }
      assert (Hij : In (i, j) (get_cl_ordering probes)) by (eapply nth_error_In; eauto).
      apply (proj1 (ordering_spec probes)) in Hij.
      exists i, j. repeat split; try lia.
      assert (Ei : idx (n_bins probes) i j = (r / nl)%nat).
      { apply idx_ok. unfold get_cl_ordering in E. now rewrite total_tracers_bins in E. }
      assert (Hr' : (r / nl * nl + r mod nl)%nat = r)
        by (rewrite (Nat.mul_comm (r / nl)); symmetry; apply Nat.div_mod; lia).
      unfold tri. destruct (Nat.leb_spec i j); [ | lia ]. rewrite Ei, Hr'.
      destruct (Nat.leb_spec j i); [ | lra ].
      assert (i = j) by lia. subst j. rewrite Ei, Hr'. lra.
Qed.
