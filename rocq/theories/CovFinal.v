(** * Covariance: the statements used by the property file *)
From Verif Require Import Np NpLemmas Interp Redshift Bias Probes Sparse SparseSpec SparseProofs AngularCl CovSpec
  CovProofs CovPsd.

Lemma ordering_row probes s : (s < length (get_cl_ordering probes))%nat ->
  exists i j, nth_error (get_cl_ordering probes) s = Some (i, j) /\ (i <= j < n_bins probes)%nat.
Proof.
  intros Hs. destruct (nth_error (get_cl_ordering probes) s) as [[i j] | ] eqn:E.
  - exists i, j; split; [ reflexivity | ]. apply (proj1 (ordering_spec probes)). eapply nth_error_In; eauto.
  - apply nth_error_None in E. lia.
Qed.

(** C18 *)
Lemma covariance_knox ell probes sig noi f_sky S : cov_input ell probes sig noi ->
  spectra_of (get_cl_ordering probes) (madd sig noi) S ->
  (forall l, (l < length ell)%nat -> knox_norm ell f_sky l <> 0) ->
  let ord := get_cl_ordering probes in let N := length ord in let n := length ell in
  exists s3 m2,
    gaussian_cl_covariance (Array1 ell) probes sig noi f_sky true = Ok (A3 N N n s3) /\ wf3 N N n s3 /\
    gaussian_cl_covariance (Array1 ell) probes sig noi f_sky false = Ok (A2 (n * N) (n * N) m2) /\
    wf2 (n * N) (n * N) m2 /\
    forall s t i j m k l l', nth_error ord s = Some (i, j) -> nth_error ord t = Some (m, k) ->
      (l < n)%nat -> (l' < n)%nat ->
      el3 s3 s t l = knox S ell f_sky i j m k l /\
      el2 m2 (s * n + l) (t * n + l') = if Nat.eqb l l' then knox S ell f_sky i j m k l else 0.
Proof.
  intros Hin HS _ ord N n.
  destruct (covariance_main ell probes sig noi f_sky S Hin HS) as (s3 & m2 & H1 & Hw & H2 & -> & HE).
  exists s3, (dense_of (length ell) s3). fold ord in H1, Hw, H2, HE. fold N in H1, Hw, H2. fold n in H1, Hw, H2, HE |- *.
  destruct (dense_of_denotes _ _ _ _ Hw) as [Hwd Hd].
  split; [ exact H1 | split; [ exact Hw | split; [ exact H2 | split ]]].
  - rewrite Nat.mul_comm. exact Hwd.
  - intros s t i j m k l l' Hs Ht Hl Hl'. split; [ now apply HE | ].
    assert (Ls : (s < N)%nat) by (apply nth_error_Some; congruence).
    assert (Lt : (t < N)%nat) by (apply nth_error_Some; congruence).
    rewrite Hd by nia. unfold dense_entry.
    replace ((s * n + l) mod n)%nat with l by (rewrite Nat.add_comm, Nat.mod_add by lia; now rewrite Nat.mod_small).
    replace ((t * n + l') mod n)%nat with l' by (rewrite Nat.add_comm, Nat.mod_add by lia; now rewrite Nat.mod_small).
    replace ((s * n + l) / n)%nat with s by (rewrite Nat.div_add_l by lia; rewrite Nat.div_small by lia; lia).
    replace ((t * n + l') / n)%nat with t by (rewrite Nat.div_add_l by lia; rewrite Nat.div_small by lia; lia).
    rewrite (HE s t i j m k l) by assumption. reflexivity.
Qed.

Lemma spectra_exist probes rows : exists S, spectra_of (get_cl_ordering probes) rows S.
Proof. exists (obs_of (total_tracers probes) rows). apply obs_of_ok. Qed.

(** C19 *)
Lemma covariance_sparse_dense ell probes sig noi f_sky : cov_input ell probes sig noi ->
  (forall l, (l < length ell)%nat -> knox_norm ell f_sky l <> 0) ->
  exists s d, gaussian_cl_covariance (Array1 ell) probes sig noi f_sky true = Ok s /\
              gaussian_cl_covariance (Array1 ell) probes sig noi f_sky false = Ok d /\
              to_dense s = Ok d.
Proof.
  intros Hin _. destruct (spectra_exist probes (madd sig noi)) as [S HS].
  destruct (covariance_main ell probes sig noi f_sky S Hin HS) as (s3 & m2 & H1 & Hw & H2 & -> & _).
  do 2 eexists. split; [ exact H1 | split; [ exact H2 | ]].
  simpl. now rewrite !(Nat.mul_comm (length ell)).
Qed.

(** every pair of tracers has its spectrum, symmetric in the pair *)
Lemma spectra_sym probes rows S a b l : spectra_of (get_cl_ordering probes) rows S ->
  (a < n_bins probes)%nat -> (b < n_bins probes)%nat -> S a b l = S b a l.
Proof.
  intros HS Ha Hb. destruct (ordering_spec probes) as [Hin _].
  destruct (Nat.le_ge_cases a b) as [H | H].
  - destruct (In_nth_error _ _ (proj2 (Hin a b) (conj H Hb))) as [s Hs].
    destruct (HS s a b l Hs) as [-> ->]. reflexivity.
  - destruct (In_nth_error _ _ (proj2 (Hin b a) (conj H Ha))) as [s Hs].
    destruct (HS s b a l Hs) as [-> ->]. reflexivity.
Qed.

(** C20 *)
Lemma covariance_symmetric ell probes sig noi f_sky : cov_input ell probes sig noi ->
  (forall l, (l < length ell)%nat -> knox_norm ell f_sky l <> 0) ->
  let N := length (get_cl_ordering probes) in let n := length ell in
  exists s3 m2,
    gaussian_cl_covariance (Array1 ell) probes sig noi f_sky true = Ok (A3 N N n s3) /\
    (forall s t l, (s < N)%nat -> (t < N)%nat -> (l < n)%nat -> el3 s3 s t l = el3 s3 t s l) /\
    gaussian_cl_covariance (Array1 ell) probes sig noi f_sky false = Ok (A2 (n * N) (n * N) m2) /\
    symmetric (n * N) m2.
Proof.
  intros Hin _ N n. destruct (spectra_exist probes (madd sig noi)) as [S HS].
  destruct (covariance_main ell probes sig noi f_sky S Hin HS) as (s3 & m2 & H1 & Hw & H2 & -> & HE).
  exists s3, (dense_of n s3). fold N in H1, H2, Hw. fold n in H1, H2, Hw, HE.
  assert (Hsym : forall s t l, (s < N)%nat -> (t < N)%nat -> (l < n)%nat -> el3 s3 s t l = el3 s3 t s l).
  { intros s t l Hs Ht Hl. destruct (ordering_row probes s Hs) as (i & j & Es & Hij).
    destruct (ordering_row probes t Ht) as (m & k & Et & Hmk).
    rewrite (HE s t i j m k l), (HE t s m k i j l) by assumption. unfold knox. f_equal.
    rewrite (spectra_sym probes _ S m i l HS), (spectra_sym probes _ S k j l HS),
      (spectra_sym probes _ S m j l HS), (spectra_sym probes _ S k i l HS) by lia. ring. }
  split; [ exact H1 | split; [ exact Hsym | split; [ exact H2 | ]]].
  destruct (dense_of_denotes _ _ _ _ Hw) as [_ Hd].
  intros r q Hr Hq. rewrite Nat.mul_comm in Hr, Hq. rewrite !Hd by assumption. unfold dense_entry.
  rewrite (Nat.eqb_sym (q mod n)). destruct (Nat.eqb_spec (r mod n) (q mod n)) as [E | E]; [ | reflexivity ].
  rewrite <- E. destruct (mod_div_lt r N n Hr). destruct (mod_div_lt q N n Hq). now apply Hsym.
Qed.

(** C23 *)
Lemma knox_scale S ell f t i j m k l : knox S ell (t * f) i j m k l = knox S ell f i j m k l / t.
Proof.
  unfold knox, knox_norm. replace ((2 * el ell l + 1) * spacing ell l * (t * f))
    with ((2 * el ell l + 1) * spacing ell l * f * t) by ring.
  unfold Rdiv. rewrite Rinv_mult. ring.
Qed.

Lemma covariance_fsky ell probes sig noi f_sky t : cov_input ell probes sig noi -> t <> 0 ->
  (forall l, (l < length ell)%nat -> knox_norm ell f_sky l <> 0) ->
  let N := length (get_cl_ordering probes) in let n := length ell in
  exists s3 s3',
    gaussian_cl_covariance (Array1 ell) probes sig noi f_sky true = Ok (A3 N N n s3) /\
    gaussian_cl_covariance (Array1 ell) probes sig noi (t * f_sky) true = Ok (A3 N N n s3') /\
    forall s u l, (s < N)%nat -> (u < N)%nat -> (l < n)%nat -> el3 s3' s u l = el3 s3 s u l / t.
Proof.
  intros Hin _ _ N n. destruct (spectra_exist probes (madd sig noi)) as [S HS].
  destruct (covariance_main ell probes sig noi f_sky S Hin HS) as (s3 & m2 & H1 & _ & _ & _ & HE).
  destruct (covariance_main ell probes sig noi (t * f_sky) S Hin HS) as (s3' & m2' & H1' & _ & _ & _ & HE').
  exists s3, s3'. split; [ exact H1 | split; [ exact H1' | ]].
  intros s u l Hs Hu Hl. destruct (ordering_row probes s Hs) as (i & j & Es & Hij).
  destruct (ordering_row probes u Hu) as (m & k & Eu & Hmk).
  rewrite (HE s u i j m k l), (HE' s u i j m k l) by assumption. apply knox_scale.
Qed.

(** C22 *)
Lemma covariance_one_multipole ell l probes sig noi f_sky sparse : ell = Scalar l \/ ell = Array1 [l] ->
  gaussian_cl_covariance ell probes sig noi f_sky sparse = Err ValueError.
Proof. intros [-> | ->]; [ rewrite covariance_scalar | ]; apply covariance_single. Qed.
