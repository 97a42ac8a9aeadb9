(** * Concrete cases for the covariance theorems *)
From Verif Require Import Np NpLemmas Interp Redshift Bias Probes Sparse SparseSpec AngularCl CovSpec CovProofs CovFinal.

Definition bin1 : nz := nz_new (Smail 1 2 0.5) 10 3.
Definition bin2 : nz := nz_new (Delta 1) 20 2.
(** a lensing probe with an extended and a delta bin, and a counts probe with one bin *)
Definition wl_ex : probe := PWL (WL [bin1; bin2] (MList [0.1; 0.2]) None (SList [0.26; 0.3])).
Definition nc_ex : probe := PNC (NC [bin1] (OneBias (constant_linear_bias 1.5))).
Definition probes3 : list probe := [wl_ex; nc_ex].
Definition probes2 : list probe := [wl_ex].

Lemma ex_C15 : get_cl_ordering probes3 = [(0,0); (0,1); (0,2); (1,1); (1,2); (2,2)]%nat.
Proof. reflexivity. Qed.

Lemma ex_C16 : exists bl, get_cov_blocks_ordering probes2 = Ok bl /\ nth_error bl (1 * 3 + 2) = Some (1, 2, 1, 2)%nat.
Proof. eexists; split; reflexivity. Qed.

Lemma noise_total_3 : noise_total probes3.
Proof.
  intros p [<- | [<- | []]]; eexists; split; reflexivity.
Qed.
Lemma ex_C17 : noise_total probes3 /\ tracer probes3 2 = Some (nc_ex, 0%nat) /\ tracer probes3 1 = Some (wl_ex, 1%nat).
Proof. split; [ exact noise_total_3 | split; reflexivity ]. Qed.

Definition ell3 : list R := [10; 20; 40].
Definition sig3 : list (list R) := [[4; 3; 2]; [1; 1; 1]; [5; 4; 3]].
Definition noi3 : list (list R) := [[1; 1; 1]; [0; 0; 0]; [2; 2; 2]].
Definition S3 (i j l : nat) : R :=
  match i, j with
  | O, O => el [5; 4; 3] l
  | S O, S O => el [7; 6; 5] l
  | _, _ => el [1; 1; 1] l
  end.

Lemma cov_input_3 : cov_input ell3 probes2 sig3 noi3.
Proof.
  split; [ simpl; lia | ].
  split; (split; [ reflexivity | intros row Hr; simpl in Hr; decompose [or] Hr; subst; try contradiction; reflexivity ]).
Qed.
Lemma spectra_3 : spectra_of (get_cl_ordering probes2) (madd sig3 noi3) S3.
Proof.
  intros s i j l Hs.
  destruct s as [ | [ | [ | s]]]; simpl in Hs;
    [ injection Hs as <- <- | injection Hs as <- <- | injection Hs as <- <- | now destruct s ];
    split; unfold S3, el2, el; simpl; destruct l as [ | [ | [ | l]]]; try lra; destruct l; reflexivity.
Qed.
Lemma norm_3 l : (l < length ell3)%nat -> 0 < knox_norm ell3 0.25 l.
Proof.
  intros Hl. destruct l as [ | [ | [ | l]]]; try (simpl in Hl; lia);
    unfold knox_norm, spacing, el; simpl; lra.
Qed.
Lemma sym_3 l : (l < length ell3)%nat -> symf (n_bins probes2) (fun i j => S3 i j l).
Proof.
  intros _ i j Hi Hj. destruct i as [ | [ | i]], j as [ | [ | j]]; try reflexivity;
    cbn in Hi, Hj; exfalso; lia.
Qed.
Lemma pd_form a b p q : 1 <= a -> 2 <= b -> (p <> 0 \/ q <> 0) ->
  0 < 0 + (0 + p * a * p + p * 1 * q) + (0 + q * 1 * p + q * b * q).
Proof.
  intros Ha Hb H.
  assert (E : 0 < (p + q) * (p + q) + q * q).
  { destruct (Req_dec q 0) as [-> | Hq].
    - destruct H as [H | H]; [ | now contradiction H ]. assert (0 < p * p) by nra. nra.
    - assert (0 < q * q) by nra. nra. }
  nra.
Qed.
Lemma pd_3 l : (l < length ell3)%nat -> pdf (n_bins probes2) (fun i j => S3 i j l).
Proof.
  intros Hl x (i & Hi & Hx). unfold quadf. change (n_bins probes2) with 2%nat in *.
  simpl Rsum.
  assert (H : x 0%nat <> 0 \/ x 1%nat <> 0)
    by (destruct i as [ | [ | i]]; [ now left | now right | lia ]).
  destruct l as [ | [ | [ | l]]]; try (simpl in Hl; lia); unfold S3, el; simpl; apply pd_form; auto; lra.
Qed.

Lemma ex_C18 : cov_input ell3 probes2 sig3 noi3 /\ spectra_of (get_cl_ordering probes2) (madd sig3 noi3) S3 /\
  (forall l, (l < length ell3)%nat -> knox_norm ell3 0.25 l <> 0) /\
  knox S3 ell3 0.25 0 1 1 1 0 = 7 * 1 * 2 / (21 * 10 * 0.25).
Proof.
  split; [ exact cov_input_3 | split; [ exact spectra_3 | split ]].
  - intros l Hl. pose proof (norm_3 l Hl). lra.
  - unfold knox, knox_norm, spacing, S3, el, ell3; simpl. replace (2 * 10 + 1) with 21 by ring.
    replace (20 - 10) with 10 by ring. f_equal; ring.
Qed.

Lemma ex_C21 : cov_input ell3 probes2 sig3 noi3 /\ spectra_of (get_cl_ordering probes2) (madd sig3 noi3) S3 /\
  (forall l, (l < length ell3)%nat -> 0 < knox_norm ell3 0.25 l) /\
  (forall l, (l < length ell3)%nat -> pdf (n_bins probes2) (fun i j => S3 i j l)).
Proof. split; [ exact cov_input_3 | split; [ exact spectra_3 | split; [ exact norm_3 | exact pd_3 ]]]. Qed.

(** C22: a non-trivial single-multipole input with matching shapes *)
Lemma C22_witness : exists ell probes sig noi f_sky sparse,
  wf2 (length (get_cl_ordering probes)) (length (atleast_1d ell)) sig /\
  wf2 (length (get_cl_ordering probes)) (length (atleast_1d ell)) noi /\ length (atleast_1d ell) = 1%nat /\
  0 < f_sky /\ ~ exists cov, gaussian_cl_covariance ell probes sig noi f_sky sparse = Ok cov.
Proof.
  exists (Scalar 10), probes2, [[4]; [1]; [5]], [[1]; [0]; [2]], 0.25, true.
  split; [ | split; [ | split; [ reflexivity | split; [ lra | ]]]].
  1, 2: split; [ reflexivity | intros row Hr; simpl in Hr; decompose [or] Hr; subst; try contradiction; reflexivity ].
  intros [cov Hc]. rewrite (covariance_one_multipole _ 10) in Hc by (now left). discriminate.
Qed.
