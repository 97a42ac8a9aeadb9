(** * Concrete cases for the forecast theorems *)
From Coquelicot Require Import Coquelicot.
From Verif Require Import Np NpLemmas Core Interp Background BgSpec BgFinal4 Transfer Power Redshift Bias Probes ProbesSpec Sparse SparseSpec DetSpec Likelihood LikelihoodSpec LikelihoodProofs ExLikelihood
  AngularCl CovSpec CovProofs CovPsd CovFinal AclSpec AclProofs AclFinal ExCov ExPower ExProbes Forecast Forecast2.
Opaque chi_table growth_table_ODE growth_table_gamma logspace.

(** adding the counts probe to the lensing probe: both calls return, so the equations assumed in the theorem hold *)
Lemma probes2_ok : probes_ok probes2.
Proof. split; [ discriminate | ]. intros p [<- | []]. exact (proj1 ex_probe_ok). Qed.
Lemma ex_C91 : (exists mean s3 mean' s3',
    gaussian_cl_covariance_and_mean Planck15 (Array1 ell3) probes2 eisenhu halofit_default 0.25 true = Ok (mean, A3 3 3 3 s3) /\
    gaussian_cl_covariance_and_mean Planck15 (Array1 ell3) (probes2 ++ [nc_ex]) eisenhu halofit_default 0.25 true = Ok (mean', A3 6 6 3 s3')) /\
  probes_ok probes2 /\ noise_total probes2 /\ probe_ok nc_ex /\ noise_total [nc_ex] /\ zmax_of (bins_of nc_ex) <= survey_zmax probes2 /\
  nth_error (get_cl_ordering probes2) 2 = Some (1, 1)%nat /\ nth_error (get_cl_ordering (probes2 ++ [nc_ex])) 3 = Some (1, 1)%nat.
Proof.
  destruct ex_kernels as (A & B & _ & _ & C). pose proof norm_3 as N.
  assert (T2 : noise_total probes2) by (intros p [<- | []]; eexists; split; reflexivity).
  assert (T1 : noise_total [nc_ex]) by (intros p [<- | []]; eexists; split; reflexivity).
  split.
  - destruct (mean_and_covariance Planck15 ell3 probes2 eisenhu halofit_default 0.25 A B probes2_ok T2 ltac:(simpl; lia) ltac:(intros l Hl; pose proof (N l Hl); lra)) as (sig & noi & mean & s3 & m2 & _ & _ & E3 & _).
    destruct (mean_and_covariance Planck15 ell3 probes3 eisenhu halofit_default 0.25 A B ex_probes_ok noise_total_3 ltac:(simpl; lia) ltac:(intros l Hl; pose proof (N l Hl); lra)) as (sig' & noi' & mean' & s3' & m2' & _ & _ & E3' & _).
    exists mean, s3, mean', s3'. split; [ exact E3 | exact E3' ].
  - split; [ exact probes2_ok | split; [ exact T2 | split; [ exact C | split; [ exact T1 | split; [ | split; reflexivity ]]]]].
    unfold survey_zmax, zmax_of, list_max; simpl. apply Rmax_r.
Qed.

(** the same lensing probe with half the galaxies *)
Definition wl_thin : probe := PWL (WL [nz_new (Smail 1 2 0.5) 5 3; nz_new (Delta 1) 10 2] (MList [0.1; 0.2]) None (SList [0.26; 0.3])).
Definition sig_pair (i j l : nat) : R :=
  match i, j with
  | O, O => el [4; 3; 2] l
  | S O, S O => el [5; 4; 3] l
  | _, _ => el [1; 1; 1] l
  end.
Lemma thin_noise i : (i < n_bins probes2)%nat -> 0 < tracer_noise probes2 i <= tracer_noise [wl_thin] i.
Proof.
  intros Hi. unfold tracer_noise. destruct i as [ | [ | i]]; [ | | cbn in Hi; exfalso; lia ]; simpl; unfold gals_per_steradian, steradian_to_arcmin2; simpl; unfold el; simpl; lra.
Qed.
Lemma sig_psd l : (l < length ell3)%nat -> psdf (n_bins probes2) (fun i j => sig_pair i j l).
Proof.
  intros Hl x. unfold quadf. change (n_bins probes2) with 2%nat. simpl Rsum.
  destruct l as [ | [ | [ | l]]]; try (simpl in Hl; lia); unfold sig_pair, el; simpl; nra.
Qed.
Lemma sig_spectra : spectra_of (get_cl_ordering probes2) sig3 sig_pair.
Proof.
  intros s i j l Hs.
  destruct s as [ | [ | [ | s]]]; simpl in Hs;
    [ injection Hs as <- <- | injection Hs as <- <- | injection Hs as <- <- | now destruct s ];
    split; unfold sig_pair, el2, el; simpl; destruct l as [ | [ | [ | l]]]; try lra; destruct l; reflexivity.
Qed.
Lemma ex_C93 : n_bins [wl_thin] = n_bins probes2 /\ noise_total probes2 /\ noise_total [wl_thin] /\
  (forall i, (i < n_bins probes2)%nat -> 0 < tracer_noise probes2 i <= tracer_noise [wl_thin] i) /\
  wf2 (length (get_cl_ordering probes2)) (length ell3) sig3 /\ spectra_of (get_cl_ordering probes2) sig3 sig_pair /\
  (forall l, (l < length ell3)%nat -> psdf (n_bins probes2) (fun i j => sig_pair i j l)) /\
  (forall l, (l < length ell3)%nat -> 0 < knox_norm ell3 0.25 l) /\
  (exists noi noi', noise_cl (length ell3) probes2 = Ok noi /\ noise_cl (length ell3) [wl_thin] = Ok noi') /\ linalg_ok la_mx.
Proof.
  assert (T2 : noise_total probes2) by (intros p [<- | []]; eexists; split; reflexivity).
  assert (T1 : noise_total [wl_thin]) by (intros p [<- | []]; eexists; split; reflexivity).
  split; [ reflexivity | split; [ exact T2 | split; [ exact T1 | split; [ exact thin_noise | split; [ apply cov_input_3 | split; [ exact sig_spectra | split; [ exact sig_psd | split; [ exact norm_3 | split ]]]]]]]].
  - destruct (noise_cl_spec _ (length ell3) T2) as (n1 & E1 & _). destruct (noise_cl_spec _ (length ell3) T1) as (n2 & E2 & _). exists n1, n2. auto.
  - exact la_mx_ok.
Qed.

Lemma ex_C94 : exists mean sp, gaussian_cl_covariance_and_mean Planck15 (Array1 ell3) probes3 eisenhu halofit_default 0.25 true = Ok (mean, sp) /\
  gaussian_log_likelihood la_mx mean mean sp false "inverse" = Ok 0.
Proof.
  destruct ex_C25 as (A & B & C & Z & S).
  destruct (forecast_likelihood la_mx Planck15 ell3 probes3 eisenhu halofit_default 0.25 la_mx_ok A B C ex_noise_pos Z) as (mean & sp & de & E1 & _ & H).
  - intros l a Hl _. apply halofit_default_nonneg; [ exact S | now apply ell3_nonneg ].
  - simpl. lia.
  - exact norm_3.
  - exists mean, sp. split; [ exact E1 | ]. destruct (H mean false "inverse"%string eq_refl) as (v & V1 & _ & _ & V2). destruct (V2 eq_refl) as [_ [_ V3]]. now rewrite (V3 eq_refl) in V1.
Qed.
