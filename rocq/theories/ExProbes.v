(** * Concrete cases for PropsProbes and PropsAcl *)
From Coq Require Import Permutation.
From Coquelicot Require Import Coquelicot.
From Verif Require Import Np NpLemmas Core Integrate IntegrateSpec Interp Background BgSpec BgPositive BgProofs BgFinal BgFinal2 BgFinal4 Transfer Power PowerFinal
  Redshift RedshiftSpec Bias Probes ProbesSpec ProbesProofs ProbesFinal Sparse SparseSpec AngularCl CovSpec CovProofs CovFinal ExCov ExPower ExRedshift AclSpec AclProofs AclFinal.
Opaque chi_table growth_table_ODE growth_table_gamma logspace.

(** a lensing probe with intrinsic alignments and one with a delta bin *)
Definition wl_ia_ex : probe := PWL (WL [bin1; bin1] (MList [0.1; 0.2]) (Some (OneBias (des_y1_ia_bias 1 2 0.62))) (SScalar 0.26)).
Lemma ex_probe_ok : probe_ok wl_ex /\ probe_ok wl_ia_ex /\ probe_ok nc_ex.
Proof.
  assert (N1 : no_delta [bin1; bin1]) by (intros d [<- | [<- | []]]; reflexivity).
  assert (N2 : no_delta [bin1]) by (intros d [<- | []]; reflexivity).
  unfold probe_ok, wl_ex, wl_ia_ex, nc_ex; simpl. repeat split; try discriminate; try exact N1; exact N2.
Qed.
Lemma ex_kernels : reachable Planck15 /\ _gamma_growth Planck15 = false /\ probe_ok wl_ex /\ probe_ok wl_ia_ex /\ probe_ok nc_ex.
Proof. destruct planck_ok as (A & _ & _ & _ & B). exact (conj A (conj B ex_probe_ok)). Qed.

Lemma ex_C74 : exists rows, weak_lensing_kernel Planck15 [bin2; bin1] [0.5; 1.5] 100 = Ok rows /\
  nth 0 rows [] = map (lensing Planck15 (zmax_of [bin2; bin1]) bin2 100) [0.5; 1.5].
Proof.
  destruct ex_kernels as (A & B & _). destruct (lensing_order Planck15 [bin2; bin1] [0.5; 1.5] 100 0 A B ltac:(simpl; lia)) as (r & H1 & _ & H3). eauto.
Qed.
Lemma ex_C75 : reachable Planck15 /\ expanding Planck15 /\ _gamma_growth Planck15 = false /\ 0 <= Omega_m Planck15 /\
  (forall d, In d [bin1; bin2] -> -1 < nz_zmax d) /\ (forall z', 0.5 <= z' <= 3 -> 0 <= nz_density bin1 z') /\ nz_fam bin2 = Delta 1.
Proof.
  destruct planck_ok as (A & _ & _ & E & B). split; [ exact A | split; [ exact E | split; [ exact B | split; [ | split; [ | split ]]]]].
  - unfold Omega_m, Planck15, make_cosmology; simpl; lra.
  - intros d [<- | [<- | []]]; simpl; lra.
  - intros z' _. unfold nz_density, bin1. change (nz_fam (nz_new (Smail 1 2 0.5) 10 3)) with (Smail 1 2 0.5). cbv beta iota.
    apply Rdiv_le_0_compat; [ apply smail_nonneg | apply smail_norm_pos; simpl; lra ].
  - reflexivity.
Qed.
Lemma ex_C77 : exists v, noise wl_ex = Ok v /\ el v 1 = 0.3 ^ 2 / (20 * 11818102.86004228) /\ 0 < el v 1.
Proof.
  destruct (noise_values wl_ex eq_refl) as (v & E & _ & V). destruct (V 1%nat ltac:(simpl; lia)) as [V1 V2]. exists v. split; [ exact E | split ].
  - exact V1.
  - apply V2; [ simpl; lra | simpl; unfold el; simpl; lra ].
Qed.
Lemma ex_C78 : density_kernel Planck15 [bin1; bin2] (OneBias (constant_linear_bias 1)) [1] 10 = Err NotImplementedError /\
  density_kernel Planck15 [bin1] (OneBias (constant_linear_bias 1)) [1] 10 <> Err NotImplementedError.
Proof.
  destruct ex_kernels as (_ & B & _). split.
  - apply (proj1 (delta_rejected Planck15 [bin1; bin2] (OneBias (constant_linear_bias 1)) [1] 10 B)). exists bin2. split; [ right; now left | reflexivity ].
  - intros H. apply (proj1 (delta_rejected Planck15 [bin1] (OneBias (constant_linear_bias 1)) [1] 10 B)) in H. destruct H as (b & [<- | []] & Hb). discriminate.
Qed.
Lemma ex_C80 : probe_zmax wl_ex = Ok 3.
Proof.
  destruct (probe_zmax_spec wl_ex ltac:(discriminate)) as (zm & E & (d & Hd & Ed) & U). rewrite E. f_equal.
  pose proof (U bin1 ltac:(now left)) as H. simpl in H. destruct Hd as [<- | [<- | []]]; simpl in Ed; lra.
Qed.
Lemma ex_C82 : D Planck15 (1 / (1 + 0)) <> 0 /\ reachable Planck15 /\ physical Planck15 /\ moderate Planck15.
Proof.
  destruct planck_ok as (A & B & C & _). split; [ | exact (conj A (conj B C)) ]. replace (1 / (1 + 0)) with 1 by field.
  rewrite growth_one; [ lra | exact A | right; now split ].
Qed.

Lemma ex_probes_ok : probes_ok probes3.
Proof. split; [ discriminate | ]. destruct ex_probe_ok as (A & _ & C). intros p [<- | [<- | []]]; assumption. Qed.
Lemma ex_C24 : reachable Planck15 /\ _gamma_growth Planck15 = false /\ probes_ok probes3 /\ Permutation probes3 [nc_ex; wl_ex] /\
  tracer probes3 2 = tracer [nc_ex; wl_ex] 0.
Proof. destruct ex_kernels as (A & B & _). split; [ exact A | split; [ exact B | split; [ exact ex_probes_ok | split; [ apply perm_swap | reflexivity ]]]]. Qed.
Lemma ex_zmax p d : In p probes3 -> In d (bins_of p) -> 0 <= nz_zmax d.
Proof. intros [<- | [<- | []]]; [ intros [<- | [<- | []]]; simpl; lra | intros [<- | []]; simpl; lra ]. Qed.
Lemma ex_noise_pos : noise_positive probes3.
Proof.
  apply noise_positive_suff. intros p [<- | [<- | []]]; split; try exact I.
  - intros d [<- | [<- | []]]; simpl; lra.
  - split; [ reflexivity | ]. intros [ | [ | k]] Hk; simpl in Hk |- *; unfold el; simpl; try lra; lia.
  - intros d [<- | []]; simpl; lra.
Qed.
Lemma ex_C25 : reachable Planck15 /\ _gamma_growth Planck15 = false /\ probes_ok probes3 /\
  (forall p d, In p probes3 -> In d (bins_of p) -> 0 <= nz_zmax d) /\ sigmasqr_default Planck15 8.0 eisenhu <> 0.
Proof. destruct ex_C24 as (A & B & C & _). exact (conj A (conj B (conj C (conj ex_zmax planck_sigma)))). Qed.
Lemma ex_C26 : probes_ok probes3 /\ noise_total probes3 /\ noise_positive probes3 /\ forall l, (l < length ell3)%nat -> knox_norm ell3 0.25 l <> 0.
Proof. split; [ exact ex_probes_ok | split; [ exact noise_total_3 | split; [ exact ex_noise_pos | ]]]. intros l Hl. pose proof (norm_3 l Hl). lra. Qed.
Lemma ell3_nonneg l : (l < length ell3)%nat -> 0 <= el ell3 l.
Proof. intros Hl. destruct l as [ | [ | [ | l]]]; simpl in Hl; unfold el; simpl; try lra; lia. Qed.
Lemma ex_C83 : exists mean d m, gaussian_cl_covariance_and_mean Planck15 (Array1 ell3) probes3 eisenhu halofit_default 0.25 false = Ok (mean, A2 d d m) /\
  length mean = d /\ symmetric d m /\ pos_def d m.
Proof.
  destruct ex_C25 as (A & B & C & Z & S). apply covariance_end_to_end; try assumption.
  - exact ex_noise_pos.
  - intros l a Hl _. apply halofit_default_nonneg; [ exact S | now apply ell3_nonneg ].
  - simpl. lia.
  - exact norm_3.
Qed.
