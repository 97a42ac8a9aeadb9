(** * Concrete cases for the scaling, limit and dependence theorems *)
From Coquelicot Require Import Coquelicot.
From Verif Require Import Np NpLemmas Core Interp Background BgSpec DependsSpec BgDepends BgFinal BgFinal4 Transfer TransferProofs Power PowerSpec PowerProofs PowerFinal Redshift Bias Probes ProbesSpec Sparse SparseSpec SparseProofs DetSpec MxBridge SparseXProofs DetProofs2 ExSparse SparseLaws
  AngularCl CovSpec CovProofs AclSpec AclProofs AclFinal ExCov ExPower ExProbes AmpScale HalofitLimit SourceOrder.
Opaque chi_table growth_table_ODE growth_table_gamma logspace hf_sigma.

(** Planck15 with a larger sigma8, and with a different h, tilt, sigma8 and baryon fraction *)
Definition planck_s8 : cosmology := make_cosmology 0.2589 0.04860 0.6774 0.9667 0.9 0.0 (-1.0) 0.0 None.
Definition planck_other : cosmology := make_cosmology 0.2675 0.04 0.7 0.95 0.9 0.0 (-1.0) 0.0 None.

Lemma ex_C92_power : exists rows rows', angular_cl Planck15 (Array1 ell3) probes3 eisenhu halofit_default = Ok rows /\
  angular_cl Planck15 (Array1 ell3) probes3 eisenhu (fun c k a T => 2 * halofit_default c k a T) = Ok rows' /\ el2 rows' 4 2 = 2 * el2 rows 4 2.
Proof.
  destruct ex_C24 as (A & B & C & _). destruct (angular_pairs Planck15 ell3 probes3 eisenhu halofit_default A B C) as (r & E & _).
  destruct (angular_pairs Planck15 ell3 probes3 eisenhu (fun c k a T => 2 * halofit_default c k a T) A B C) as (r' & E' & _). exists r, r'. split; [ exact E | split; [ exact E' | ]].
  apply (power_scaling Planck15 ell3 probes3 eisenhu halofit_default (fun c k a T => 2 * halofit_default c k a T) 2 r r' A B C); auto; simpl; lia.
Qed.
(** counts-counts, counts-lensing and lensing-lensing rows when the galaxy bias is doubled *)
Lemma ex_C92_bias : exists rows rows', angular_cl Planck15 (Array1 ell3) [wl_ex; PNC (NC [bin1] (OneBias (constant_linear_bias 1.5)))] eisenhu halofit_default = Ok rows /\
  angular_cl Planck15 (Array1 ell3) [wl_ex; PNC (NC [bin1] (OneBias (constant_linear_bias (2 * 1.5))))] eisenhu halofit_default = Ok rows' /\
  el2 rows' 5 0 = 4 * el2 rows 5 0 /\ el2 rows' 4 0 = 2 * el2 rows 4 0 /\ el2 rows' 3 0 = el2 rows 3 0.
Proof.
  destruct ex_C24 as (A & B & C & _). destruct (angular_pairs Planck15 ell3 probes3 eisenhu halofit_default A B C) as (r & E & _).
  assert (C' : probes_ok [wl_ex; PNC (NC [bin1] (OneBias (constant_linear_bias (2 * 1.5))))]).
  { split; [ discriminate | ]. destruct ex_probe_ok as (P & _ & Q). intros p [<- | [<- | []]]; [ exact P | exact Q ]. }
  destruct (angular_pairs Planck15 ell3 _ eisenhu halofit_default A B C') as (r' & E' & _). exists r, r'. split; [ exact E | split; [ exact E' | ]].
  pose proof (bias_scaling Planck15 ell3 [wl_ex] [] [bin1] 1.5 2 eisenhu halofit_default r r' A B C E E') as V.
  assert (F0 : bin_factor [wl_ex] 1 2 2 = 2) by reflexivity. assert (F1 : bin_factor [wl_ex] 1 2 1 = 1) by reflexivity.
  rewrite (V 5%nat 2%nat 2%nat 0%nat eq_refl ltac:(simpl; lia)), (V 4%nat 1%nat 2%nat 0%nat eq_refl ltac:(simpl; lia)), (V 3%nat 1%nat 1%nat 0%nat eq_refl ltac:(simpl; lia)).
  simpl length. rewrite F0, F1. repeat split; ring.
Qed.
Lemma ex_C92_sigma8 : reachable Planck15 /\ reachable planck_s8 /\ same_but_sigma8 Planck15 planck_s8 /\ _sigma8 Planck15 <> _sigma8 planck_s8 /\
  (forall k, eisenhu Planck15 k = eisenhu planck_s8 k) /\ exists rows', angular_cl planck_s8 (Array1 ell3) probes3 eisenhu linear = Ok rows'.
Proof.
  destruct ex_C24 as (A & B & C & _). assert (R8 : reachable planck_s8) by (apply fresh_reachable; split; reflexivity).
  split; [ exact A | split; [ exact R8 | split; [ repeat split | split; [ simpl; lra | split ]]]].
  - intros k. now apply eisenhu_depends.
  - destruct (angular_pairs planck_s8 ell3 probes3 eisenhu linear R8 eq_refl C) as (r & E & _). eauto.
Qed.

Lemma ex_C95 : linv_ok linv_mx /\ wf3 2 2 1 swapmat /\ slices_invertible 2 1 swapmat /\ wf3 2 2 1 [[[2]; [1]]; [[1]; [3]]] /\ slices_invertible 2 1 [[[2]; [1]]; [[1]; [3]]] /\ wf1 (2 * 1) [7; 8].
Proof.
  destruct ex_C08 as (_ & W & I). split; [ apply linv_mx_ok | split; [ exact W | split; [ exact I | ]]]. destruct ex_C09 as (W2 & _ & PD & _).
  split; [ exact W2 | split; [ | reflexivity ]]. intros k Hk. exists [[2; 1]; [1; 3]]. split.
  - split; [ split; [ reflexivity | intros row [<- | [<- | []]]; reflexivity ] | ]. intros i j Hi Hj. replace k with 0%nat by lia.
    destruct i as [ | [ | i]]; [ | | lia ]; (destruct j as [ | [ | j]]; [ | | lia ]); reflexivity.
  - exact (pos_def_invertible PD).
Qed.

Lemma ex_C96 : 0 < Omega_m_a Planck15 1 <= 1 /\ -3 < _n_s Planck15 < 1 /\ D Planck15 1 <> 0 /\ _sigma8 Planck15 <> 0 /\ 0 < sigmasqr_default Planck15 8.0 eisenhu /\
  (forall k, 0 < k -> eisenhu Planck15 k <> 0) /\ filterlim (eisenhu Planck15) (at_right 0) (locally 1) /\
  filterlim (fun k => halofit_default Planck15 k 1 eisenhu / linear_matter_power Planck15 k 1 eisenhu) (at_right 0) (locally 1).
Proof.
  destruct ex_planck_alpha as [Dn Al]. destruct planck_ok as (A & B & C & _).
  assert (H1 : 0 < Omega_m_a Planck15 1 <= 1).
  { unfold Omega_m_a, Esqr, Omega_m, Omega_k, Omega_de, Omega, Omega_m, f_de, Planck15, make_cosmology; simpl. rewrite ln_1.
    replace (-3.0 * (1.0 + -1.0 + 0.0) * 0 + 3.0 * 0.0 * (1 - 1.0)) with 0 by lra. rewrite exp_0. replace (1 * (1 * (1 * 1))) with 1 by ring. replace (1 * (1 * 1)) with 1 by ring. rewrite !Rinv_1.
    match goal with |- 0 < ?x / ?y <= 1 => replace y with 1 by lra; lra end. }
  assert (H3 : D Planck15 1 <> 0) by (rewrite growth_one; [ lra | exact A | right; now split ]).
  assert (H6 : forall k, 0 < k -> eisenhu Planck15 k <> 0) by (intros k Hk; pose proof (eisenhu_range Planck15 k Dn Al ltac:(lra)); lra).
  assert (H5 : 0 < sigmasqr_default Planck15 8.0 eisenhu) by (apply sigma8_positive, H6, exp_pos).
  assert (H7 : filterlim (eisenhu Planck15) (at_right 0) (locally 1)) by exact (eisenhu_lim Planck15 Dn).
  assert (H2 : -3 < _n_s Planck15 < 1) by (simpl; lra). assert (H4 : _sigma8 Planck15 <> 0) by (simpl; lra).
  repeat (split; [ assumption | ]). exact (proj1 (halofit_large_scales Planck15 1 eisenhu H1 H2 H3 H4 H5 H6 H7)).
Qed.

Definition near : nz := nz_new (Delta 1) 20 2.
Definition far : nz := nz_new (Delta 1.5) 20 2.
Lemma ex_C97 : exists rows, angular_cl Planck15 (Array1 ell3) [PWL (WL [near; far] (MScalar 0.1) None (SScalar 0.26))] eisenhu halofit_default = Ok rows /\
  0 <= el2 rows 0 1 <= el2 rows 1 1 /\ el2 rows 1 1 <= el2 rows 2 1.
Proof.
  destruct ex_C25 as (A & B & _ & _ & S). destruct planck_ok as (_ & _ & _ & HE & _). set (p := PWL (WL [near; far] (MScalar 0.1) None (SScalar 0.26))).
  assert (Hok : probes_ok [p]) by (split; [ discriminate | intros q [<- | []]; split; [ discriminate | split; exact I ]]).
  destruct (angular_pairs Planck15 ell3 [p] eisenhu halofit_default A B Hok) as (r & E & _). exists r. split; [ exact E | ].
  assert (V := spectrum_source_order Planck15 ell3 [near; far] 0.1 (SScalar 0.26) eisenhu halofit_default r A HE B).
  specialize (V ltac:(unfold Omega_m, Planck15, make_cosmology; simpl; lra) ltac:(discriminate)).
  specialize (V ltac:(intros d [<- | [<- | []]]; eexists; (split; [ reflexivity | lra ]))).
  specialize (V ltac:(intros d [<- | [<- | []]]; simpl; lra)).
  specialize (V ltac:(intros l Hl; destruct l as [ | [ | [ | l]]]; unfold el; simpl in Hl |- *; try lra; lia)).
  specialize (V ltac:(intros l a Hl _; apply halofit_default_nonneg; [ exact S | now apply ell3_nonneg ]) E). split.
  - apply (V 0%nat 1%nat 0%nat 0%nat 0%nat 1%nat 1 1 1 1.5 1%nat); try reflexivity; try lra. simpl; lia.
  - apply (V 1%nat 2%nat 0%nat 1%nat 1%nat 1%nat 1 1.5 1.5 1.5 1%nat); try reflexivity; try lra. simpl; lia.
Qed.

Lemma ex_C98 : reachable Planck15 /\ reachable planck_other /\ same_background Planck15 planck_other /\
  _h Planck15 <> _h planck_other /\ _n_s Planck15 <> _n_s planck_other /\ _sigma8 Planck15 <> _sigma8 planck_other /\ _Omega_b Planck15 <> _Omega_b planck_other.
Proof.
  split; [ apply fresh_reachable; split; reflexivity | split; [ apply fresh_reachable; split; reflexivity | ]].
  unfold same_background; simpl. repeat split; lra.
Qed.
