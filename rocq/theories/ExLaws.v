(** * Concrete cases for the theorems C99-C105 *)
From Verif Require Import Np NpLemmas Core Interp Integrate Background BgSpec BgFinal4 Transfer Power PowerArr PowerArrSpec PowerArrProofs Redshift RedshiftSpec RedshiftProofs RedshiftShape
  Sparse SparseSpec SparseProofs DetSpec MxBridge DetProofs2 DetPos ExSparse Likelihood LikelihoodSpec LikelihoodProofs ExLikelihood LawsSpec DetBlocks LikelihoodLaws SparsePrec.
Opaque chi_table growth_table_ODE growth_table_gamma logspace.

Ltac two i := destruct i as [ | [ | i ]]; [ | | exfalso; simpl in *; lia ].

Lemma ex_inv_21 : is_inverse 2 [[2; 1]; [1; 3]] [[3 / 5; - (1 / 5)]; [- (1 / 5); 2 / 5]].
Proof. split; [ wf_ | ]. split; intros i j Hi Hj; two i; two j; cbv -[Rplus Rmult Rminus Ropp Rdiv Rinv IZR]; lra. Qed.
Lemma ex_C99 : linalg_ok la_mx /\ wf2 2 2 [[2; 1]; [1; 3]] /\ invertible 2 [[2; 1]; [1; 3]] /\ invertible 2 [[1; 1]; [0; 2]] /\
  is_congruence 2 [[1; 1]; [0; 2]] [[2; 1]; [1; 3]] [[7; 8]; [8; 12]] /\ is_matvec 2 2 [[1; 1]; [0; 2]] [5; 7] [12; 14] /\ is_matvec 2 2 [[1; 1]; [0; 2]] [1; 0] [1; 0] /\
  permutes 2 (fun i => 1 - i)%nat /\ reordered2 2 (fun i => 1 - i)%nat [[2; 1]; [1; 3]] [[3; 1]; [1; 2]] /\ reordered1 2 (fun i => 1 - i)%nat [5; 7] [7; 5].
Proof.
  split; [ apply la_mx_ok | ]. split; [ wf_ | ]. split; [ eexists; apply ex_inv_21 | ].
  split; [ exists [[1; - (1 / 2)]; [0; 1 / 2]]; split; [ wf_ | split; intros i j Hi Hj; two i; two j; cbv -[Rplus Rmult Rminus Ropp Rdiv Rinv IZR]; lra ] | ].
  split; [ split; [ wf_ | intros i j Hi Hj; two i; two j; cbv -[Rplus Rmult Rminus Ropp Rdiv Rinv IZR]; lra ] | ].
  split; [ split; [ reflexivity | intros i Hi; two i; cbv -[Rplus Rmult Rminus Ropp Rdiv Rinv IZR]; lra ] | ].
  split; [ split; [ reflexivity | intros i Hi; two i; cbv -[Rplus Rmult Rminus Ropp Rdiv Rinv IZR]; lra ] | ].
  split; [ split; [ intros i Hi; lia | intros i j Hi Hj H; lia ] | ].
  split; [ split; [ wf_ | intros i j Hi Hj; two i; two j; reflexivity ] | ].
  split; [ reflexivity | intros i Hi; two i; reflexivity ].
Qed.

(** two spectra at two multipoles *)
Definition cov2 : list (list (list R)) := [[[2; 1]; [1; 0]]; [[1; 0]; [3; 5]]].
Definition cov2_dense : list (list R) := [[2; 0; 1; 0]; [0; 1; 0; 0]; [1; 0; 3; 0]; [0; 0; 0; 5]].
Lemma cov2_wf : wf3 2 2 2 cov2.
Proof. wf_. Qed.
Lemma cov2_denotes : denotes 2 2 2 cov2 cov2_dense.
Proof. exact (dense_of_denotes _ _ _ _ cov2_wf). Qed.
Lemma cov2_pos : pos_def (2 * 2) cov2_dense.
Proof.
  intros x [i [Hi Hx]]. cbv -[Rplus Rmult Rminus Ropp IZR Rlt].
  assert (Q : forall y : R, y <> 0 -> 0 < y * y) by (intros; nra).
  assert (P0 := Rle_0_sqr (x 0%nat)). assert (P1 := Rle_0_sqr (x 1%nat)). assert (P2 := Rle_0_sqr (x 2%nat)). assert (P3 := Rle_0_sqr (x 3%nat)). assert (P4 := Rle_0_sqr (x 0%nat + x 2%nat)).
  unfold Rsqr in *.
  assert (E : 0 < x 0%nat * x 0%nat + x 1%nat * x 1%nat + x 2%nat * x 2%nat + x 3%nat * x 3%nat).
  { destruct i as [ | [ | [ | [ | i ]]]]; [ .. | simpl in Hi; lia ]; specialize (Q _ Hx); lra. }
  nra.
Qed.
Lemma cov2_symmetric : symmetric (2 * 2) cov2_dense.
Proof.
  intros i j Hi Hj. simpl in Hi, Hj. destruct i as [ | [ | [ | [ | i ]]]]; [ .. | lia ]; (destruct j as [ | [ | [ | [ | j ]]]]; [ .. | lia ]); reflexivity.
Qed.
Lemma ex_C100 : linalg_ok la_mx /\ wf3 2 2 2 cov2 /\ trailing_invertible 2 2 cov2 /\ wf1 (2 * 2) [1; 2; 3; 4] /\ wf1 (2 * 2) [0; 1; 0; 1] /\
  is_slice 2 2 1 cov2 [[1; 0]; [0; 5]] /\ at_multipole 2 2 1 [1; 2; 3; 4] [2; 4] /\ at_multipole 2 2 1 [0; 1; 0; 1] [1; 1].
Proof.
  split; [ apply la_mx_ok | ]. split; [ apply cov2_wf | ]. split; [ eapply pos_def_trailing; [ apply cov2_wf | auto | apply cov2_denotes | apply cov2_pos ] | ].
  split; [ reflexivity | split; [ reflexivity | ]].
  split; [ split; [ wf_ | intros i j Hi Hj; two i; two j; reflexivity ] | ].
  split; (split; [ reflexivity | intros i Hi; two i; reflexivity ]).
Qed.
Lemma ex_C101 : linv_ok linv_mx /\ wf3 2 2 2 cov2 /\ denotes 2 2 2 cov2 cov2_dense /\ symmetric (2 * 2) cov2_dense /\ pos_def (2 * 2) cov2_dense.
Proof. exact (conj linv_mx_ok (conj cov2_wf (conj cov2_denotes (conj cov2_symmetric cov2_pos)))). Qed.

(** the forms and orders of magnitude used in surveys *)
Lemma ex_C102 : let d := nz_new (Smail 2 2 (1 / 2)) 20 4 in simps (pz d) 0 4 256 = Ok 1 /\ 0 < pz d (1 / 2) /\ pz d 1 < pz d (1 / 2) /\
  let e := nz_new (Shift d (1 / 10)) 20 4 in pz e (1 / 2) < pz e (1 / 2 + 1 / 10).
Proof.
  intros d. assert (P : 1 / 2 * Rpower (2 / 2) (/ 2) = 1 / 2) by (replace (2 / 2) with 1 by lra; unfold Rpower; rewrite ln_1, Rmult_0_r, exp_0; lra).
  destruct (smail_density 2 2 (1 / 2) 20 4 ltac:(lra) ltac:(lra) ltac:(lra) ltac:(lra)) as (_ & D2 & D3). fold d in D2, D3.
  split; [ exact D3 | ]. split; [ apply D2; lra | ].
  split.
  { pose proof (smail_peaks 2 2 (1 / 2) 20 4 ltac:(lra) ltac:(lra) ltac:(lra) ltac:(lra) 1 ltac:(lra)) as H. rewrite P in H. apply H. lra. }
  intros e. pose proof (shifted_peak 2 2 (1 / 2) 20 4 (1 / 10) 20 4 (1 / 2) ltac:(lra) ltac:(lra) ltac:(lra) ltac:(lra) ltac:(lra)) as H. rewrite P in H. apply H. lra.
Qed.
Lemma ex_C103 : let d := nz_new (Smail 2 2 (1 / 2)) 20 4 in forall z,
  pz (nz_new (Shift (nz_new (Shift d (1 / 20)) 20 4) (1 / 10)) 20 4) z = pz (nz_new (Shift d (1 / 20 + 1 / 10)) 20 4) z.
Proof. intros d z. apply shift_compose. lra. Qed.

Lemma ex_C105 : reachable Planck15 /\ broadcasts (Array1 [0.1; 1; 10]) (Scalar 0.5) 3 /\ broadcasts (Scalar 0.1) (Array1 [0.5; 1]) 2 /\ broadcasts (Scalar 0.1) (Scalar 1) 1 /\
  halofit_nd Planck15 (Array1 [0.1; 1]) (Scalar 0.5) eisenhu "takahashi2012" = Ok (Array1 [halofit_default Planck15 0.1 0.5 eisenhu; halofit_default Planck15 1 0.5 eisenhu]) /\
  linear_matter_power_nd Planck15 (Scalar 0.1) (Array1 [1]) eisenhu = Ok (Scalar (linear_matter_power Planck15 0.1 1 eisenhu)).
Proof.
  pose proof (proj1 planck_ok) as Hr. split; [ exact Hr | ].
  split; [ split; [ lia | right; right; split; reflexivity ] | ]. split; [ split; [ lia | right; left; split; reflexivity ] | ]. split; [ split; [ lia | left; split; reflexivity ] | ].
  split.
  - destruct (halofit_arr Planck15 eisenhu Hr (Array1 [0.1; 1]) (Scalar 0.5) 2 "takahashi2012") as (v & Hv & ->); [ split; [ lia | right; right; split; reflexivity ] | now right | ].
    pose proof (Hv 0%nat ltac:(lia)) as H0. pose proof (Hv 1%nat ltac:(lia)) as H1. unfold halofit_default.
    change (elem (Array1 [0.1; 1]) 0) with 0.1 in H0. change (elem (Array1 [0.1; 1]) 1) with 1 in H1. change (elem (Scalar 0.5) 0) with 0.5 in H0. change (elem (Scalar 0.5) 1) with 0.5 in H1.
    rewrite H0, H1. reflexivity.
  - rewrite (linear_arr Planck15 eisenhu Hr _ _ 1); [ reflexivity | ]. split; [ lia | left; split; reflexivity ].
Qed.
