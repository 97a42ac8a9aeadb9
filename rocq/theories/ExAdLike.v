(** * Concrete cases for the differentiated likelihood *)
From Coquelicot Require Import Coquelicot.
From Verif Require Import Np NpLemmas Core Sparse SparseSpec SparseProofs DetSpec MxBridge DetProofs DetProofs2 DetPos ExSparse Likelihood LikelihoodSpec LikelihoodProofs ExLikelihood
  Integrate IntegrateSpec Interp InterpProofs
  Background BgSpec BgPositive Transfer Power Redshift Bias Probes ProbesSpec ProbesProofs ProbesFinal AngularCl CovSpec CovProofs CovFinal ExCov AclSpec AclProofs AclFinal GradSpec FisherSpec Deriv ContFinal
  Ad AdSpec AdProofs AdPower AdProbes AdRel AdProbesProofs AdArrSpec AdProbesFinal AdTransfer AdHalofit AdHalofitSpec AdHalofitFinal ExAdProbes ExAdHalofit AdLike AdLikeProofs AdLikeSpec AdLikeFinal AdScore AdSurvey.
Opaque chi_table growth_table_ODE growth_table_gamma logspace.
Local Open Scope R_scope.

Lemma la_mx_shaped : linalg_shaped la_mx.
Proof.
  assert (W : forall n m, wf2 n n (linv_mx n m)) by (intros n m; apply wf2_of_mx).
  split; [ intros; apply W | ]. intros n m r _ _. unfold wf1. cbn [la_cho_solve la_mx]. rewrite length_mv. apply W.
Qed.
Lemma oracles : exists la, linalg_ok la /\ linalg_shaped la.
Proof. exists la_mx. split; [ apply la_mx_ok | apply la_mx_shaped ]. Qed.
Lemma ex_survey_ok : probes_ok ex_survey /\ noise_positive ex_survey /\ length (get_cl_ordering ex_survey) = 6%nat.
Proof.
  split; [ | split; [ | reflexivity ]].
  - split; [ discriminate | ]. assert (N2 : no_delta [ex_nc]) by (intros d [<- | []]; reflexivity).
    intros p [<- | [<- | []]]; unfold probe_ok; simpl; repeat split; try discriminate; exact N2.
  - apply noise_positive_suff. intros p [<- | [<- | []]]; split; try exact I.
    + intros d [<- | [<- | []]]; simpl; lra.
    + split; [ reflexivity | ]. intros [ | [ | k]] Hk; simpl in Hk |- *; try lra; lia.
    + intros d [<- | []]; simpl; lra.
Qed.
(** the default spectra of a faint Planck universe, three multipoles, six spectra, any data *)
Lemma ex_C124 : let c := planck_s faint in built c /\ expanding c /\ _gamma c = None /\ physical c /\ moderate c /\
  (forall d, transfer_moves eisenhu (geisenhu num_dual) c d) /\ sigmasqr_default c 8.0 eisenhu <> 0 /\ eisenhu c (1 / 10000) <> 0 /\ _sigma8 c <> 0 /\
  shallow (concat (map bins_of ex_survey)) /\ off_clip chi c ex_survey /\
  (forall b, limber_epoch ex_survey b -> scale_found c b eisenhu /\ forall k, formula_smooth c k b eisenhu "takahashi2012") /\
  probes_ok ex_survey /\ noise_positive ex_survey /\ (2 <= length ell3)%nat /\ (forall l, In l ell3 -> 0 <= l) /\ (forall l, (l < length ell3)%nat -> 0 < knox_norm ell3 0.25 l) /\
  (length ell3 * length (get_cl_ordering ex_survey))%nat = 18%nat.
Proof.
  cbv zeta. destruct ex_C123 as (_ & H1 & H2 & H3 & H4 & H5 & H6 & H7 & H8 & H9 & H10 & H11 & H12). destruct ex_survey_ok as (P1 & P2 & P3).
  do 14 (split; [ assumption | ]). split; [ simpl; lia | split; [ | split; [ exact norm_3 | rewrite P3; reflexivity ]]].
  intros l Hl. simpl in Hl. decompose [or] Hl; subst; lra || contradiction.
Qed.
(** a 2 x 2 covariance and a mean that move, dense and as 2 x 2 blocks of one diagonal entry *)
Definition C_ex (t : R) : list (list R) := [[2 + 3 * t; 1 + 1 * t]; [1 + 1 * t; 3 + 2 * t]].
Definition Cd_ex : list (list dual) := [[(2, 3); (1, 1)]; [(1, 1); (3, 2)]].
Definition B_ex (t : R) : list (list (list R)) := [[[2 + 3 * t]; [1 + 1 * t]]; [[1 + 1 * t]; [3 + 2 * t]]].
Definition Bd_ex : list (list (list dual)) := [[[(2, 3)]; [(1, 1)]]; [[(1, 1)]; [(3, 2)]]].
Definition mu_ex (t : R) : list R := [1 + 1 * t; 0 + -2 * t].
Definition mud_ex : list dual := [(1, 1); (0, -2)].
Definition P_ex : list (list R) := [[3 / 5; - (1 / 5)]; [- (1 / 5); 2 / 5]].
Lemma dv_lin a b : tangent_of (fun t => a + b * t) 0 (a, b).
Proof. split; [ cbn [fst]; ring | cbn [snd]; auto_derive; [ exact I | ring ] ]. Qed.
Ltac two := intros [ | [ | ?i]]; try (intros; lia).
Ltac wf_ := split; [ reflexivity | intros row Hrow; cbn [In C_ex P_ex] in Hrow; intuition (subst; reflexivity) ].
Lemma ex_C124_dense : curve2 2 2 C_ex Cd_ex /\ curve1 2 mu_ex mud_ex /\ (forall s, symmetric 2 (C_ex s)) /\ pos_def 2 (C_ex 0) /\ is_inverse 2 (C_ex 0) P_ex.
Proof.
  split; [ | split; [ | split; [ | split ]]].
  - split; [ intros s; wf_ | split; [ reflexivity | split; [ two; reflexivity | two; two; intros _ _; apply dv_lin ]]].
  - split; [ intros s; reflexivity | split; [ reflexivity | two; intros _; apply dv_lin ]].
  - intros s. two; two; reflexivity.
  - intros x (i & Hi & Hx). unfold quad, C_ex, el2, el; simpl. assert (Q : x 0%nat <> 0 \/ x 1%nat <> 0) by (destruct i as [ | [ | i]]; [ now left | now right | lia ]).
    assert (0 < (x 0%nat + x 1%nat) ^ 2 + x 0%nat ^ 2 + 2 * x 1%nat ^ 2); [ | lra ].
    pose proof (pow2_ge_0 (x 0%nat + x 1%nat)). pose proof (pow2_ge_0 (x 0%nat)). pose proof (pow2_ge_0 (x 1%nat)).
    destruct Q as [Q | Q]; pose proof (pow2_gt_0 _ Q); lra.
  - split; [ wf_ | split; two; two; intros _ _; unfold C_ex, P_ex, el2, el; simpl; lra ].
Qed.
Lemma ex_C124_sparse : curve3 2 2 1 B_ex Bd_ex /\ curve2 (2 * 1) (2 * 1) C_ex Cd_ex /\ (forall s, denotes 2 2 1 (B_ex s) (C_ex s)) /\ curve1 (2 * 1) mu_ex mud_ex /\
  (forall s, symmetric (2 * 1) (C_ex s)) /\ pos_def (2 * 1) (C_ex 0) /\ is_inverse (2 * 1) (C_ex 0) P_ex.
Proof.
  destruct ex_C124_dense as (H1 & H2 & H3 & H4 & H5). split; [ | split; [ exact H1 | split; [ | split; [ exact H2 | split; [ exact H3 | split; [ exact H4 | exact H5 ]]]]]].
  - split; [ intros s; split; [ reflexivity | intros m Hm; cbn [B_ex In] in Hm; destruct Hm as [<- | [<- | []]]; wf_ ] | split; [ reflexivity | split; [ two; reflexivity | split; [ two; two; reflexivity | ]]]].
    two; two; intros [ | k]; try (intros; lia); intros _ _ _; apply dv_lin.
  - intros s. replace (C_ex s) with (dense_of 1 (B_ex s)) by reflexivity. apply dense_of_denotes.
    split; [ reflexivity | intros m Hm; cbn [B_ex In] in Hm; destruct Hm as [<- | [<- | []]]; wf_ ].
Qed.
(** one number, variance 1 + t, data on the mean: the value grows with the variance, the density falls *)
Lemma density_refuted : exists n C C' data mu v w,
  (forall s, wf2 n n (C s)) /\ (forall s, symmetric n (C s)) /\ pos_def n (C 0) /\ curve2 n n C C' /\ wf1 n data /\ wf1 n mu /\
  (forall la, linalg_ok la -> linalg_shaped la -> forall method, method = "inverse"%string \/ method = "cholesky"%string ->
     ggaussian_log_likelihood num_dual (linalg_dual la) data (map (fun x => (x, 0)) mu) (G2 n n C') true method = Ok v) /\
  (forall Q, (forall s, pos_def n (C s) -> is_inverse n (C s) (Q s)) -> is_derive (fun s => log_density n (C s) (Q s) data mu) 0 w) /\
  w < 0 < snd v.
Proof.
  assert (W : forall s : R, wf2 1 1 [[1 + 1 * s]]) by (intros s; wf_).
  assert (SY : forall s : R, symmetric 1 [[1 + 1 * s]]) by (intros s [ | i] [ | j] Hi Hj; try lia; reflexivity).
  assert (PD : pos_def 1 [[1 + 1 * 0]]).
  { intros x (i & Hi & Hx). assert (i = 0%nat) by lia. subst i. unfold quad, el2, el; simpl. pose proof (pow2_gt_0 _ Hx). lra. }
  assert (CV : curve2 1 1 (fun s => [[1 + 1 * s]]) [[(1, 1)]]).
  { split; [ exact W | split; [ reflexivity | split; [ intros [ | i] Hi; [ reflexivity | lia ] | ]]]. intros [ | i] [ | j] Hi Hj; try lia. apply dv_lin. }
  assert (MV : curve1 1 (fun _ => [0]) [(0, 0)]) by (split; [ reflexivity | split; [ reflexivity | intros [ | i] Hi; [ apply (t_cst 0 0) | lia ] ]]).
  assert (IV : is_inverse 1 [[1 + 1 * 0]] [[1]]) by (split; [ wf_ | split; intros [ | i] [ | j] Hi Hj; try lia; unfold el2, el; simpl; lra ]).
  assert (SC : score 1 [[1]] [[1]] [0] [0] (fun _ => 0) true = 1 / 2) by (unfold score, bilin, sandwich, trace_prod, el2, el; simpl; lra).
  assert (TP : trace_prod 1 [[1]] [[1]] = 1) by (unfold trace_prod, el2, el; simpl; lra).
  exists 1%nat, (fun s => [[1 + 1 * s]]), [[(1, 1)]], [0], [0], (0, 1 / 2), (- (1 / 2)).
  split; [ exact W | split; [ exact SY | split; [ exact PD | split; [ exact CV | split; [ reflexivity | split; [ reflexivity | split; [ | split ]]]]]]].
  - intros la HO HS method HM.
    destruct (dense_score la 1 (fun s => [[1 + 1 * s]]) [[(1, 1)]] [0] (fun _ => [0]) [(0, 0)] true method [[1]] HO HS CV MV eq_refl SY PD HM IV) as (v & E1 & E2).
    destruct (cholesky_eq_inverse la HO 1 [[1 + 1 * 0]] [0] [0] true (W 0) (SY 0) PD eq_refl eq_refl) as (v' & V1 & V2).
    assert (EV : v = v') by (destruct HM as [-> | ->]; congruence). subst v'. rewrite (gll_dense_inverse la HO 1 _ [[1]] [0] [0] true (W 0) IV eq_refl eq_refl) in V2. injection V2 as V2.
    rewrite (dense_logdet la HO 1 _ (W 0) (pos_def_invertible PD)) in V2.
    assert (D1 : det_of 1 [[1 + 1 * 0]] = 1).
    { rewrite det_1. ring. }
    rewrite D1, Rabs_R1, ln_1 in V2. unfold chi2, quad, el2, el in V2. simpl in V2.
    cbn [map]. rewrite E2. apply (f_equal Ok), (f_equal2 pair); [ lra | ]. etransitivity; [ | exact SC ]. unfold score, bilin, sandwich, trace_prod, el2, el. simpl. lra.
  - intros Q HQ. replace (- (1 / 2)) with (score 1 [[1]] [[1]] [0] [0] (fun _ => 0) true - trace_prod 1 [[1]] [[1]]) by lra.
    apply (density_score 1 (fun s => [[1 + 1 * s]]) [[1]] [0] (fun _ => [0]) (fun _ => 0) [[1]] W SY PD); try assumption; try reflexivity.
    + intros [ | i] [ | j] Hi Hj; try lia. apply (dv_lin 1 1).
    + intros i _. apply (dv_const _ 0).
  - cbn [snd]. lra.
Qed.
