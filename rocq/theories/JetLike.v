(** * Hessians with respect to cosmology and nuisance parameters *)
From Coquelicot Require Import Coquelicot.
From Coq Require Import String.
From Verif Require Import FinRules FinBg FinGrowth.
From Verif Require Import Np NpLemmas Core Sparse SparseSpec Likelihood LikelihoodSpec Integrate IntegrateSpec Interp Background BgSpec BgPositive BgGrad BgFinal4 Transfer Power Redshift Probes ProbesSpec AngularCl GradSpec
  Ad AdSpec AdPower AdProbes AdRel AdArrSpec AdHalofit AdHalofitSpec AdLike AdLikeSpec AdLikeProofs AdSurvey AdFinal AdParam AdParamCl AdJacSpec AdJac AdJacFinal AdBack AdBackSpec AdBackProofs AdBackFinal AdOver AdOverSpec AdOverProofs AdOverFinal
  AdNuis AdNuisSpec AdNuisFinal AdNuisLike AdNuisLikeProofs AdNuisBack AdNuisBackSpec AdNuisBackFinal AdParamNuis AdNuisOver JetRules LineSurvey JetSpec JetFinal JetNuisSpec JetSurvey JetNuisFinal JetLikeSpec.
Import ListNotations.
Local Open Scope R_scope.
Opaque chi_table growth_table_ODE growth_table_gamma logspace.
Local Notation hyper := (dual * dual)%type.
Local Notation NO := (num_over num_dual).
Local Notation NB := (num_back_over num_dual).
Local Notation jet f z := (jet_of f 0 z).

(** ** related numbers *)
Section Programs.
Context {A B : Type} (N : num A) (M : num B) (r : A -> B -> Prop) (HR : num_rel r N M).
Context {I : Type} (f : I -> A) (g : I -> B) (FG : forall i, r (f i) (g i)).
Local Notation V := (Forall2 r).
Local Notation W := (Forall2 (Forall2 r)).
Lemma w_mean c c' ell S P P' f_sky sparse : cosmo_rel r c c' -> spectrum_rel r c c' P P' ->
  res_rel (pair_rel V (arr_rel r)) (hgaussian_cl_covariance_and_mean N c ell (map (probe_map f) S) P f_sky sparse) (hgaussian_cl_covariance_and_mean M c' ell (map (probe_map g) S) P' f_sky sparse).
Proof.
  intros HC HP. unfold hgaussian_cl_covariance_and_mean. apply (rel_bind W); [ now apply (w_angular N M r HR f g FG) | ]. intros m m' Hm. apply (rel_bind W); [ apply (w_noise_cl N M r HR f g FG) | ]. intros noi noi' Hn.
  apply (rel_bind (arr_rel r)); [ now apply (w_covariance N M r HR f g) | ]. intros C C' HCC. cbn [res_rel]. split; cbn [fst snd]; [ now apply f2_concat | exact HCC ].
Qed.
Lemma w_notebook la c c' ell S P P' f_sky data : cosmo_rel r c c' -> spectrum_rel r c c' P P' ->
  res_rel r (hnotebook_likelihood N la c ell (map (probe_map f) S) P f_sky data) (hnotebook_likelihood M la c' ell (map (probe_map g) S) P' f_sky data).
Proof.
  intros HC HP. unfold hnotebook_likelihood. apply (rel_bind (pair_rel V (arr_rel r))); [ now apply w_mean | ].
  intros [mu C] [mu' C'] [K1 K2]. cbn [fst snd] in *. destruct C as [ | | | a b n s | ], C' as [ | | | a' b' n' s' | ]; cbn [arr_rel] in K2; try contradiction; try reflexivity.
  destruct K2 as (<- & <- & <- & K2). destruct (negb _); [ reflexivity | ]. cbn [res_rel]. rewrite (vals3 N M r HR _ _ K2).
  assert (VR : V (gvsub N (map (cst N) data) mu) (gvsub M (map (cst M) data) mu')) by (apply q_vsub; [ exact HR | apply f2_mapc; apply (nr_cst _ _ _ HR) | exact K1 ]).
  apply (nr_mul _ _ _ HR); [ apply (nr_cst _ _ _ HR) | ]. apply q_vdot; [ exact HR | exact VR | ]. apply q_sdv; [ exact HR | | exact VR ].
  apply f2_mapc. intros q. apply f2_mapc. intros q'. apply f2_mapc. apply (nr_cst _ _ _ HR).
Qed.
End Programs.
Lemma hmean_of_angular {A} (N : num A) c ells probes P f_sky sp m C : hgaussian_cl_covariance_and_mean N c ells probes P f_sky sp = Ok (m, C) ->
  exists rows, hangular_cl N c (Array1 ells) probes P = Ok rows /\ m = concat rows.
Proof.
  unfold hgaussian_cl_covariance_and_mean. destruct (hangular_cl N c (Array1 ells) probes P) as [rows | x]; cbn [bind]; [ | discriminate ].
  destruct (hnoise_cl N (length ells) probes) as [noi | x]; cbn [bind]; [ | discriminate ]. destruct (hgaussian_cl_covariance N ells probes rows noi f_sky sp); cbn [bind]; [ | discriminate ].
  intros K. injection K as <- _. now exists rows.
Qed.

(** ** the parameters *)
Section Modes.
Variables (c : cosmology) (e d : direction) (K : nat) (v w : nat -> R) (HW : below K w).
Local Notation k := (8 + K)%nat.
Local Notation T := (tangents d w).
Lemma nrbo_of x y i t : rb k T (input x i) (x, t) -> fst y = x -> rbo k T (input_over num_dual y i) (y, (t, 0)).
Proof.
  intros [_ H] _. split; [ reflexivity | ]. intros [u u']. unfold pd, input_over. cbn [fst snd nmul num_dual cst]. f_equal.
  - pose proof (H u) as E. cbn [snd] in E. rewrite <- E. unfold pair_, input. cbn [snd]. apply Rsum_ext. intros q _. now destruct (Nat.eqb q i).
  - rewrite Rmult_0_r, Rplus_0_r. pose proof (H u') as E. cbn [snd] in E. rewrite <- E. unfold pair_, input. cbn [snd]. apply Rsum_ext. intros q _. now destruct (Nat.eqb q i).
Qed.
Lemma nrbo_param (p : param) : rbo k T (input_over num_dual (fst p, v (snd p)) (8 + snd p)) ((fst p, v (snd p)), (w (snd p), 0)).
Proof. exact (nrbo_of (fst p) (fst p, v (snd p)) (8 + snd p) (w (snd p)) (nrb_param d K w HW p) eq_refl). Qed.
Lemma nrbo_input y i : (i < k)%nat -> rbo k T (input_over num_dual y i) (y, (T i, 0)).
Proof. intros Hi. exact (nrbo_of (fst y) y i (T i) (nrb_input d K w (fst y) i Hi) eq_refl). Qed.
Lemma nrbo_cosmo : cosmo_rel (rbo k T) (hessian_cosmo c e) (twice_cosmo c e d).
Proof.
  constructor; [ exact (nrbo_input _ 0 ltac:(lia)) | exact (nrbo_input _ 1 ltac:(lia)) | exact (nrbo_input _ 2 ltac:(lia)) | exact (nrbo_input _ 3 ltac:(lia))
    | exact (nrbo_input _ 4 ltac:(lia)) | exact (nrbo_input _ 5 ltac:(lia)) | exact (nrbo_input _ 6 ltac:(lia)) | exact (nrbo_input _ 7 ltac:(lia)) | ].
  unfold hessian_cosmo, twice_cosmo; cbn [ggamma]. destruct (_gamma c); [ | exact I ]. apply (nr_cst _ _ _ (rbo_num k T)).
Qed.
Lemma nrbo_read b z : rbo k T b z -> fst b = fst z /\ gradient_paired b d K w = fst (snd z) /\ hessian_paired b d K w = snd (snd z).
Proof.
  intros [E1 E2]. split; [ exact E1 | ]. specialize (E2 (1, 0)). unfold pd in E2. destruct z as [z1 [z2 z3]].
  assert (E3 := f_equal fst E2). assert (E4 := f_equal snd E2). cbn [fst snd nmul num_dual] in E3, E4.
  rewrite pair_paired in E3, E4. unfold gradient_paired, hessian_paired. cbn [fst snd]. split; lra.
Qed.
End Modes.
(** reverse over forward and forward over forward *)
Lemma survey_modes la c e (S : list (gprobe param)) v ells nl osc f_sky data :
  match hnotebook_likelihood NB la (hessian_cosmo c e) ells (tracked_over v S) (gmodel NB nl osc) f_sky data with
  | Err x => forall d K w, below K w -> hnotebook_likelihood NO la (twice_cosmo c e d) ells (pushed_twice v w S) (gmodel NO nl osc) f_sky data = Err x
  | Ok y => forall d K w, below K w -> exists z1 z2, hnotebook_likelihood NO la (twice_cosmo c e d) ells (pushed_twice v w S) (gmodel NO nl osc) f_sky data = Ok (fst y, (z1, z2)) /\ gradient_paired y d K w = z1 /\ hessian_paired y d K w = z2
  end.
Proof.
  assert (H := fun d K w (HW : below K w) => w_notebook NB NO (rbo (8 + K) (tangents d w)) (rbo_num _ _) _ _ (nrbo_param d K v w HW) la _ _ ells S _ _ f_sky data (nrbo_cosmo c e d K w)
    (r_model _ _ _ (rbo_num (8 + K) (tangents d w)) _ _ nl osc (nrbo_cosmo c e d K w))).
  change (map (probe_map (fun p => input_over num_dual (fst p, v (snd p)) (8 + snd p))) S) with (tracked_over v S) in H.
  destruct (hnotebook_likelihood NB la (hessian_cosmo c e) ells (tracked_over v S) (gmodel NB nl osc) f_sky data) as [y | x]; intros d K w HW; specialize (H d K w HW); unfold pushed_twice;
    destruct (hnotebook_likelihood NO _ _ _ _ _ _ _) as [z | x']; cbn [res_rel] in H; try contradiction; [ | now rewrite H ].
  destruct (nrbo_read d K w y z H) as (R1 & R2 & R3). exists (fst (snd z)), (snd (snd z)). split; [ | now split ]. rewrite R1. now destruct z as [? [? ?]].
Qed.

Section Survey.
Variables (c : cosmology) (nl osc : bool) (ells : list R) (S : list (gprobe param)) (f_sky : R) (mu : list R) (a b n : nat) (s : list (list (list R))).
Local Notation probes := (map (read_probe fst) S).
Hypotheses (HB : built c) (NG : _gamma c = None) (HD : forall x, limber_epoch probes x -> 0 < x /\ D c x <> 0)
  (HM : gaussian_cl_covariance_and_mean c (Array1 ells) probes (eh osc) (model_nl nl) f_sky true = Ok (mu, A3 a b n s)).
Lemma ndual_run e v : exists m C, hgaussian_cl_covariance_and_mean num_dual (dual_cosmo c e) ells (pushed v S) (gmodel num_dual nl osc) f_sky true = Ok (m, G3 a b n C) /\
  map fst m = mu /\ map (map (map (val num_dual))) C = s.
Proof.
  assert (EP : map (read_probe as_is) (map (probe_map fst) S) = probes) by (rewrite map_map; apply map_ext; intros p; now rewrite read_probe_map).
  destruct (nuisance_like_programs (Build_linalg (fun _ m => m) (fun _ _ => (1, 0)) (fun _ _ v => v)) c (map (probe_map fst) S) ells (eh osc) (model_nl nl) (fun _ k a => nonlinear_matter_power c k a (eh osc) (model_nl nl)) f_sky true [] true "inverse" HB NG) as [_ E].
  rewrite EP in E. destruct (E HD ltac:(reflexivity)) as [E1 _]. rewrite HM in E1. clear E.
  pose proof (w_mean num_R num_dual rv rv_num (fun p : param => fst p) (fun p : param => (fst p, v (snd p)) : dual) ltac:(intros; reflexivity) _ _ ells S _ _ f_sky true (rv_cosmo c e) (rv_spectrum_any c e (eh osc) (model_nl nl) _ (rv_model c e HB nl osc))) as K.
  fold (pushed v S) in K.
  destruct (hgaussian_cl_covariance_and_mean num_R (lift_cosmo c) ells _ _ f_sky true) as [[m0 C0] | x]; cbn [bind fst snd] in E1; [ | discriminate ]. injection E1 as -> EC.
  destruct C0; cbn [arr_of] in EC; try discriminate. injection EC as -> -> -> ->.
  destruct (hgaussian_cl_covariance_and_mean num_dual _ _ _ _ _ _) as [[m C] | x]; cbn [res_rel] in K; [ | contradiction ]. destruct K as [K1 K2]. cbn [fst snd] in K1, K2.
  destruct C as [ | | | a' b' n' C | ]; cbn [arr_rel] in K2; try contradiction. destruct K2 as (<- & <- & <- & K2). exists m, C. split; [ reflexivity | ].
  split.
  - symmetry. rewrite <- (map_id mu). exact (f2_rel_map _ _ rv _ _ ltac:(intros x y Hxy; exact Hxy) K1).
  - rewrite <- (vals3 num_R num_dual rv rv_num _ _ K2). cbn [num_R val]. etransitivity; [ | apply map_id ]. apply map_ext. intros m'. etransitivity; [ | apply map_id ]. apply map_ext. intros w. apply map_id.
Qed.
Lemma ntwice_run e v d w : exists z C me md, hgaussian_cl_covariance_and_mean NO (twice_cosmo c e d) ells (pushed_twice v w S) (gmodel NO nl osc) f_sky true = Ok (z, G3 a b n C) /\
  map hvv z = mu /\ map (map (map (val NO))) C = s /\
  hangular_cl num_dual (dual_cosmo c e) (Array1 ells) (pushed v S) (gmodel num_dual nl osc) = Ok me /\ map hve z = map snd (concat me) /\
  hangular_cl num_dual (dual_cosmo c d) (Array1 ells) (pushed w S) (gmodel num_dual nl osc) = Ok md /\ map hvd z = map snd (concat md).
Proof.
  assert (K : res_rel (pair_rel (Forall2 ro_out) (arr_rel ro_out)) (hgaussian_cl_covariance_and_mean NO (twice_cosmo c e d) ells (pushed_twice v w S) (gmodel NO nl osc) f_sky true)
    (hgaussian_cl_covariance_and_mean num_dual (dual_cosmo c e) ells (pushed v S) (gmodel num_dual nl osc) f_sky true)).
  { exact (w_mean NO num_dual ro_out ro_out_num (fun p : param => ((fst p, v (snd p)), (w (snd p), 0)) : hyper) (fun p : param => (fst p, v (snd p)) : dual) ltac:(intros; reflexivity)
    _ _ ells S _ _ f_sky true (out_cosmo c e d) (r_model NO num_dual ro_out ro_out_num _ _ nl osc (out_cosmo c e d))). }
  assert (L : res_rel (pair_rel (Forall2 ro_in) (arr_rel ro_in)) (hgaussian_cl_covariance_and_mean NO (twice_cosmo c e d) ells (pushed_twice v w S) (gmodel NO nl osc) f_sky true)
    (hgaussian_cl_covariance_and_mean num_dual (dual_cosmo c d) ells (pushed w S) (gmodel num_dual nl osc) f_sky true)).
  { exact (w_mean NO num_dual ro_in ro_in_num (fun p : param => ((fst p, v (snd p)), (w (snd p), 0)) : hyper) (fun p : param => (fst p, w (snd p)) : dual) ltac:(intros; reflexivity)
    _ _ ells S _ _ f_sky true (in_cosmo c e d) (r_model NO num_dual ro_in ro_in_num _ _ nl osc (in_cosmo c e d))). }
  destruct (ndual_run e v) as (m & Cm & E1 & E2 & E3). destruct (ndual_run d w) as (m' & Cm' & E1' & _ & _). rewrite E1 in K. rewrite E1' in L.
  destruct (hgaussian_cl_covariance_and_mean NO _ _ _ _ _ _) as [[z C] | x]; cbn [res_rel] in K, L; [ | contradiction ]. destruct K as [K1 K2], L as [L1 L2]. cbn [fst snd] in K1, K2, L1, L2.
  destruct C as [ | | | a' b' n' C | ]; cbn [arr_rel] in K2; try contradiction. destruct K2 as (-> & -> & -> & K2).
  destruct (hmean_of_angular _ _ _ _ _ _ _ _ _ E1) as (me & A1 & ->). destruct (hmean_of_angular _ _ _ _ _ _ _ _ _ E1') as (md & A2 & ->).
  exists z, C, me, md. split; [ reflexivity | ]. refine (conj _ (conj _ (conj A1 (conj _ (conj A2 _))))).
  - rewrite <- E2. exact (f2_rel_map hvv fst ro_out _ _ ltac:(intros x y <-; reflexivity) K1).
  - rewrite <- E3. exact (vals3 NO num_dual ro_out ro_out_num _ _ K2).
  - exact (f2_rel_map hve snd ro_out _ _ ltac:(intros x y <-; reflexivity) K1).
  - exact (f2_rel_map hvd snd ro_in _ _ ltac:(intros x y <-; reflexivity) L1).
Qed.
(** the Fisher matrix *)
Lemma survey_fisher la e v : a = b -> exists y, hnotebook_likelihood NB la (hessian_cosmo c e) ells (tracked_over v S) (gmodel NB nl osc) f_sky mu = Ok y /\
  fst (fst y) = 0 /\ forall d K w, below K w -> gradient_paired y d K w = 0 /\ exists me md,
  hangular_cl num_dual (dual_cosmo c e) (Array1 ells) (pushed v S) (gmodel num_dual nl osc) = Ok me /\
  hangular_cl num_dual (dual_cosmo c d) (Array1 ells) (pushed w S) (gmodel num_dual nl osc) = Ok md /\
  let F f g := vdot (map snd (concat f)) (sparse_dot_vec a n (inv_data (la_inv la) a n s) (map snd (concat g))) in
  - hessian_paired y d K w = (F md me + F me md) / 2.
Proof.
  intros Eab.
  assert (Z : forall d w, exists y me md, hnotebook_likelihood NO la (twice_cosmo c e d) ells (pushed_twice v w S) (gmodel NO nl osc) f_sky mu = Ok y /\
    hangular_cl num_dual (dual_cosmo c e) (Array1 ells) (pushed v S) (gmodel num_dual nl osc) = Ok me /\
    hangular_cl num_dual (dual_cosmo c d) (Array1 ells) (pushed w S) (gmodel num_dual nl osc) = Ok md /\
    let F f g := vdot (map snd (concat f)) (sparse_dot_vec a n (inv_data (la_inv la) a n s) (map snd (concat g))) in
    hvv y = 0 /\ hve y = 0 /\ hvd y = 0 /\ hed y = - ((F md me + F me md) / 2)).
  { intros d w. destruct (ntwice_run e v d w) as (z & C & me & md & E1 & E2 & E3 & E4 & E5 & E6 & E7). unfold hnotebook_likelihood. rewrite E1. cbn [bind fst snd].
    subst b. rewrite Nat.eqb_refl. cbn [negb]. rewrite E3. eexists. exists me, md. split; [ reflexivity | ]. split; [ exact E4 | split; [ exact E6 | ]].
    pose proof (over_quadratic a n (inv_data (la_inv la) a n s) z) as K. cbv beta zeta in K. rewrite E2, E5, E7 in K. exact K. }
  assert (M := survey_modes la c e S v ells nl osc f_sky mu).
  destruct (hnotebook_likelihood NB la (hessian_cosmo c e) ells (tracked_over v S) (gmodel NB nl osc) f_sky mu) as [y | x].
  - exists y. split; [ reflexivity | ]. split.
    + destruct (M e 0%nat (fun _ => 0) ltac:(intros q _; reflexivity)) as (z1 & z2 & E & _). destruct (Z e (fun _ => 0)) as (z & me & md & E' & _ & _ & EF & _). rewrite E in E'. apply ok_eq in E'. subst z. exact EF.
    + intros d K w HW. destruct (M d K w HW) as (z1 & z2 & E & R2 & R3). destruct (Z d w) as (z & me & md & E' & M1 & M2 & _ & _ & F3 & F4). rewrite E in E'. apply ok_eq in E'. subst z.
      split; [ rewrite R2; exact F3 | ]. exists me, md. split; [ exact M1 | split; [ exact M2 | ]]. intros F. rewrite R3. unfold hed in F4. cbn [snd] in F4. rewrite F4. apply Ropp_involutive.
  - destruct (Z e (fun _ => 0)) as (z & _ & _ & E & _). rewrite (M e 0%nat (fun _ => 0) ltac:(intros q _; reflexivity)) in E. discriminate.
Qed.
End Survey.
