(** * C150, proofs: the likelihood along a line through cosmology and survey parameters *)
From Coq Require Import Reals Lra Lia List.
From Coquelicot Require Import Coquelicot.
From Coq Require Import String.
From Verif Require Import FinRules FinBg FinGrowth FinTransfer FinPower FinHalofit.
From Verif Require Import Np NpLemmas Core Sparse SparseSpec Likelihood LikelihoodSpec Ode OdeSpec OdeProofs Interp InterpProofs InterpCont Integrate IntegrateSpec RombProofs Background BgSpec BgAlgebra BgTables BgGrowth BgPositive BgProofs BgFinal BgFinal2 BgFinal4 BgGrad Transfer TransferProofs TransferMono Power PowerProofs ExPower Redshift RedshiftProofs Bias Probes ProbesSpec AngularCl GradSpec Ad AdSpec AdProofs AdBg AdGrowth AdFinal AdPower AdPowerFinal AdHalofit AdHalofitSpec AdProbes AdRel AdProbesProofs AdProbesFinal AdArrSpec AdLike AdLikeSpec AdLikeProofs AdSurvey AdParam AdParamCl AdJacSpec AdJac AdJacFinal AdBack AdBackSpec AdBackProofs AdBackFinal AdOver AdOverSpec AdOverProofs AdOverFinal JetRules JetSwap LineSurvey JetSpec SparseX HalofitX AdNuis AdNuisProofs AdNuisSpec AdNuisNz AdNuisBack AdNuisFinal AdNuisBackFinal AdNan AdNanSpec AdNanProofs AdNanFinal Poison AdNanTwice JetFinal JetNuisSpec JetNz JetSurvey AdNuisLike AdNuisLikeProofs AdNuisBackSpec AdParamNuis AdNuisOver JetNuisFinal JetLikeSpec JetLike AdFisher CovSpec CovProofs AclSpec PoisonLike SoftFinal.
Import ListNotations.
Local Open Scope R_scope.
Opaque chi_table growth_table_ODE growth_table_gamma logspace.
Local Notation hyper := (dual * dual)%type.
Local Notation NO := (num_over num_dual).
Local Notation NB := (num_back_over num_dual).
Local Notation jet f z := (jet_of f 0 z).

(** ** along a line *)
Section Compose.
Context {A B C : Type} (f : A -> B) (g : B -> C).
Fixpoint nz_map_map (d : gnz A) : nz_map g (nz_map f d) = nz_map (fun x => g (f x)) d
with fam_map_map (fam : gfam A) : fam_map g (fam_map f fam) = fam_map (fun x => g (f x)) fam.
Proof.
  - destruct d as [fam ga zm]. cbn [nz_map]. now rewrite fam_map_map.
  - destruct fam as [a b z0 | z0 | zc wt bw | p b]; cbn [fam_map]; try reflexivity; [ now rewrite !map_map | now rewrite nz_map_map ].
Qed.
Lemma bias_map_map b : bias_map g (bias_map f b) = bias_map (fun x => g (f x)) b. Proof. now destruct b. Qed.
Lemma bias_arg_map_map b : bias_arg_map g (bias_arg_map f b) = bias_arg_map (fun x => g (f x)) b.
Proof. destruct b; cbn [bias_arg_map]; [ now rewrite bias_map_map | rewrite map_map; f_equal; apply map_ext, bias_map_map ]. Qed.
Lemma probe_map_map p : probe_map g (probe_map f p) = probe_map (fun x => g (f x)) p.
Proof.
  assert (E : forall l, map (nz_map g) (map (nz_map f) l) = map (nz_map (fun x => g (f x))) l) by (intros l; rewrite map_map; apply map_ext, nz_map_map).
  destruct p as [p | p]; cbn [probe_map gwl_bins gwl_m gwl_ia gwl_sigma_e gnc_bins gnc_bias]; rewrite E.
  - f_equal. f_equal; [ destruct (gwl_m p); cbn [m_map]; [ reflexivity | now rewrite map_map ] | destruct (gwl_ia p); cbn [option_map]; [ now rewrite bias_arg_map_map | reflexivity ]].
  - now rewrite bias_arg_map_map.
Qed.
End Compose.
Lemma twice_pushed w S : map twice_probe (pushed w S) = pushed_twice w w S.
Proof. unfold pushed, pushed_twice. rewrite map_map. apply map_ext. intros p. unfold twice_probe. now rewrite probe_map_map. Qed.

Section Line.
Variables (c : cosmology) (nl osc : bool) (S : list (gprobe param)) (ells : list R) (d : direction) (K : nat) (w : nat -> R).
Local Notation probes := (map (read_probe fst) S).
Hypotheses (B : built c) (HE : expanding c) (NG : _gamma c = None) (HP : physical c) (HMo : moderate c) (HTS : transfer_smooth osc c) (HN : sigmasqr_default c 8.0 (eh osc) <> 0)
  (HNL : nl = true -> eh osc c (1 / 10000) <> 0 /\ _sigma8 c <> 0 /\ forall b, limber_epoch probes b -> scale_found c b (eh osc) /\ forall k, formula_smooth c k b (eh osc) "takahashi2012")
  (HS : shallow (concat (map bins_of probes))) (HC : off_clip chi c probes) (HB : survey_bends (pushed w S)) (HL : forall l, In l ells -> - 0.5 < l) (HW : below K w).
Lemma survey_line : rr (lr (lr (fun f x => jet f x))) (fun t => angular_cl (displaced c d t) (Array1 ells) (moved (pushed w S) t) (eh osc) (model_nl nl))
    (hangular_cl NO (twice_cosmo c d d) (Array1 ells) (pushed_twice w w S) (gmodel NO nl osc)).
Proof.
  rewrite <- twice_pushed. destruct (smooth_dense osc c HTS) as [HD HO].
  apply j_spectra; rewrite ?values_pushed; try assumption. intros b Hb k kd Tk Pk. assert (RB := limber_range _ _ HS Hb). assert (M := jet_moves c d).
  destruct nl; cbn [model_nl gmodel].
  - destruct (HNL eq_refl) as (H1 & H2 & H3). destruct (H3 b Hb) as [H4 H5]. exact (line_default_power c d _ B M osc HE NG HP HMo HD HO HN b k kd H1 H2 RB H4 H5 Tk Pk).
  - exact (line_linear c d _ B M osc HE NG HP HMo HD HO HN b k kd RB Tk Pk).
Qed.
Variables (la : linalg) (f_sky : R) (data mu : list R) (a n : nat) (s : list (list (list R))).
Hypothesis (HM : gaussian_cl_covariance_and_mean c (Array1 ells) probes (eh osc) (model_nl nl) f_sky true = Ok (mu, A3 a a n s)).
Local Notation still m := (let r := vsub data (concat m) in - (1 / 2) * vdot r (sparse_dot_vec a n (inv_data (la_inv la) a n s) r)).
Lemma frozen_survey_form c' p m : angular_cl c' (Array1 ells) p (eh osc) (model_nl nl) = Ok m -> frozen_survey la c probes c' p ells (eh osc) (model_nl nl) f_sky data = Ok (still m).
Proof.
  intros E. unfold frozen_survey. rewrite HM. cbn [bind fst snd]. unfold inv, check_sparse. rewrite Nat.eqb_refl. cbn [negb andb bind]. rewrite E. reflexivity.
Qed.
Lemma second_survey_likelihood : exists y f, hnotebook_likelihood NB la (hessian_cosmo c d) ells (tracked_over w S) (gmodel NB nl osc) f_sky data = Ok y /\
  (forall t, frozen_survey la c probes (displaced c d t) (moved (pushed w S) t) ells (eh osc) (model_nl nl) f_sky data = Ok (f t)) /\
  fst (fst y) = f 0 /\ locally 0 (fun t => ex_derive f t) /\ is_derive f 0 (gradient_paired y d K w) /\ is_derive (Derive f) 0 (hessian_paired y d K w).
Proof.
  assert (HD : forall x, limber_epoch probes x -> 0 < x /\ D c x <> 0).
  { intros x Hx. assert (RX := limber_range _ _ HS Hx). assert (P1 := node1_pos). split; [ lra | ]. exact (fleaf_D0 (fun _ => c) (fun _ => B) NG HP HMo x RX). }
  destruct (ntwice_run c nl osc ells S f_sky mu a a n s B NG HD HM d w d w) as (z & C & _ & _ & F1 & _ & F3 & _). destruct (hmean_of_angular _ _ _ _ _ _ _ _ _ F1) as (rows & F2 & ->).
  assert (HR := survey_line). rewrite F2 in HR. destruct (rr_cases _ _ _ HR) as [(V & M & EM & EV & LV) | (x & EM & _)]; [ | discriminate ]. apply ok_eq in EM. subst M.
  assert (G : exists y, hnotebook_likelihood NO la (twice_cosmo c d d) ells (pushed_twice w w S) (gmodel NO nl osc) f_sky data = Ok y /\ jet (fun t => still (V t)) y).
  { unfold hnotebook_likelihood. rewrite F1. cbn [bind fst snd]. rewrite Nat.eqb_refl. cbn [negb]. rewrite F3. eexists. split; [ reflexivity | ]. cbv zeta.
    set (rel := fun (f : R -> R) x => jet f x) in *. assert (RR : respects rel) by exact (fin_respects (FLN := jets) 0).
    assert (VR : lr rel (fun t => vsub data (concat (V t))) (gvsub NO (map (cst NO) data) (concat rows))).
    { apply (l_vsub NO rel (j_sub 0) (fun _ => data)); [ apply (l_csts NO rel (j_cst 0)) | ]. now apply lr_concat. }
    apply (j_mul 0 (fun _ => - (1 / 2))); [ exact (j_cst 0 (- (1 / 2))) | ].
    apply (l_vdot NO rel RR (j_cst 0) (j_add 0) (j_mul 0)); try assumption.
    apply (l_sparse_dot_vec NO rel) with (f := fun _ => inv_data (la_inv la) a n s); try assumption; try exact (j_cst 0); try exact (j_add 0); try exact (j_mul 0).
    generalize (inv_data (la_inv la) a n s). intros m. induction m as [ | v m IH]; [ apply lr_nil' | ]. cbn [map]. apply (lr_cons (lr (lr rel)) _ (fun _ => v) (fun _ => m)); [ reflexivity | now apply (l_cst2 NO rel (j_cst 0)) | exact IH ]. }
  destruct G as (z & G1 & G2). apply jet_bends in G2. destruct G2 as (B1 & B2 & B3 & B4 & B5).
  assert (MD := survey_modes la c d S w ells nl osc f_sky data). destruct (hnotebook_likelihood NB la (hessian_cosmo c d) ells (tracked_over w S) (gmodel NB nl osc) f_sky data) as [y | x].
  - destruct (MD d K w HW) as (z1 & z2 & E & R2 & R3). rewrite G1 in E. apply ok_eq in E. subst z. cbn [fst snd] in B1, B3, B4, B5.
    exists y, (fun t => still (V t)). split; [ reflexivity | ]. split; [ intros t; now apply frozen_survey_form | ].
    split; [ exact B1 | ]. split; [ exact B2 | ]. split; [ rewrite R2, B4; exact B3 | rewrite R3; exact B5 ].
  - rewrite (MD d K w HW) in G1. discriminate.
Qed.
End Line.
(** at rest: the notebook's likelihood *)
Lemma frozen_survey_here la c probes ells T nl f_sky data : frozen_survey la c probes c probes ells T nl f_sky data = notebook_likelihood la c ells probes T nl f_sky data.
Proof. exact (frozen_here la c ells probes T nl f_sky data). Qed.
Lemma survey_program la c (S : list (gprobe R)) ells T nl P f_sky data : built c -> _gamma c = None ->
  (forall b, limber_epoch (map (read_probe as_is) S) b -> 0 < b /\ D c b <> 0) -> (forall k a, P (lift_cosmo c) k a = nonlinear_matter_power c k a T nl) ->
  hnotebook_likelihood num_R la (lift_cosmo c) ells S P f_sky data = notebook_likelihood la c ells (map (read_probe as_is) S) T nl f_sky data.
Proof.
  intros B NG HD HK. destruct (nuisance_like_programs la c S ells T nl P f_sky true data true "inverse" B NG) as [_ E]. destruct (E HD HK) as [E1 _]. clear E.
  unfold hnotebook_likelihood, notebook_likelihood. rewrite <- E1. destruct (hgaussian_cl_covariance_and_mean num_R (lift_cosmo c) ells S P f_sky true) as [[m C] | x]; cbn [bind fst snd]; [ | reflexivity ].
  destruct C as [ | | | a b n s | ]; cbn [arr_of]; try reflexivity. unfold inv, check_sparse. cbn [num_R cst val]. destruct (Nat.eqb a b) eqn:Eab; cbn [negb bind andb]; [ | reflexivity ].
  rewrite !AdFisher.map3_id, map_id. reflexivity.
Qed.

(** ** NaN *)
Section Spoiled.
Context {Nm : Type} {N : num Nm} {bad : Nm -> Prop} {PO : poison N bad}.
Hypothesis po_sub_r : forall x y, bad y -> bad (nsub N x y).
Local Notation gd := (gnz_default N).
Lemma notebook_bad la (S : list (gprobe Nm)) c P ells f_sky data y i : (forall p, In p S -> gprobe_fits p) -> (i < length (all_bins S))%nat -> dead (N := N) (bad := bad) (nth i (all_bins S) gd) -> ells <> [] ->
  length data = (length ells * length (hcl_ordering S))%nat -> hnotebook_likelihood N la c ells S P f_sky data = Ok y -> bad y.
Proof.
  intros HF Hi HD HE LD. unfold hnotebook_likelihood, hgaussian_cl_covariance_and_mean. destruct (hangular_cl N c (Array1 ells) S P) as [cl | e] eqn:EC; [ cbn [bind] | discriminate ].
  destruct (hnoise_cl N (length ells) S) as [nv | e] eqn:EN; [ cbn [bind] | discriminate ]. destruct (hgaussian_cl_covariance N ells S cl nv f_sky true) as [cov | e] eqn:EV; [ cbn [bind fst snd] | discriminate ].
  assert (HQ : exists q, nth_error (hcl_ordering S) q = Some (i, i)) by (apply In_nth_error; unfold hcl_ordering; rewrite n_bins; apply In_cl_ordering; lia). destruct HQ as (q & HQ).
  destruct (angular_spot S c P ells cl q i i HF HQ (or_introl HD) EC) as (L1 & L2 & L3). destruct (angular_shape S c P ells cl EC) as [A1 A2].
  assert (LM : length (concat cl) = (length ells * length (hcl_ordering S))%nat) by (rewrite (length_concat_const (length ells)) by exact A2; rewrite A1; apply Nat.mul_comm).
  assert (BM : exists w, In w (concat cl) /\ bad w).
  { destruct (nth q cl []) as [ | w row] eqn:ER; [ cbn [length] in L1; destruct ells; [ easy | discriminate ] | ]. exists w. split; [ apply in_concat; exists (w :: row); split; [ exact L2 | now left ] | apply L3; now left ]. }
  set (r := gvsub N (map (cst N) data) (concat cl)). assert (LR : length r = length (concat cl)) by (unfold r, gvsub; rewrite length_map2, map_length, LD, LM; apply Nat.min_id).
  assert (BR : exists k, (k < length r)%nat /\ bad (nth k r (cst N 0))).
  { destruct BM as (w & Hw & HB). destruct (In_nth _ _ (cst N 0) Hw) as (k & Hk & <-). exists k. split; [ lia | ]. unfold r, gvsub. rewrite (nth_map2 _ (cst N 0) (cst N 0)) by (rewrite ?map_length; lia). now apply po_sub_r. }
  destruct BR as (k & Hk & BK).
  assert (SC : exists a n s, cov = G3 a a n s /\ (a * n)%nat = length r).
  { unfold hgaussian_cl_covariance in EV. cbv zeta in EV. destruct (cov_norm ells f_sky) as [nm | e]; [ cbn [bind] in EV | discriminate ]. destruct (cov_blocks_ordering (hcl_ordering S)) as [bl | e]; [ cbn [bind] in EV | discriminate ].
    match type of EV with (if ?b then _ else _) = _ => destruct b eqn:EB; [ discriminate | ] end. apply ok_inj in EV. subst cov. do 3 eexists. split; [ reflexivity | ].
    unfold hnoise_cl in EN. destruct (mapM (hnoise N) S) as [ns | e]; [ cbn [bind] in EN | discriminate ]. cbv zeta in EN. apply ok_inj in EN. subst nv. rewrite length_map2, map_length, A1, Nat.min_id, LR, LM. apply Nat.mul_comm. }
  destruct SC as (a & n & s & -> & EL). rewrite Nat.eqb_refl. cbn [negb]. intros E. apply ok_inj in E. rewrite <- E. apply po_mul_r, (dot_bad _ _ k Hk); [ | exact BK ].
  unfold gsparse_dot_vec. rewrite (length_concat_const n).
  + rewrite map_length, map_length. unfold inv_data. rewrite length_tab. lia.
  + intros row Hr. apply in_map_iff in Hr. destruct Hr as (blk & <- & Hb). apply len_sum0. intros w Hw. destruct (in_map2_both _ _ _ _ Hw) as (u & v & H1 & H2 & ->).
    apply len_vmul; [ | apply (chunk_row_length n a r); [ lia | exact H2 ]]. apply in_map_iff in Hb. destruct Hb as (b & <- & Hb). apply in_map_iff in H1. destruct H1 as (x & <- & H1). rewrite map_length.
    unfold inv_data, tab in Hb. cbv zeta in Hb. apply in_map_iff in Hb. destruct Hb as (j & <- & _). apply in_map_iff in H1. destruct H1 as (j' & <- & _). now rewrite map_length, seq_length.
Qed.
End Spoiled.
Local Notation NX := num_x2.
Lemma nan2_sub_r x y : nan2 y -> nan2 (nsub NX x y).
Proof. intros H. exact (t_r (snd x) _ (t_map _ (snd y) bad_neg H)). Qed.
(** one bin z**a exp(-(z / z0)**b) with 1 < b < 2 and moving z0 anywhere in the survey *)
Lemma notebook_cutoff la c g (S : list (gprobe xdual2)) ells P f_sky data : let V := map (read_probe x2_value) S in
  built c -> expanding c -> _gamma c = None -> physical c -> moderate c -> ggamma g = None -> shallow (concat (map bins_of V)) -> probes_ok V -> noise_positive V ->
  (forall p b, In p S -> In b (gbins_of p) -> x2_value (gnz_gals b) <> 0) -> (2 <= length ells)%nat -> (forall l, (l < length ells)%nat -> 0 < knox_norm ells f_sky l) ->
  length data = (length ells * length (get_cl_ordering V))%nat -> (exists p d, In p S /\ In d (gbins_of p) /\ cutoff_moves d) ->
  exists y, hnotebook_likelihood NX la g ells S P f_sky data = Ok y /\ curvature y = Some NaN.
Proof.
  intros V B HE NG HP HMo GG HS Hok HN HG HL HK HD HB.
  assert (RUN : exists y, hnotebook_likelihood NX la g ells S P f_sky data = Ok y).
  { destruct (survey_runs NX (GLinalg xdual2 (fun _ m => m) (fun _ _ => cst NX 0) (fun _ _ v => v)) x2_value c g S ells P f_sky true data true "inverse" B HE NG HP HMo GG HS Hok HN HG HL HK HD (or_introl eq_refl)) as (x & E).
    unfold hsurvey_likelihood in E. unfold hnotebook_likelihood. destruct (hgaussian_cl_covariance_and_mean NX g ells S P f_sky true) as [[m C] | e] eqn:EG; [ cbn [bind fst snd] | discriminate ].
    assert (SC : exists a n s, C = G3 a a n s).
    { unfold hgaussian_cl_covariance_and_mean in EG. destruct (hangular_cl NX g (Array1 ells) S P) as [cl | e]; [ cbn [bind] in EG | discriminate ]. destruct (hnoise_cl NX (length ells) S) as [nv | e]; [ cbn [bind] in EG | discriminate ].
      destruct (hgaussian_cl_covariance NX ells S cl nv f_sky true) as [cov | e] eqn:EV; [ cbn [bind] in EG | discriminate ]. apply ok_inj in EG. apply (f_equal snd) in EG. cbn [snd] in EG. subst C.
      unfold hgaussian_cl_covariance in EV. cbv zeta in EV. destruct (cov_norm ells f_sky) as [nm | e]; [ cbn [bind] in EV | discriminate ]. destruct (cov_blocks_ordering (hcl_ordering S)) as [bl | e]; [ cbn [bind] in EV | discriminate ].
      match type of EV with (if ?b then _ else _) = _ => destruct b; [ discriminate | ] end. apply ok_inj in EV. subst cov. do 3 eexists. reflexivity. }
    destruct SC as (a & n & s & ->). rewrite Nat.eqb_refl. eexists. reflexivity. }
  destruct RUN as (y & E). exists y. split; [ exact E | ]. destruct (in_all_bins S _ (gnz_default NX) HB) as (i & Hi & a & b & z0 & gl & zm & H1 & H2 & EN).
  refine (notebook_bad (bad := nan2) nan2_sub_r la S g P ells f_sky data y i _ Hi _ (ells_nonempty _ HL) _ E).
  - intros p Hp. apply (fits_of x2_value). apply Hok. now apply in_map.
  - rewrite EN. now apply cutoff_dead.
  - rewrite (hordering x2_value). exact HD.
Qed.
Lemma main_survey_hessian la c nl osc (S : list (gprobe param)) ells f_sky mu a n s data d K w : let V := map (read_probe fst) S in
  built c -> expanding c -> _gamma c = None -> physical c -> moderate c -> transfer_smooth osc c -> sigmasqr_default c 8.0 (eh osc) <> 0 ->
  (nl = true -> eh osc c (1 / 10000) <> 0 /\ _sigma8 c <> 0 /\ forall b, limber_epoch V b -> scale_found c b (eh osc) /\ forall k, formula_smooth c k b (eh osc) "takahashi2012") ->
  shallow (concat (map bins_of V)) -> off_clip chi c V -> survey_bends (pushed w S) -> (forall l, In l ells -> - 0.5 < l) -> below K w ->
  gaussian_cl_covariance_and_mean c (Array1 ells) V (eh osc) (model_nl nl) f_sky true = Ok (mu, A3 a a n s) -> length data = length mu ->
  exists y f, hnotebook_likelihood NB la (hessian_cosmo c d) ells (tracked_over w S) (gmodel NB nl osc) f_sky data = Ok y /\
    (forall t, frozen_survey la c V (displaced c d t) (moved (pushed w S) t) ells (eh osc) (model_nl nl) f_sky data = Ok (f t)) /\
    fst (fst y) = f 0 /\ locally 0 (fun t => ex_derive f t) /\ is_derive f 0 (gradient_paired y d K w) /\ is_derive (Derive f) 0 (hessian_paired y d K w).
Proof. intros V H1 H2 H3 H4 H5 H6 H7 H8 H9 H10 H11 H12 H13 H14 _. exact (second_survey_likelihood c nl osc S ells d K w H1 H2 H3 H4 H5 H6 H7 H8 H9 H10 H11 H12 H13 la f_sky data mu a n s H14). Qed.
Lemma main_survey_fisher la c nl osc (S : list (gprobe param)) ells f_sky mu a n s e v : let V := map (read_probe fst) S in
  built c -> _gamma c = None -> (forall b, limber_epoch V b -> 0 < b /\ D c b <> 0) ->
  gaussian_cl_covariance_and_mean c (Array1 ells) V (eh osc) (model_nl nl) f_sky true = Ok (mu, A3 a a n s) ->
  exists y, hnotebook_likelihood NB la (hessian_cosmo c e) ells (tracked_over v S) (gmodel NB nl osc) f_sky mu = Ok y /\
    fst (fst y) = 0 /\ forall d K w, below K w -> gradient_paired y d K w = 0 /\ exists me md,
    hangular_cl num_dual (dual_cosmo c e) (Array1 ells) (pushed v S) (gmodel num_dual nl osc) = Ok me /\
    hangular_cl num_dual (dual_cosmo c d) (Array1 ells) (pushed w S) (gmodel num_dual nl osc) = Ok md /\
    let F f g := vdot (map snd (concat f)) (sparse_dot_vec a n (inv_data (la_inv la) a n s) (map snd (concat g))) in
    - hessian_paired y d K w = (F md me + F me md) / 2.
Proof. intros V B NG HD HM. exact (JetLike.survey_fisher c nl osc ells S f_sky mu a a n s B NG HD HM la e v eq_refl). Qed.
