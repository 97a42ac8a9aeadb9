(** * The Hessian of the notebook is the curvature of the likelihood at its maximum *)
From Coq Require Import String.
From Coquelicot Require Import Coquelicot.
From Verif Require Import Np NpLemmas Core Sparse SparseSpec SparseProofs DetSpec MxBridge DetProofs DetProofs2 Likelihood LikelihoodSpec LikelihoodProofs SparseLaws LikelihoodLaws DetBlocks SparsePrec DetPos FisherSpec Deriv PosDefOpen OracleDeriv Integrate IntegrateSpec Interp Background BgSpec BgPositive BgFinal4 BgGrad Transfer Power Redshift Probes ProbesSpec AngularCl CovSpec CovProofs CovPsd CovFinal AclSpec AclProofs AclFinal Forecast GradSpec ContFinal
  Ad AdSpec AdProofs AdRel AdPower AdProbes AdArrSpec AdProbesFinal AdHalofit AdHalofitSpec AdHalofitFinal AdLike AdLikeSpec AdLikeProofs AdLikeFinal AdScore AdSurvey AdFinal AdParam AdParamCl AdJacSpec AdJac AdJacFinal AdBack AdBackSpec AdBackProofs AdBackFinal AdOver AdOverSpec AdOverProofs AdOverFinal AdFisher.
Opaque chi_table growth_table_ODE growth_table_gamma logspace.
Local Open Scope R_scope.

Lemma lim_slope f l : dv f 0 l -> is_lim (fun t => (f t - f 0) / t) 0 l.
Proof.
  intros H. apply is_derive_Reals in H. apply is_lim_spec. intros eps. destruct (H eps (cond_pos eps)) as [dl Hd]. exists dl. intros y Hy Hn.
  specialize (Hd y Hn). rewrite Rplus_0_l in Hd. apply Hd. unfold ball in Hy; cbn in Hy; unfold AbsRing_ball, abs, minus, plus, opp in Hy; cbn in Hy. rewrite Ropp_0, Rplus_0_r in Hy. exact Hy.
Qed.
Lemma lim_cont f l : dv f 0 l -> is_lim f 0 (f 0).
Proof. intros H. apply (is_lim_continuity f 0). apply derivable_continuous_pt. exists l. now apply is_derive_Reals. Qed.
Lemma lim_Rsum n (f : nat -> R -> R) (l : nat -> R) : (forall i, (i < n)%nat -> is_lim (f i) 0 (l i)) -> is_lim (fun t => Rsum n (fun i => f i t)) 0 (Rsum n l).
Proof.
  induction n as [ | n IH]; intros H; cbn [Rsum]; [ apply is_lim_const | ].
  apply (is_lim_plus (fun t => Rsum n (fun i => f i t)) (f n) 0 (Rsum n l) (l n)); [ apply IH; intros; apply H; lia | apply H; lia | reflexivity ].
Qed.
Lemma lim_mult f g (a b : R) : is_lim f 0 a -> is_lim g 0 b -> is_lim (fun t => f t * g t) 0 (a * b).
Proof. intros. now apply (is_lim_mult f g 0 a b). Qed.

Section Curvature.
Variables (la : linalg) (n : nat) (C : R -> list (list R)) (C' : list (list R)) (mu : R -> list R) (mu' : nat -> R) (P : list (list R)).
Hypotheses (HO : linalg_ok la) (WC : forall s, wf2 n n (C s)) (SY : forall s, symmetric n (C s)) (PD : pos_def n (C 0)) (MC : moving n C 0 C') (HI : is_inverse n (C 0) P)
  (MM : forall i, (i < n)%nat -> dv (fun s => el (mu s) i) 0 (mu' i)).
Lemma chi2_curves : is_lim (fun t => chi2 n (la_inv la n (C t)) (mu 0) (mu t) / t ^ 2) 0 (bilin n P mu' mu').
Proof.
  assert (IC := pos_def_invertible PD). assert (IP : la_inv la n (C 0) = P) by (apply (is_inverse_unique n (C 0)); [ apply (proj1 HO); [ apply WC | now exists P ] | exact HI ]).
  apply (is_lim_ext_loc (fun t => Rsum n (fun i => Rsum n (fun j => ((el (mu t) i - el (mu 0) i) / t) * el2 (la_inv la n (C t)) i j * ((el (mu t) j - el (mu 0) j) / t))))).
  { exists (mkposreal 1 Rlt_0_1). intros t _ Ht. unfold chi2, quad. unfold Rdiv at 3. rewrite <- Rsum_scal_r. apply Rsum_ext; intros i Hi. rewrite <- Rsum_scal_r. apply Rsum_ext; intros j Hj. field. exact Ht. }
  apply (lim_Rsum n (fun i t => Rsum n (fun j => ((el (mu t) i - el (mu 0) i) / t) * el2 (la_inv la n (C t)) i j * ((el (mu t) j - el (mu 0) j) / t)))). intros i Hi.
  apply (lim_Rsum n (fun j t => ((el (mu t) i - el (mu 0) i) / t) * el2 (la_inv la n (C t)) i j * ((el (mu t) j - el (mu 0) j) / t))). intros j Hj.
  apply lim_mult; [ apply lim_mult | ].
  - exact (lim_slope _ _ (MM i Hi)).
  - rewrite <- IP. exact (lim_cont _ _ (inv_moving HO WC IC MC Hi Hj)).
  - exact (lim_slope _ _ (MM j Hj)).
Qed.
Lemma like_curves f : (forall s, pos_def n (C s) -> f s = - (1 / 2) * chi2 n (la_inv la n (C s)) (mu 0) (mu s)) -> is_lim (fun t => f t / t ^ 2) 0 (- (1 / 2) * bilin n P mu' mu').
Proof.
  intros HF. destruct (@pos_def_open n C C' 0 (SY 0) PD MC) as (e & He & HE).
  apply (is_lim_ext_loc (fun t => - (1 / 2) * (chi2 n (la_inv la n (C t)) (mu 0) (mu t) / t ^ 2))).
  { exists (mkposreal e He). intros t Ht Hn. rewrite (HF t); [ field; exact Hn | ]. apply HE. exact Ht. }
  apply (is_lim_scal_l (fun t => chi2 n (la_inv la n (C t)) (mu 0) (mu t) / t ^ 2) (- (1 / 2)) 0 (bilin n P mu' mu')). apply chi2_curves.
Qed.
End Curvature.

Section Survey.
Variables (la : linalg) (c : cosmology) (d : direction) (probes : list probe) (ells : list R) (T : transfer) (nl : nonlinear) (P : gspectrum dual) (f_sky : R).
Hypotheses (HO : linalg_ok la) (B : built c) (NG : _gamma c = None) (Hok : probes_ok probes) (HN : noise_positive probes)
  (HZ : forall p d, In p probes -> In d (bins_of p) -> 0 <= nz_zmax d)
  (HP : forall l a, (l < length ells)%nat -> 1 / (1 + survey_zmax probes) <= a <= 1 -> 0 <= nl c ((el ells l + 1 / 2) / Rmax (chi c a) 1) a T)
  (HL : (2 <= length ells)%nat) (HK : forall l, (l < length ells)%nat -> 0 < knox_norm ells f_sky l)
  (J : jvp_rows (fun t => angular_cl (displaced c d t) (Array1 ells) probes T nl) (gangular_cl num_dual (dual_cosmo c d) (Array1 ells) probes P)).
Local Notation N := (length (get_cl_ordering probes)).
Local Notation n := (length ells).
Local Notation C := (displaced c d).
Local Notation KN' := (KN ells f_sky HK).
Local Notation NT' := (NT probes HN).
Local Notation FACTS s := (survey_facts (C s) ells probes T nl f_sky (curve_reachable c d s) (curve_growth c d NG s) Hok NT' HL KN').
Lemma survey_curves mu m Q M f sparse method : gaussian_cl_covariance_and_mean c (Array1 ells) probes T nl f_sky false = Ok (mu, A2 (n * N) (n * N) m) -> is_inverse (n * N) m Q ->
  gangular_cl num_dual (dual_cosmo c d) (Array1 ells) probes P = Ok M -> sparse = true \/ method = "inverse"%string \/ method = "cholesky"%string ->
  (forall t, survey_likelihood la (C t) ells probes T nl f_sky sparse mu false method = Ok (f t)) ->
  is_lim (fun t => f t / t ^ 2) 0 (- (1 / 2) * bilin (n * N) Q (el (map snd (concat M))) (el (map snd (concat M)))).
Proof.
  intros HM HQ HG Hm HF.
  destruct (survey_parts c d probes ells T nl P f_sky NG Hok HN HL HK J false) as (V & M' & noi & Cg & cov & EV & LV & EG & EN & EG2 & EC & LC).
  rewrite HG in EG. apply ok_inj in EG. subst M'.
  assert (W : forall s, exists m2, cov s = A2 (n * N) (n * N) m2 /\ wf2 (n * N) (n * N) m2 /\ symmetric (n * N) m2 /\ length (concat (V s)) = (n * N)%nat /\
    exists s3, gaussian_cl_covariance_and_mean (C s) (Array1 ells) probes T nl f_sky true = Ok (concat (V s), A3 N N n s3) /\ wf3 N N n s3 /\ denotes N N n s3 m2).
  { intros s. destruct (FACTS s) as (sig & noi' & mean & s3 & m2 & E1 & E2 & EM & E3 & E4 & E5 & E6 & W3 & DN & SY & LM).
    rewrite EV in E1. injection E1 as E1. rewrite EN in E2. injection E2 as E2. subst sig noi' mean. rewrite EC in E4. injection E4 as E4.
    exists m2. split; [ exact E4 | split; [ rewrite Nat.mul_comm; apply DN | split; [ assumption | split; [ assumption | ]]]]. exists s3. split; [ | split; assumption ].
    unfold gaussian_cl_covariance_and_mean. cbn [atleast_1d]. rewrite EV. cbn [bind]. rewrite EN. cbn [bind]. rewrite E3. reflexivity. }
  destruct LC as [cov r k g x HC LX | cov a b q g x HC LX]; [ | destruct (W 0) as (m2 & E & _); rewrite HC in E; discriminate ].
  assert (ER : r = (n * N)%nat /\ k = (n * N)%nat) by (destruct (W 0) as (m2 & E & _); rewrite HC in E; injection E as -> -> _; now split). destruct ER as [-> ->].
  assert (WF : forall s, wf2 (n * N) (n * N) (g s) /\ symmetric (n * N) (g s) /\ length (concat (V s)) = (n * N)%nat /\
    exists s3, gaussian_cl_covariance_and_mean (C s) (Array1 ells) probes T nl f_sky true = Ok (concat (V s), A3 N N n s3) /\ wf3 N N n s3 /\ denotes N N n s3 (g s)).
  { intros s. destruct (W s) as (m2 & E & H1 & H2 & H3 & s3 & H4). rewrite HC in E. injection E as ->. split; [ exact H1 | split; [ exact H2 | split; [ exact H3 | ]]]. now exists s3. }
  assert (E0 : mu = concat (V 0) /\ m = g 0).
  { unfold gaussian_cl_covariance_and_mean in HM. cbn [atleast_1d] in HM. pose proof (EV 0) as EV0. pose proof (EC 0) as EC0. rewrite (curve_0 c d B) in EV0. rewrite EV0 in HM. cbn [bind] in HM. rewrite EN in HM. cbn [bind] in HM. rewrite EC0 in HM. cbn [bind] in HM.
    rewrite HC in HM. injection HM as <- <-. now split. }
  destruct E0 as [-> ->].
  assert (PD : pos_def (n * N) (g 0)).
  { destruct (covariance_end_to_end c ells probes T nl f_sky) as (mean & dd & m & F1 & F2 & F3 & F4); try assumption; [ rewrite <- (curve_0 c d B); apply curve_reachable | rewrite <- (curve_0 c d B); now apply curve_growth | ].
    rewrite HM in F1. injection F1 as _ <- _ <-. exact F4. }
  assert (N0 := spectra_nonempty probes Hok).
  assert (CG : moving (n * N) g 0 (tangents2 x)) by (intros i j _ _; now apply mr_tangents).
  assert (CM : forall i, dv (fun s => el (concat (V s)) i) 0 (el (map snd (concat M)) i)).
  { intros i. apply (lr_tangents (fun s => concat (V s)) (concat M)). exact (concat_lr _ _ LV). }
  apply (like_curves la (n * N) g (tangents2 x) (fun s => concat (V s)) (el (map snd (concat M))) Q HO (fun s => proj1 (WF s)) (fun s => proj1 (proj2 (WF s))) PD CG HQ (fun i _ => CM i)).
  intros s PS. specialize (HF s). destruct (WF s) as (W1 & W2 & W3 & s3 & E3 & W4 & DN). destruct (WF 0) as (_ & _ & W30 & _).
  assert (IS : is_inverse (n * N) (g s) (la_inv la (n * N)%nat (g s))) by (apply (proj1 HO); [ apply W1 | now apply pos_def_invertible ]).
  assert (ED : gaussian_log_likelihood la (concat (V 0)) (concat (V s)) (A2 (n * N) (n * N) (g s)) false "inverse" = Ok (f s)).
  { unfold survey_likelihood in HF. destruct sparse.
    - rewrite E3 in HF. cbn [bind fst snd] in HF.
      assert (TI : trailing_invertible N n s3) by (refine (pos_def_trailing W4 _ DN _); [ lia | rewrite Nat.mul_comm; exact PS ]).
      destruct (sparse_eq_dense la HO N n s3 (g s) (concat (V 0)) (concat (V s)) false method W4 N0 ltac:(lia) DN TI ltac:(unfold wf1; rewrite W30; apply Nat.mul_comm) ltac:(unfold wf1; rewrite W3; apply Nat.mul_comm)) as (v & V1 & V2).
      rewrite V1 in HF. rewrite (Nat.mul_comm N n) in V2. congruence.
    - destruct Hm as [ | Hm]; [ discriminate | ].
      unfold gaussian_cl_covariance_and_mean in HF. cbn [atleast_1d] in HF. rewrite EV in HF. cbn [bind] in HF. rewrite EN in HF. cbn [bind] in HF. rewrite EC in HF. cbn [bind fst snd] in HF. rewrite HC in HF.
      destruct (cholesky_eq_inverse la HO (n * N) (g s) (concat (V 0)) (concat (V s)) false W1 W2 PS W30 W3) as (v & V1 & V2). destruct Hm as [-> | ->]; congruence. }
  rewrite (gll_dense_inverse la HO (n * N) (g s) _ (concat (V 0)) (concat (V s)) false W1 IS W30 W3) in ED. symmetry. now injection ED.
Qed.
End Survey.

(** ** the Hessian *)
Lemma hessian_curvature la c d probes ells osc f_sky : linalg_ok la -> linalg_shaped la ->
  built c -> expanding c -> _gamma c = None -> physical c -> moderate c ->
  (forall d, transfer_moves (eh osc) (geh num_dual osc) c d) -> sigmasqr_default c 8.0 (eh osc) <> 0 -> eh osc c (1 / 10000) <> 0 -> _sigma8 c <> 0 ->
  shallow (concat (map bins_of probes)) -> off_clip chi c probes ->
  (forall b, limber_epoch probes b -> D c b <> 0 /\ scale_found c b (eh osc) /\ forall k, formula_smooth c k b (eh osc) "takahashi2012") ->
  probes_ok probes -> noise_positive probes -> (2 <= length ells)%nat -> (forall l, In l ells -> 0 <= l) -> (forall l, (l < length ells)%nat -> 0 < knox_norm ells f_sky l) ->
  exists mu y, angular_cl c (Array1 ells) probes (eh osc) halofit_default = Ok mu /\
    gnotebook_likelihood (num_back_over num_dual) la (hessian_cosmo c d) ells probes (gmodel (num_back_over num_dual) true osc) f_sky (concat mu) = Ok y /\
    hessian_along y d <= 0 /\
    forall sparse method, sparse = true \/ method = "inverse"%string \/ method = "cholesky"%string -> exists f,
      (forall t, survey_likelihood la (displaced c d t) ells probes (eh osc) halofit_default f_sky sparse (concat mu) false method = Ok (f t)) /\
      is_lim (fun t => f t / t ^ 2) 0 (hessian_along y d / 2).
Proof.
  intros HO HS B HE NG HPh HMo HT HN8 HT0 H8 HSh HC HB Hok HN HL HE0 HKn.
  assert (HZ : forall p d, In p probes -> In d (bins_of p) -> 0 <= nz_zmax d).
  { intros p b Hp Hb. assert (IN : In b (concat (map bins_of probes))) by (apply in_concat; exists (bins_of p); split; [ now apply in_map | exact Hb ]). now destruct (HSh b IN) as [[Q _] _]. }
  assert (HP : forall l a, (l < length ells)%nat -> 1 / (1 + survey_zmax probes) <= a <= 1 -> 0 <= halofit_default c ((el ells l + 1 / 2) / Rmax (chi c a) 1) a (eh osc)).
  { intros l a Hl _. apply halofit_default_nonneg; [ exact HN8 | ]. apply HE0, nth_In, Hl. }
  assert (HD : forall x, limber_epoch probes x -> 0 < x /\ D c x <> 0).
  { intros x Hx. split; [ pose proof (limber_range probes x HSh Hx); pose proof node1_pos; lra | now destruct (HB x Hx) ]. }
  destruct (survey_fisher la c true osc ells probes f_sky HO B NG HD Hok HN HZ HP HL HKn) as (mu & s & m & Q & E1 & E2 & HQ & KF).
  destruct (KF [d]) as [(J & HJ) K]. destruct (K J HJ) as (t & F & _ & _ & FB & _ & FP & KH). cbn [length] in *.
  destruct (KH 0%nat ltac:(lia)) as (y & Y1 & Y2). cbn [nth] in Y1. specialize (Y2 0%nat ltac:(lia)). cbn [nth] in Y2. rewrite (FB 0%nat 0%nat ltac:(lia) ltac:(lia)) in Y2.
  destruct HJ as [[LJ _] HJ]. destruct (HJ 0%nat ltac:(cbn; lia)) as (rows & R1 & R2). cbn [nth] in R1.
  assert (EJ : forall k, (k < length ells * length (get_cl_ordering probes))%nat -> el2 J k 0 = el (map snd (concat rows)) k) by (intros k Hk; rewrite <- R2; rewrite el_col; [ reflexivity | lia ]).
  assert (EMU : exists sig, angular_cl c (Array1 ells) probes (eh osc) halofit_default = Ok sig /\ mu = concat sig).
  { unfold gaussian_cl_covariance_and_mean in E1. cbn [atleast_1d model_nl] in E1. destruct (angular_cl c (Array1 ells) probes (eh osc) halofit_default) as [sig | ]; cbn [bind] in E1; [ | discriminate ].
    exists sig. split; [ reflexivity | ]. destruct (noise_cl _ _) as [noi | ]; cbn [bind] in E1; [ | discriminate ]. destruct (gaussian_cl_covariance _ _ _ _ _ _) as [cv | ]; cbn [bind] in E1; [ | discriminate ]. now injection E1. }
  destruct EMU as (sig & S1 & ->). exists sig, y. split; [ exact S1 | split; [ exact Y1 | split ]].
  - specialize (FP (fun _ => 1)). unfold quad in FP. cbn [Rsum] in FP. rewrite (FB 0%nat 0%nat ltac:(lia) ltac:(lia)) in FP. lra.
  - intros sparse method Hm.
    destruct (default_survey_jvp la c d probes ells (eh osc) (geh num_dual osc) f_sky sparse (concat sig) false method HO HS B HE NG HPh HMo HT HN8 HT0 H8 HSh HC) as (f & z & F1 & _); try assumption.
    { intros b Hb. now destruct (HB b Hb) as (_ & Q1 & Q2). }
    { destruct (survey_facts c ells probes (eh osc) halofit_default f_sky) as (sg & noi & mean & s3 & m2 & G1 & _ & G2 & _ & _ & _ & _ & _ & _ & _ & G3); try assumption.
      - rewrite <- (curve_0 c d B). apply curve_reachable.
      - rewrite <- (curve_0 c d B). now apply curve_growth.
      - exact (NT probes HN).
      - exact (KN ells f_sky HKn).
      - rewrite S1 in G1. injection G1 as <-. rewrite <- G2. exact G3. }
    exists f. split; [ exact F1 | ].
    assert (JV : jvp_rows (fun t => angular_cl (displaced c d t) (Array1 ells) probes (eh osc) halofit_default) (gangular_cl num_dual (dual_cosmo c d) (Array1 ells) probes (gmodel num_dual true osc))).
    { apply spectra_jvp; try assumption.
      - intros l Hl. specialize (HE0 l Hl). lra.
      - intros b Hb. destruct (HB b Hb) as (_ & Q1 & Q2). apply halofit_default_moves; try assumption. now apply (limber_range probes). }
    pose proof (survey_curves la c d probes ells (eh osc) halofit_default (gmodel num_dual true osc) f_sky HO B NG Hok HN HZ HP HL HKn JV (concat sig) m Q rows f sparse method E2 HQ R1 Hm F1) as LIM.
    replace (hessian_along y d / 2) with (- (1 / 2) * bilin (length ells * length (get_cl_ordering probes)) Q (el (map snd (concat rows))) (el (map snd (concat rows)))); [ exact LIM | ].
    replace (hessian_along y d) with (- bilin (length ells * length (get_cl_ordering probes)) Q (fun k => el2 J k 0) (fun k => el2 J k 0)) by lra.
    rewrite (Rmult_comm (- (1 / 2))). unfold Rdiv. rewrite Ropp_mult_distr_l_reverse, <- Ropp_mult_distr_r, Rmult_1_l. f_equal. f_equal.
    unfold bilin. apply Rsum_ext; intros i Hi. apply Rsum_ext; intros j Hj. now rewrite !EJ.
Qed.
