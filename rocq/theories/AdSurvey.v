(** * Forward-mode differentiation of the whole pipeline, from the cosmological parameters to the log-likelihood *)
From Coquelicot Require Import Coquelicot.
From Verif Require Import Np NpLemmas Core Sparse SparseSpec SparseProofs DetSpec MxBridge DetProofs DetProofs2 DetPivots Likelihood LikelihoodSpec LikelihoodProofs Interp InterpProofs
  Background BgSpec BgPositive Transfer Power Redshift Probes ProbesSpec AngularCl CovSpec CovProofs CovPsd CovFinal AclSpec AclProofs AclFinal GradSpec FisherSpec Deriv PosDefOpen OracleDeriv
  Ad AdSpec AdProofs AdFinal AdPower AdProbes AdRel AdProbesProofs AdArrSpec AdProbesFinal AdHalofit AdHalofitSpec AdHalofitFinal AdLike AdLikeProofs AdLikeSpec AdLikeFinal.
Opaque chi_table growth_table_ODE growth_table_gamma logspace.
Local Open Scope R_scope.
Local Notation tang := (fun (f : R -> R) (x : dual) => tangent_of f 0 x).
Local Notation vr := (lr tang).
Local Notation mr := (lr (lr tang)).
Local Notation tr := (lr (lr (lr tang))).

Lemma survey_facts c ells probes T nl f_sky : reachable c -> _gamma_growth c = false -> probes_ok probes -> noise_total probes ->
  (2 <= length ells)%nat -> (forall l, (l < length ells)%nat -> knox_norm ells f_sky l <> 0) ->
  let N := length (get_cl_ordering probes) in let n := length ells in
  exists sig noi mean s3 m2, angular_cl c (Array1 ells) probes T nl = Ok sig /\ noise_cl n probes = Ok noi /\ mean = concat sig /\
    gaussian_cl_covariance (Array1 ells) probes sig noi f_sky true = Ok (A3 N N n s3) /\
    gaussian_cl_covariance (Array1 ells) probes sig noi f_sky false = Ok (A2 (n * N) (n * N) m2) /\
    gaussian_cl_covariance_and_mean c (Array1 ells) probes T nl f_sky true = Ok (mean, A3 N N n s3) /\
    gaussian_cl_covariance_and_mean c (Array1 ells) probes T nl f_sky false = Ok (mean, A2 (n * N) (n * N) m2) /\
    wf3 N N n s3 /\ denotes N N n s3 m2 /\ symmetric (n * N) m2 /\ length mean = (n * N)%nat.
Proof.
  intros Hr Hg Hok HT HL HK N n.
  destruct (mean_layout c ells probes T nl f_sky true Hr Hg Hok HT HL) as (sig & noi & mean & cov & G1 & G2 & CI & G3 & G4 & G5 & _).
  destruct (mean_layout c ells probes T nl f_sky false Hr Hg Hok HT HL) as (sg & nn & mn & cv & L1 & L2 & _ & L3 & L4 & _).
  rewrite G1 in L1. injection L1 as <-. rewrite G2 in L2. injection L2 as <-.
  destruct (spectra_exist probes (madd sig noi)) as [S HS].
  destruct (covariance_main ells probes sig noi f_sky S CI HS) as (s3 & m2 & K1 & KW & K2 & K3 & _).
  destruct (covariance_symmetric ells probes sig noi f_sky CI HK) as (s3' & m2' & _ & _ & K4 & SY).
  fold N n in K1, KW, K2, K4, SY, G5. rewrite K2 in K4. injection K4 as <-. rewrite K1 in G4. injection G4 as <-. rewrite K2 in L4. injection L4 as <-.
  assert (EM : mean = concat sig /\ mn = concat sig).
  { unfold gaussian_cl_covariance_and_mean in G3, L3. cbn [atleast_1d] in G3, L3. rewrite G1 in G3, L3. cbn [bind] in G3, L3. rewrite G2 in G3, L3. cbn [bind] in G3, L3. rewrite K1 in G3. rewrite K2 in L3. cbn [bind] in G3, L3.
    injection G3 as <-. injection L3 as <-. now split. }
  destruct EM as [-> ->].
  exists sig, noi, (concat sig), s3, m2. assert (DN : denotes N N n s3 m2) by (subst m2; now apply dense_of_denotes).
  do 8 (split; [ first [ reflexivity | assumption ] | ]). split; [ exact DN | split; [ exact SY | ]].
  rewrite G5. unfold n, N. apply Nat.mul_comm.
Qed.
Lemma spectra_nonempty probes : probes_ok probes -> (0 < length (get_cl_ordering probes))%nat.
Proof.
  intros [Hne Hall]. destruct probes as [ | p ps]; [ congruence | ]. destruct (Hall p ltac:(now left)) as [Hb _].
  assert (B : (0 < n_bins (p :: ps))%nat) by (unfold n_bins; simpl; rewrite app_length; destruct (bins_of p); [ congruence | simpl; lia ]).
  pose proof (proj2 (proj2 (proj2 (ordering_spec (p :: ps))))). nia.
Qed.
Lemma norm_nonzero ells f_sky : (2 <= length ells)%nat -> (forall l, (l < length ells)%nat -> knox_norm ells f_sky l <> 0) ->
  forall norm z, cov_norm ells f_sky = Ok norm -> In z norm -> z <> 0.
Proof.
  intros HL HK norm z E Hz. destruct (cov_norm_ok ells f_sky HL) as (norm' & E' & LN & EN). rewrite E in E'. injection E' as <-.
  apply (In_nth _ _ 0) in Hz. destruct Hz as (i & Hi & <-). rewrite LN in Hi. specialize (EN i Hi). unfold el in EN. rewrite EN. now apply HK.
Qed.
Lemma rr_of_rows F G : jvp_rows F G -> rr mr F G.
Proof.
  unfold jvp_rows. destruct G as [M | e]; [ intros (V & E & L1 & L2 & TG) | intros E ].
  - apply (rr_respects mr (fun s => Ok (V s))); [ intros s; symmetry; apply E | ]. apply rr_ok'.
    apply (lr_of_nth vr [] []); [ apply lr_respects | exact L1 | ]. intros i _. apply (lr_of_nth tang 0 (0, 0)); [ exact tangent_respects | intros s; apply L2 | intros j _; apply TG ].
  - apply (rr_respects mr (fun _ => Err e)); [ intros s; symmetry; apply E | ]. apply rr_err'.
Qed.
Lemma concat_lr f x : mr f x -> vr (fun s => concat (f s)) (concat x).
Proof. apply lr_concat. Qed.

Section Survey.
Variables (la : linalg) (c : cosmology) (d : direction) (probes : list probe) (ells : list R) (T : transfer) (nl : nonlinear) (P : gspectrum dual) (f_sky : R) (data : list R).
Hypotheses (HO : linalg_ok la) (HS : linalg_shaped la) (B : built c) (NG : _gamma c = None) (Hok : probes_ok probes) (HN : noise_positive probes)
  (HZ : forall p d, In p probes -> In d (bins_of p) -> 0 <= nz_zmax d)
  (HP : forall l a, (l < length ells)%nat -> 1 / (1 + survey_zmax probes) <= a <= 1 -> 0 <= nl c ((el ells l + 1 / 2) / Rmax (chi c a) 1) a T)
  (HL : (2 <= length ells)%nat) (HK : forall l, (l < length ells)%nat -> 0 < knox_norm ells f_sky l)
  (J : jvp_rows (fun t => angular_cl (displaced c d t) (Array1 ells) probes T nl) (gangular_cl num_dual (dual_cosmo c d) (Array1 ells) probes P))
  (HD : length data = (length ells * length (get_cl_ordering probes))%nat).
Local Notation N := (length (get_cl_ordering probes)).
Local Notation n := (length ells).
Local Notation C := (displaced c d).
Lemma KN : forall l, (l < n)%nat -> knox_norm ells f_sky l <> 0. Proof. intros l Hl. specialize (HK l Hl). lra. Qed.
Lemma NT : noise_total probes. Proof. intros p Hp. destruct (HN p Hp) as (v & A & B' & _). eauto. Qed.
Lemma curve_reachable s : reachable (C s). Proof. exists (C s), []. split; [ split; reflexivity | reflexivity ]. Qed.
Lemma curve_growth s : _gamma_growth (C s) = false. Proof. unfold displaced, make_cosmology. rewrite NG. reflexivity. Qed.
Local Notation FACTS s := (survey_facts (C s) ells probes T nl f_sky (curve_reachable s) (curve_growth s) Hok NT HL KN).
Lemma curve_0 : C 0 = c. Proof. apply displaced_0. exact B. Qed.

Lemma survey_parts sparse : exists (V : R -> list (list R)) M noi Cg cov, (forall s, angular_cl (C s) (Array1 ells) probes T nl = Ok (V s)) /\ mr V M /\
  gangular_cl num_dual (dual_cosmo c d) (Array1 ells) probes P = Ok M /\ noise_cl n probes = Ok noi /\
  ggaussian_cl_covariance num_dual ells probes M noi f_sky sparse = Ok Cg /\
  (forall s, gaussian_cl_covariance (Array1 ells) probes (V s) noi f_sky sparse = Ok (cov s)) /\ ar tang cov Cg.
Proof.
  destruct (FACTS 0) as (sig & noi & mean & s3 & m2 & E1 & E2 & EM & E3 & E4 & _).
  destruct (rr_cases _ _ _ (rr_of_rows _ _ J)) as [(V & M & EG & E & L) | (e & _ & E)]; [ | rewrite E in E1; discriminate ].
  assert (HV : V 0 = sig) by (rewrite E in E1; now injection E1).
  assert (RC := l_covariance num_dual tang (t_cst 0) (t_add 0) (t_mul 0) (t_div 0) ells probes V M noi f_sky sparse (norm_nonzero ells f_sky HL KN) L).
  destruct (rr_cases _ _ _ RC) as [(cov & Cg & EG2 & EC & LC) | (e & _ & EC)].
  - exists V, M, noi, Cg, cov. repeat split; assumption.
  - specialize (EC 0). cbv beta in EC. rewrite HV in EC. destruct sparse; congruence.
Qed.
Lemma survey_dense il method : method = "inverse"%string \/ method = "cholesky"%string ->
  jvp_number (fun t => survey_likelihood la (C t) ells probes T nl f_sky false data il method) (gsurvey_likelihood num_dual (linalg_dual la) (dual_cosmo c d) ells probes P f_sky false data il method).
Proof.
  intros HM. destruct (survey_parts false) as (V & M & noi & Cg & cov & EV & LV & EG & EN & EG2 & EC & LC).
  assert (W : forall s, exists m2, cov s = A2 (n * N) (n * N) m2 /\ wf2 (n * N) (n * N) m2 /\ symmetric (n * N) m2 /\ length (concat (V s)) = (n * N)%nat).
  { intros s. destruct (FACTS s) as (sig & noi' & mean & s3 & m2 & E1 & E2 & EM & E3 & E4 & E5 & E6 & W3 & DN & SY & LM).
    rewrite EV in E1. injection E1 as E1. rewrite EN in E2. injection E2 as E2. subst sig noi' mean. rewrite EC in E4. injection E4 as E4.
    exists m2. split; [ exact E4 | split; [ rewrite Nat.mul_comm; apply DN | split; assumption ]]. }
  destruct LC as [cov r k f x HC LX | cov a b q f x HC LX]; [ | destruct (W 0) as (m2 & E & _); rewrite HC in E; discriminate ].
  assert (ER : r = (n * N)%nat /\ k = (n * N)%nat) by (destruct (W 0) as (m2 & E & _); rewrite HC in E; injection E as -> -> _; now split). destruct ER as [-> ->].
  assert (WF : forall s, wf2 (n * N) (n * N) (f s) /\ symmetric (n * N) (f s)) by (intros s; destruct (W s) as (m2 & E & H1 & H2 & _); rewrite HC in E; injection E as ->; now split).
  assert (WM : forall s, length (concat (V s)) = (n * N)%nat) by (intros s; now destruct (W s) as (m2 & _ & _ & _ & H)).
  assert (PD : pos_def (n * N) (f 0)).
  { destruct (covariance_end_to_end c ells probes T nl f_sky) as (mean & dd & m & F1 & F2 & F3 & F4); try assumption; [ rewrite <- curve_0; apply curve_reachable | rewrite <- curve_0; apply curve_growth | ].
    unfold gaussian_cl_covariance_and_mean in F1. cbn [atleast_1d] in F1. specialize (EV 0). specialize (EC 0). rewrite curve_0 in EV. rewrite EV in F1. cbn [bind] in F1. rewrite EN in F1. cbn [bind] in F1. rewrite EC in F1. cbn [bind] in F1.
    rewrite HC in F1. injection F1 as _ <- _ <-. exact F4. }
  assert (SL : forall s, survey_likelihood la (C s) ells probes T nl f_sky false data il method = gaussian_log_likelihood la data (concat (V s)) (A2 (n * N) (n * N) (f s)) il method).
  { intros s. unfold survey_likelihood, gaussian_cl_covariance_and_mean. cbn [atleast_1d]. rewrite EV. cbn [bind]. rewrite EN. cbn [bind]. rewrite EC. cbn [bind fst snd]. now rewrite HC. }
  assert (GL : gsurvey_likelihood num_dual (linalg_dual la) (dual_cosmo c d) ells probes P f_sky false data il method = ggaussian_log_likelihood num_dual (linalg_dual la) data (concat M) (G2 (n * N) (n * N) x) il method).
  { unfold gsurvey_likelihood, ggaussian_cl_covariance_and_mean. rewrite EG. cbn [bind]. rewrite EN. cbn [bind]. rewrite EG2. reflexivity. }
  rewrite GL.
  assert (RR := dense_rr la HO HS (n * N) f x data (fun s => concat (V s)) (concat M) il method LX (concat_lr _ _ LV) (fun s => proj1 (WF s)) (fun s => proj2 (WF s)) PD).
  destruct (cholesky_eq_inverse la HO (n * N) (f 0) data (concat (V 0)) il (proj1 (WF 0)) (proj2 (WF 0)) PD HD (WM 0)) as (v & V1 & V2).
  destruct (rr_ok_number _ _ v RR ltac:(destruct HM as [-> | ->]; assumption)) as (fv & y & H1 & H2 & H3). exists fv, y. split; [ intros t; rewrite SL; apply H1 | split; assumption ].
Qed.
Lemma survey_sparse il method :
  jvp_number (fun t => survey_likelihood la (C t) ells probes T nl f_sky true data il method) (gsurvey_likelihood num_dual (linalg_dual la) (dual_cosmo c d) ells probes P f_sky true data il method).
Proof.
  destruct (survey_parts true) as (V & M & noi & Cg & cov & EV & LV & EG & EN & EG2 & EC & LC).
  assert (W : forall s, exists s3, cov s = A3 N N n s3 /\ wf3 N N n s3 /\ length (concat (V s)) = (N * n)%nat /\ exists m2, denotes N N n s3 m2 /\
    gaussian_cl_covariance_and_mean (C s) (Array1 ells) probes T nl f_sky false = Ok (concat (V s), A2 (n * N) (n * N) m2)).
  { intros s. destruct (FACTS s) as (sig & noi' & mean & s3 & m2 & E1 & E2 & EM & E3 & E4 & E5 & E6 & W3 & DN & SY & LM).
    rewrite EV in E1. injection E1 as E1. rewrite EN in E2. injection E2 as E2. subst sig noi' mean. rewrite EC in E3. injection E3 as E3.
    exists s3. split; [ exact E3 | split; [ exact W3 | split; [ rewrite LM; apply Nat.mul_comm | exists m2; split; assumption ]]]. }
  destruct LC as [cov r k f x HC LX | cov a b q f x HC LX]; [ destruct (W 0) as (m2 & E & _); rewrite HC in E; discriminate | ].
  assert (ER : a = N /\ b = N /\ q = n) by (destruct (W 0) as (m2 & E & _); rewrite HC in E; injection E as -> -> -> _; now repeat split). destruct ER as [-> [-> ->]].
  assert (N0 := spectra_nonempty probes Hok).
  destruct (W 0) as (s3 & E & W3 & LM & m2 & DN & F0). rewrite HC in E. injection E as E. rewrite <- E in W3, DN. clear s3 E.
  assert (PD : pos_def (n * N) m2).
  { destruct (covariance_end_to_end c ells probes T nl f_sky) as (mean & dd & m & F1 & F2 & F3 & F4); try assumption; [ rewrite <- curve_0; apply curve_reachable | rewrite <- curve_0; apply curve_growth | ].
    rewrite <- curve_0, F0 in F1. injection F1 as _ <- _ <-. exact F4. }
  assert (TI : trailing_invertible N n (f 0)) by (refine (pos_def_trailing _ _ DN _); [ exact W3 | lia | rewrite Nat.mul_comm; exact PD ]).
  assert (SL : forall s, survey_likelihood la (C s) ells probes T nl f_sky true data il method = gaussian_log_likelihood la data (concat (V s)) (A3 N N n (f s)) il method).
  { intros s. unfold survey_likelihood, gaussian_cl_covariance_and_mean. cbn [atleast_1d]. rewrite EV. cbn [bind]. rewrite EN. cbn [bind]. rewrite EC. cbn [bind fst snd]. now rewrite HC. }
  assert (GL : gsurvey_likelihood num_dual (linalg_dual la) (dual_cosmo c d) ells probes P f_sky true data il method = ggaussian_log_likelihood num_dual (linalg_dual la) data (concat M) (G3 N N n x) il method).
  { unfold gsurvey_likelihood, ggaussian_cl_covariance_and_mean. rewrite EG. cbn [bind]. rewrite EN. cbn [bind]. rewrite EG2. reflexivity. }
  rewrite GL.
  assert (RR := sparse_rr la HO HS N n f x data (fun s => concat (V s)) (concat M) il method N0 ltac:(lia) LX (concat_lr _ _ LV) W3 TI).
  destruct (sparse_eq_dense la HO N n (f 0) m2 data (concat (V 0)) il method W3 N0 ltac:(lia) DN TI ltac:(unfold wf1; rewrite HD; apply Nat.mul_comm) LM) as (v & V1 & _).
  destruct (rr_ok_number _ _ v RR V1) as (fv & y & H1 & H2 & H3). exists fv, y. split; [ intros t; rewrite SL; apply H1 | split; assumption ].
Qed.
End Survey.

(** ** public statements *)
Lemma survey_jvp la c d probes ells T nl P f_sky sparse data il method : linalg_ok la -> linalg_shaped la ->
  built c -> expanding c -> _gamma c = None -> physical c -> moderate c ->
  shallow (concat (map bins_of probes)) -> off_clip chi c probes -> (forall l, In l ells -> - 0.5 < l) ->
  (forall b, limber_epoch probes b -> spectrum_moves (fun c k a => nonlinear_matter_power c k a T nl) P c d b) ->
  probes_ok probes -> noise_positive probes ->
  (forall l a, (l < length ells)%nat -> 1 / (1 + survey_zmax probes) <= a <= 1 -> 0 <= nl c ((el ells l + 1 / 2) / Rmax (chi c a) 1) a T) ->
  (2 <= length ells)%nat -> (forall l, (l < length ells)%nat -> 0 < knox_norm ells f_sky l) ->
  length data = (length ells * length (get_cl_ordering probes))%nat -> sparse = true \/ method = "inverse"%string \/ method = "cholesky"%string ->
  jvp_number (fun t => survey_likelihood la (displaced c d t) ells probes T nl f_sky sparse data il method)
    (gsurvey_likelihood num_dual (linalg_dual la) (dual_cosmo c d) ells probes P f_sky sparse data il method).
Proof.
  intros HO HS B HE NG HPh HMo HSh HC HEL HK Hok HN HP HL HKn HD HM.
  assert (J := spectra_jvp c d probes ells T nl P B HE NG HPh HMo HSh HC HEL HK).
  assert (HZ : forall p d, In p probes -> In d (bins_of p) -> 0 <= nz_zmax d).
  { intros p b Hp Hb. assert (IN : In b (concat (map bins_of probes))) by (apply in_concat; exists (bins_of p); split; [ now apply in_map | exact Hb ]). now destruct (HSh b IN) as [[Q _] _]. }
  destruct sparse; [ now apply survey_sparse | ]. apply survey_dense; try assumption. destruct HM as [ | ]; [ discriminate | assumption ].
Qed.
Lemma default_survey_jvp la c d probes ells T GT f_sky sparse data il method : linalg_ok la -> linalg_shaped la ->
  built c -> expanding c -> _gamma c = None -> physical c -> moderate c ->
  (forall d, transfer_moves T GT c d) -> sigmasqr_default c 8.0 T <> 0 -> T c (1 / 10000) <> 0 -> _sigma8 c <> 0 ->
  shallow (concat (map bins_of probes)) -> off_clip chi c probes ->
  (forall b, limber_epoch probes b -> scale_found c b T /\ forall k, formula_smooth c k b T "takahashi2012") ->
  probes_ok probes -> noise_positive probes -> (2 <= length ells)%nat -> (forall l, In l ells -> 0 <= l) -> (forall l, (l < length ells)%nat -> 0 < knox_norm ells f_sky l) ->
  length data = (length ells * length (get_cl_ordering probes))%nat -> sparse = true \/ method = "inverse"%string \/ method = "cholesky"%string ->
  jvp_number (fun t => survey_likelihood la (displaced c d t) ells probes T halofit_default f_sky sparse data il method)
    (gsurvey_likelihood num_dual (linalg_dual la) (dual_cosmo c d) ells probes (ghalofit_default num_dual GT) f_sky sparse data il method).
Proof.
  intros HO HS B HE NG HPh HMo HT HN8 HT0 H8 HSh HC HB Hok HN HL HE0 HKn HD HM.
  apply survey_jvp; try assumption.
  - intros l Hl. specialize (HE0 l Hl). lra.
  - intros b Hb. destruct (HB b Hb). apply halofit_default_moves; try assumption. now apply (limber_range probes).
  - intros l a Hl _. apply halofit_default_nonneg; [ exact HN8 | ]. apply HE0, nth_In, Hl.
Qed.
Lemma like_programs la c probes ells T nl P f_sky sparse data il method : built c -> _gamma c = None ->
  (forall mu C, ggaussian_log_likelihood num_R (linalg_R la) data mu C il method = gaussian_log_likelihood la data mu (arr_of C) il method) /\
  ((forall b, limber_epoch probes b -> 0 < b /\ D c b <> 0) -> (forall k a, P (lift_cosmo c) k a = nonlinear_matter_power c k a T nl) ->
   bind (ggaussian_cl_covariance_and_mean num_R (lift_cosmo c) ells probes P f_sky sparse) (fun mc => Ok (fst mc, arr_of (snd mc))) = gaussian_cl_covariance_and_mean c (Array1 ells) probes T nl f_sky sparse /\
   gsurvey_likelihood num_R (linalg_R la) (lift_cosmo c) ells probes P f_sky sparse data il method = survey_likelihood la c ells probes T nl f_sky sparse data il method).
Proof.
  intros B NG. split; [ intros; apply like_program | ]. intros HD HK.
  assert (E := proj2 (probes_programs c [] 0 probes T nl P B NG) HD HK (Array1 ells)).
  assert (EC : bind (ggaussian_cl_covariance_and_mean num_R (lift_cosmo c) ells probes P f_sky sparse) (fun mc => Ok (fst mc, arr_of (snd mc))) = gaussian_cl_covariance_and_mean c (Array1 ells) probes T nl f_sky sparse).
  { unfold ggaussian_cl_covariance_and_mean, gaussian_cl_covariance_and_mean. cbn [atleast_1d]. rewrite E. destruct (angular_cl c (Array1 ells) probes T nl) as [sig | e]; [ | reflexivity ]. cbn [bind].
    destruct (noise_cl (length ells) probes) as [noi | e]; [ | reflexivity ]. cbn [bind]. rewrite cov_program. now destruct (ggaussian_cl_covariance num_R ells probes sig noi f_sky sparse). }
  split; [ exact EC | ]. unfold gsurvey_likelihood, survey_likelihood. rewrite <- EC.
  destruct (ggaussian_cl_covariance_and_mean num_R (lift_cosmo c) ells probes P f_sky sparse) as [mc | e]; [ | reflexivity ]. cbn [bind fst snd]. apply like_program.
Qed.
