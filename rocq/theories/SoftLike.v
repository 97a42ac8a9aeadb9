(** * The likelihood of a survey whose redshift densities are differentiable *)
From Coq Require Import Reals Lra Lia ZArith String List.
From Coquelicot Require Import Coquelicot.
From Verif Require Import Np NpLemmas Core Sparse SparseSpec SparseProofs DetSpec MxBridge DetProofs DetProofs2 DetPivots Likelihood LikelihoodSpec LikelihoodProofs Interp InterpProofs
  Background BgSpec BgPositive Transfer Power Redshift Bias Probes ProbesSpec AngularCl CovSpec CovProofs CovPsd CovFinal AclSpec AclProofs AclFinal GradSpec FisherSpec Deriv PosDefOpen OracleDeriv
  Ad AdSpec AdProofs AdFinal AdPower AdProbes AdRel AdProbesProofs AdArrSpec AdProbesFinal AdHalofit AdHalofitSpec AdHalofitFinal AdLike AdLikeProofs AdLikeSpec AdLikeFinal AdSurvey
  AdNuis AdNuisProofs AdNuisSpec AdNuisNz AdNuisFinal AdNuisLike AdNuisLikeProofs SoftSpec.
Import ListNotations.
Local Open Scope R_scope.
Opaque chi_table growth_table_ODE growth_table_gamma logspace.

Local Notation tang := (fun (f : R -> R) (x : dual) => tangent_of f 0 x).
Local Notation vr := (lr tang).
Local Notation mr := (lr (lr tang)).
Local Notation tr := (lr (lr (lr tang))).
Definition rest : direction := Direction 0 0 0 0 0 0 0 0.
(** ** spectra *)
Local Notation drel := (fun (f : R -> R) (_ : dual) => ex_derive f 0).
Lemma d_resp : respects drel. Proof. intros f h y E D. revert D. now apply ex_derive_ext. Qed.
Lemma d_cst (x : R) : ex_derive (fun _ : R => x) 0. Proof. apply ex_derive_const. Qed.
Lemma d_leaf (x : dual) : ex_derive (fun s => at_time s x) 0. Proof. unfold at_time. auto_derive. exact I. Qed.
Lemma d_add f h : ex_derive f 0 -> ex_derive h 0 -> ex_derive (fun s => f s + h s) 0. Proof. intros. now apply (ex_derive_plus (K := R_AbsRing) (V := R_NormedModule)). Qed.
Lemma d_mul f h : ex_derive f 0 -> ex_derive h 0 -> ex_derive (fun s => f s * h s) 0. Proof. intros. now apply ex_derive_mult. Qed.
Lemma d_div f h : h 0 <> 0 -> ex_derive f 0 -> ex_derive h 0 -> ex_derive (fun s => f s / h s) 0. Proof. intros. now apply ex_derive_div. Qed.
Lemma soft_delta d : soft_bin d -> gis_delta d = true -> snd (hdelta_z0 num_dual d) = 0.
Proof. unfold soft_bin, gis_delta, hdelta_z0. now destruct (gnz_fam d). Qed.
Lemma soft_ext d q : soft_bin d -> gis_delta d = false -> 0 <= q -> ex_derive (fun t => pz (read_nz (at_time t) d) q) 0.
Proof. unfold soft_bin, gis_delta. destruct (gnz_fam d); try discriminate; auto. Qed.
Lemma still_time t (x : dual) : snd x = 0 -> at_time t x = fst x. Proof. intros E. unfold at_time. rewrite E. ring. Qed.
Lemma soft_spectra c (S : list (gprobe dual)) ells T nl : built c -> expanding c -> _gamma c = None -> physical c -> moderate c ->
  shallow (concat (map bins_of (values S))) -> soft_survey S ->
  (exists V M, (forall t, angular_cl c (Array1 ells) (moved S t) T nl = Ok (V t)) /\ lr (lr tang) V M) \/ exists e, forall t, angular_cl c (Array1 ells) (moved S t) T nl = Err e.
Proof.
  intros B HE NG HP HMo HS HN. assert (P1 := node1_pos). set (lens := limber_epoch (values S)).
  assert (RL : forall b, lens b -> table_node 128 1 <= b <= 1) by (intros b; now apply limber_range).
  assert (RR : rr (lr (lr drel)) (fun t => angular_cl c (Array1 ells) (moved S t) T nl) (hangular_cl num_dual (dual_cosmo c rest) (Array1 ells) S (fun _ _ _ => cst num_dual 0))).
  { apply (e_angular_cl num_dual drel at_time (fun _ => True) d_resp (fun x => d_cst x) (fun x _ => d_leaf x) (fun f h _ _ => d_add f h) (fun f h _ _ => d_mul f h) (fun f h _ _ => d_div f h) (fun _ => c) (dual_cosmo c rest)
      (fun _ => R_jit c B NG) (jit_dual c rest NG) (d_cst (Omega_m c)) S T nl _ lens (fun _ => True) (fun d q => soft_bin d /\ gis_delta d = false /\ 0 <= q) (fun d => soft_bin d /\ gis_delta d = true) bias_ok); try (intros; match goal with |- ex_derive (fun _ => ?x) 0 => exact (d_cst x) end).
    - intros d0 q (H1 & H2 & H3). now apply soft_ext.
    - intros d0 b [H1 H2] Hb. apply (ex_derive_ext (fun _ => clip_lo (chi c (z2a (fst (hdelta_z0 num_dual d0))) - chi c b) 0)); [ intros t; now rewrite still_time by now apply soft_delta | apply d_cst ].
    - intros d0 b [H1 H2] Hb. apply (ex_derive_ext (fun _ => clip_lo (chi c (z2a (fst (hdelta_z0 num_dual d0)))) 1.0)); [ intros t; now rewrite still_time by now apply soft_delta | apply d_cst ].
    - intros a Ha. rewrite <- (displaced_0 c rest B). apply leaf_D0; try assumption. now apply RL.
    - intros am eta z0 b Hb Hf. assert (TI := leaf_ia eta z0 (a2z b)). rewrite a2z_eq in TI |- *. specialize (TI (proj1 (redshift_of b (RL b Hb))) Hf). eexists. apply TI.
    - now intros [ | | ].
    - intros zs zmax E1 E2. rewrite <- (@read_zmaxs dual fst) in E1. assert (Hm := probes_deepest _ _ _ E1 E2). fold (values S) in Hm.
      assert (LI : forall x, In x (limber_nodes zmax) -> lens x) by (intros x Hx; now apply (limber_in _ zmax)). split.
      + intros x Hx. apply LI in Hx. split; [ exact Hx | ]. apply RL in Hx. lra.
      + intros p Hp. destruct (HN p Hp) as [HB HI].
        assert (QZ : forall q, In q (map a2z (limber_nodes zmax)) -> tabulated q).
        { intros q Hq. apply in_map_iff in Hq. destruct Hq as (b & <- & Hb). rewrite a2z_eq. now apply redshift_of, RL, LI. }
        assert (SP : shallow (bins_of (read_probe fst p))).
        { intros d0 Hd0. apply HS. apply in_concat. exists (bins_of (read_probe fst p)). split; [ apply in_map; now apply in_map | exact Hd0 ]. }
        assert (NB : bins_ok (map a2z (limber_nodes zmax)) (fun d q => soft_bin d /\ gis_delta d = false /\ 0 <= q) (gbins_of p)).
        { intros d0 q Hd ED Hq. repeat split; [ now apply HB | exact ED | apply (QZ q Hq) ]. }
        destruct p as [p | p]; cbn [gprobe_ok gbins_of] in *; [ | split; [ exact NB | exact HI ] ].
        split; [ | split; [ now destruct (gwl_m p) | revert HI; destruct (gwl_ia p); intros HI; [ split; [ exact NB | exact HI ] | exact I ]]]. split.
        * intros d0 zm q z' Hd ED Em Hq Hz'. apply (in_linspace q zm 256) in Hz'. destruct Hz' as (i & Hi & Ez). split; [ exact I | ]. repeat split; [ now apply HB | exact ED | ].
          cbn [read_probe bins_of wl_bins] in SP. assert (DM : deepest (map (read_nz fst) (gwl_bins p)) zm) by (apply pymax_deepest; now rewrite (@map_zmax dual fst)).
          replace (INR 256) with 256 in Ez by (rewrite INR_IZR_INZ; reflexivity). rewrite Ez. replace (INR i * ((zm - q) / 256)) with (INR i / INR 256 * (zm - q)) by (replace (INR 256) with 256 by (rewrite INR_IZR_INZ; reflexivity); unfold Rdiv; ring).
          apply (tabulated_mid q zm); [ now apply QZ | now apply (deepest_tabulated _ _ SP) | apply frac_range; [ exact Hi | lia ]].
        * intros d0 Hd ED. split; [ now apply HB | exact ED ]. }
  destruct (rr_cases _ _ _ RR) as [(V & M & _ & E & L) | (e & _ & E)]; [ left | right; now exists e ].
  assert (G1 : forall f l, lr drel f l -> exists m, lr tang f m).
  { induction 1 as [f0 E0 | f0 x fx y l E0 D _ (m & IH)]; [ exists []; now constructor | ]. exists ((x 0, Derive x 0) :: m). apply (lr_cons tang f0 x fx); [ exact E0 | | exact IH ]. split; [ reflexivity | now apply Derive_correct ]. }
  assert (G2 : forall f l, lr (lr drel) f l -> exists m, lr (lr tang) f m).
  { induction 1 as [f0 E0 | f0 x fx y l E0 D _ (m & IH)]; [ exists []; now constructor | ]. destruct (G1 x y D) as (r & Hr). exists (r :: m). now apply (lr_cons (lr tang) f0 x fx). }
  destruct (G2 V M L) as (m & Lm). exists V, m. now split.
Qed.

Section Survey.
Variables (la : linalg) (c : cosmology) (S : list (gprobe dual)) (ells : list R) (T : transfer) (nl : nonlinear) (f_sky : R) (data : list R).
Hypotheses (HO : linalg_ok la) (HS : linalg_shaped la) (B : built c) (NG : _gamma c = None) (Hok : probes_ok (values S)) (HN : noise_positive (values S))
  (HG : forall p b, In p S -> In b (gbins_of p) -> fst (gnz_gals b) <> 0)
  (HZ : forall p d, In p (values S) -> In d (bins_of p) -> 0 <= nz_zmax d)
  (HP : forall l a, (l < length ells)%nat -> 1 / (1 + survey_zmax (values S)) <= a <= 1 -> 0 <= nl c ((el ells l + 1 / 2) / Rmax (chi c a) 1) a T)
  (HL : (2 <= length ells)%nat) (HK : forall l, (l < length ells)%nat -> 0 < knox_norm ells f_sky l)
  (J : (exists V M, (forall t, angular_cl c (Array1 ells) (moved S t) T nl = Ok (V t)) /\ lr (lr tang) V M) \/ exists e, forall t, angular_cl c (Array1 ells) (moved S t) T nl = Err e)
  (HD : length data = (length ells * length (get_cl_ordering (values S)))%nat).
Local Notation N := (length (hcl_ordering S)).
Local Notation n := (length ells).
Lemma NS t : length (get_cl_ordering (moved S t)) = N. Proof. unfold moved. now rewrite read_ordering. Qed.
Lemma HD' : length data = (n * N)%nat. Proof. rewrite HD. unfold values. now rewrite read_ordering. Qed.
Lemma KN : forall l, (l < n)%nat -> knox_norm ells f_sky l <> 0. Proof. intros l Hl. specialize (HK l Hl). lra. Qed.
Lemma noise_follow p : In p S -> rr vr (fun s => noise (read_probe (at_time s) p)) (hnoise num_dual p).
Proof.
  intros Hp. apply (e_noise num_dual tang at_time tangent_respects (t_cst 0) (t_mul 0) (t_div 0)). intros b Hb. split; [ apply t_leaf | ]. rewrite at_0. now apply (HG p).
Qed.
Lemma NT t : noise_total (moved S t).
Proof.
  intros p Hp. apply in_map_iff in Hp. destruct Hp as (q & <- & Hq). destruct (HN (read_probe fst q)) as (v & E & LV & _); [ now apply in_map | ].
  assert (ER : read_probe (at_time 0) q = read_probe fst q) by now rewrite at_0_eq.
  destruct (rr_cases _ _ _ (noise_follow q Hq)) as [(x & y & _ & EX & L) | (e & _ & EX)]; [ | specialize (EX 0); cbv beta in EX; rewrite ER in EX; congruence ].
  exists (x t). split; [ apply EX | ]. rewrite (lr_length _ _ _ L t), <- (lr_length _ _ _ L 0). assert (E0 := EX 0). cbv beta in E0. rewrite ER, E in E0. injection E0 as <-.
  rewrite LV, !read_bins, !map_length. reflexivity.
Qed.
Lemma OKT t : probes_ok (moved S t). Proof. exact (probes_ok_read fst (at_time t) S Hok). Qed.
Lemma c_reachable : reachable c. Proof. rewrite <- (displaced_0 c rest B). apply curve_reachable. Qed.
Lemma c_growth : _gamma_growth c = false. Proof. rewrite <- (displaced_0 c rest B). now apply curve_growth. Qed.
Local Notation FACTS s := (survey_facts c ells (moved S s) T nl f_sky c_reachable c_growth (OKT s) (NT s) HL KN).

Lemma msurvey_parts sparse : exists (V W : R -> list (list R)) M gW Cg cov, (forall s, angular_cl c (Array1 ells) (moved S s) T nl = Ok (V s)) /\ mr V M /\
  (forall s, noise_cl n (moved S s) = Ok (W s)) /\ hnoise_cl num_dual n S = Ok gW /\
  hgaussian_cl_covariance num_dual ells S M gW f_sky sparse = Ok Cg /\
  (forall s, gaussian_cl_covariance (Array1 ells) (moved S s) (V s) (W s) f_sky sparse = Ok (cov s)) /\ ar tang cov Cg.
Proof.
  destruct (FACTS 0) as (sig & noi & mean & s3 & m2 & E1 & E2 & EM & E3 & E4 & _).
  destruct J as [(V & M & E & L) | (e & E)]; [ | rewrite E in E1; discriminate ].
  assert (HV : V 0 = sig) by (rewrite E in E1; now injection E1).
  assert (RN : rr mr (fun s => noise_cl n (moved S s)) (hnoise_cl num_dual n S)).
  { apply (e_noise_cl num_dual tang at_time tangent_respects (t_cst 0) (t_mul 0) (t_div 0)). intros p Hp b Hb. split; [ apply t_leaf | ]. rewrite at_0. now apply (HG p). }
  destruct (rr_cases _ _ _ RN) as [(W & gW & EW & E' & LW) | (e & _ & E')]; [ | rewrite E' in E2; discriminate ].
  assert (HW : W 0 = noi) by (rewrite E' in E2; now injection E2).
  assert (RC := e_covariance num_dual tang at_time (t_cst 0) (t_add 0) (t_mul 0) (t_div 0) ells S V M W gW f_sky sparse (norm_nonzero ells f_sky HL KN) L LW).
  destruct (rr_cases _ _ _ RC) as [(cov & Cg & EG2 & EC & LC) | (e & _ & EC)].
  - exists V, W, M, gW, Cg, cov. repeat split; assumption.
  - specialize (EC 0). cbv beta in EC. fold (moved S 0) in EC. rewrite HV, HW in EC. destruct sparse; congruence.
Qed.
Lemma msurvey_dense il method : method = "inverse"%string \/ method = "cholesky"%string ->
  exists f, (forall t, survey_likelihood la c ells (moved S t) T nl f_sky false data il method = Ok (f t)) /\ ex_derive f 0.
Proof.
  intros HM. destruct (msurvey_parts false) as (V & W0 & M & gW & Cg & cov & EV & LV & EN & EGN & EG2 & EC & LC).
  assert (W : forall s, exists m2, cov s = A2 (n * N) (n * N) m2 /\ wf2 (n * N) (n * N) m2 /\ symmetric (n * N) m2 /\ length (concat (V s)) = (n * N)%nat).
  { intros s. destruct (FACTS s) as (sig & noi' & mean & s3 & m2 & E1 & E2 & EM & E3 & E4 & E5 & E6 & W3 & DN & SY & LM). rewrite !NS in *.
    rewrite EV in E1. injection E1 as E1. rewrite EN in E2. injection E2 as E2. subst sig noi' mean. rewrite EC in E4. injection E4 as E4.
    exists m2. split; [ exact E4 | split; [ rewrite Nat.mul_comm; apply DN | split; assumption ]]. }
  destruct LC as [cov r k f x HC LX | cov a b q f x HC LX]; [ | destruct (W 0) as (m2 & E & _); rewrite HC in E; discriminate ].
  assert (ER : r = (n * N)%nat /\ k = (n * N)%nat) by (destruct (W 0) as (m2 & E & _); rewrite HC in E; injection E as -> -> _; now split). destruct ER as [-> ->].
  assert (WF : forall s, wf2 (n * N) (n * N) (f s) /\ symmetric (n * N) (f s)) by (intros s; destruct (W s) as (m2 & E & H1 & H2 & _); rewrite HC in E; injection E as ->; now split).
  assert (WM : forall s, length (concat (V s)) = (n * N)%nat) by (intros s; now destruct (W s) as (m2 & _ & _ & _ & H)).
  assert (PD : pos_def (n * N) (f 0)).
  { destruct (covariance_end_to_end c ells (values S) T nl f_sky) as (mean & dd & m & F1 & F2 & F3 & F4); try assumption; [ apply c_reachable | apply c_growth | ].
    unfold gaussian_cl_covariance_and_mean in F1. cbn [atleast_1d] in F1. specialize (EV 0). specialize (EC 0). specialize (EN 0). rewrite moved_0 in EV, EC, EN. rewrite EV in F1. cbn [bind] in F1. rewrite EN in F1. cbn [bind] in F1. rewrite EC in F1. cbn [bind] in F1.
    rewrite HC in F1. injection F1 as _ <- _ <-. exact F4. }
  assert (SL : forall s, survey_likelihood la c ells (moved S s) T nl f_sky false data il method = gaussian_log_likelihood la data (concat (V s)) (A2 (n * N) (n * N) (f s)) il method).
  { intros s. unfold survey_likelihood, gaussian_cl_covariance_and_mean. cbn [atleast_1d]. rewrite EV. cbn [bind]. rewrite EN. cbn [bind]. rewrite EC. cbn [bind fst snd]. now rewrite HC. }
  assert (RR := dense_rr la HO HS (n * N) f x data (fun s => concat (V s)) (concat M) il method LX (concat_lr _ _ LV) (fun s => proj1 (WF s)) (fun s => proj2 (WF s)) PD).
  destruct (cholesky_eq_inverse la HO (n * N) (f 0) data (concat (V 0)) il (proj1 (WF 0)) (proj2 (WF 0)) PD HD' (WM 0)) as (v & V1 & V2).
  destruct (rr_ok_number _ _ v RR ltac:(destruct HM as [-> | ->]; assumption)) as (fv & y & H1 & H2 & H3). exists fv. split; [ intros t; rewrite SL; apply H1 | eexists; apply H3 ].
Qed.
Lemma msurvey_sparse il method :
  exists f, (forall t, survey_likelihood la c ells (moved S t) T nl f_sky true data il method = Ok (f t)) /\ ex_derive f 0.
Proof.
  destruct (msurvey_parts true) as (V & W0 & M & gW & Cg & cov & EV & LV & EN & EGN & EG2 & EC & LC).
  assert (W : forall s, exists s3, cov s = A3 N N n s3 /\ wf3 N N n s3 /\ length (concat (V s)) = (N * n)%nat /\ exists m2, denotes N N n s3 m2 /\
    gaussian_cl_covariance_and_mean c (Array1 ells) (moved S s) T nl f_sky false = Ok (concat (V s), A2 (n * N) (n * N) m2)).
  { intros s. destruct (FACTS s) as (sig & noi' & mean & s3 & m2 & E1 & E2 & EM & E3 & E4 & E5 & E6 & W3 & DN & SY & LM). rewrite !NS in *.
    rewrite EV in E1. injection E1 as E1. rewrite EN in E2. injection E2 as E2. subst sig noi' mean. rewrite EC in E3. injection E3 as E3.
    exists s3. split; [ exact E3 | split; [ exact W3 | split; [ rewrite LM; apply Nat.mul_comm | exists m2; split; assumption ]]]. }
  destruct LC as [cov r k f x HC LX | cov a b q f x HC LX]; [ destruct (W 0) as (m2 & E & _); rewrite HC in E; discriminate | ].
  assert (ER : a = N /\ b = N /\ q = n) by (destruct (W 0) as (m2 & E & _); rewrite HC in E; injection E as -> -> -> _; now repeat split). destruct ER as [-> [-> ->]].
  assert (N0 : (0 < N)%nat) by (rewrite <- (NS 0); apply spectra_nonempty, OKT).
  destruct (W 0) as (s3 & E & W3 & LM & m2 & DN & F0). rewrite HC in E. injection E as E. rewrite <- E in W3, DN. clear s3 E.
  assert (PD : pos_def (n * N) m2).
  { destruct (covariance_end_to_end c ells (values S) T nl f_sky) as (mean & dd & m & F1 & F2 & F3 & F4); try assumption; [ apply c_reachable | apply c_growth | ].
    rewrite <- moved_0, F0 in F1. injection F1 as _ <- _ <-. exact F4. }
  assert (TI : trailing_invertible N n (f 0)) by (refine (pos_def_trailing _ _ DN _); [ exact W3 | lia | rewrite Nat.mul_comm; exact PD ]).
  assert (SL : forall s, survey_likelihood la c ells (moved S s) T nl f_sky true data il method = gaussian_log_likelihood la data (concat (V s)) (A3 N N n (f s)) il method).
  { intros s. unfold survey_likelihood, gaussian_cl_covariance_and_mean. cbn [atleast_1d]. rewrite EV. cbn [bind]. rewrite EN. cbn [bind]. rewrite EC. cbn [bind fst snd]. now rewrite HC. }
  assert (RR := sparse_rr la HO HS N n f x data (fun s => concat (V s)) (concat M) il method N0 ltac:(lia) LX (concat_lr _ _ LV) W3 TI).
  destruct (sparse_eq_dense la HO N n (f 0) m2 data (concat (V 0)) il method W3 N0 ltac:(lia) DN TI ltac:(unfold wf1; rewrite HD'; apply Nat.mul_comm) LM) as (v & V1 & _).
  destruct (rr_ok_number _ _ v RR V1) as (fv & y & H1 & H2 & H3). exists fv. split; [ intros t; rewrite SL; apply H1 | eexists; apply H3 ].
Qed.
End Survey.

