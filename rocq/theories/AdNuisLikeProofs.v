(** * Noise, covariance and likelihood of a survey that moves *)
From Coq Require Import Reals Lra Lia ZArith String List.
From Coquelicot Require Import Coquelicot.
From Verif Require Import Np NpLemmas Core Sparse SparseSpec SparseProofs DetSpec MxBridge DetProofs DetProofs2 DetPivots Likelihood LikelihoodSpec LikelihoodProofs Interp InterpProofs
  Background BgSpec BgPositive Transfer Power Redshift Bias Probes ProbesSpec AngularCl CovSpec CovProofs CovPsd CovFinal AclSpec AclProofs AclFinal GradSpec FisherSpec Deriv PosDefOpen OracleDeriv
  Ad AdSpec AdProofs AdFinal AdPower AdProbes AdRel AdProbesProofs AdArrSpec AdProbesFinal AdHalofit AdHalofitSpec AdHalofitFinal AdLike AdLikeProofs AdLikeSpec AdLikeFinal AdSurvey
  AdNuis AdNuisProofs AdNuisSpec AdNuisNz AdNuisFinal AdNuisLike.
Import ListNotations.
Local Open Scope R_scope.
Opaque chi_table growth_table_ODE growth_table_gamma logspace.

Section Follow.
Context {A : Type} (N : num A) (rel : (R -> R) -> A -> Prop) (lf : R -> A -> R).
Hypotheses (r_resp : respects rel) (r_cst : forall x, rel (fun _ => x) (cst N x))
  (r_add : forall f h x y, rel f x -> rel h y -> rel (fun s => f s + h s) (nadd N x y))
  (r_mul : forall f h x y, rel f x -> rel h y -> rel (fun s => f s * h s) (nmul N x y))
  (r_div : forall f h x y, h 0 <> 0 -> rel f x -> rel h y -> rel (fun s => f s / h s) (ndiv N x y)).
Local Notation "' x" := (cst N x%R) (at level 1, format "' x").
Local Notation vr := (lr rel).
Local Notation mr := (lr (lr rel)).
Local Notation tr := (lr (lr (lr rel))).
(** a relation that remembers that the curve does not vanish at the start *)
Definition nzr (f : R -> R) (x : A) : Prop := rel f x /\ f 0 <> 0.
Definition peopled (p : gprobe A) : Prop := forall d, In d (gbins_of p) -> rel (fun s => lf s (gnz_gals d)) (gnz_gals d) /\ lf 0 (gnz_gals d) <> 0.
Lemma e_gals ds : (forall d, In d ds -> rel (fun s => lf s (gnz_gals d)) (gnz_gals d) /\ lf 0 (gnz_gals d) <> 0) -> lr nzr (fun s => map gals_per_steradian (map (read_nz (lf s)) ds)) (map (hgals N) ds).
Proof.
  intros H. apply (lr_respects nzr (fun s => map (fun d => gals_per_steradian (read_nz (lf s) d)) ds)); [ intros s; now rewrite map_map | ].
  apply (lr_mapc nzr (fun s d => gals_per_steradian (read_nz (lf s) d))). intros d Hd. destruct (H d Hd) as [HL H0]. clear H.
  assert (E : forall s, gals_per_steradian (read_nz (lf s) d) = lf s (gnz_gals d) * steradian_to_arcmin2) by (intros s; unfold gals_per_steradian; now rewrite read_gals).
  split.
  - apply (r_resp (fun s => lf s (gnz_gals d) * steradian_to_arcmin2)); [ intros s; symmetry; apply E | ]. apply (r_mul (fun s => lf s (gnz_gals d)) (fun _ => steradian_to_arcmin2)); auto.
  - rewrite E. unfold steradian_to_arcmin2. apply Rmult_integral_contrapositive_currified; [ exact H0 | lra ].
Qed.
Lemma e_noise p : peopled p -> rr vr (fun s => noise (read_probe (lf s) p)) (hnoise N p).
Proof.
  intros HP. destruct p as [p | p]; cbn [read_probe noise hnoise].
  - unfold wl_noise. cbn [wl_bins wl_sigma_e]. assert (G := e_gals (gwl_bins p) HP). destruct (gwl_sigma_e p) as [s0 | ss].
    + apply rr_ok'. apply (lr_map nzr rel (fun _ g => s0 ^ 2 / g)); [ | exact G ]. intros f x [H1 H2]. apply (r_div (fun _ => s0 ^ 2)); auto.
    + apply (rr_bcast same nzr rel (fun s g => s ^ 2 / g) (fun s g => ndiv N '(s ^ 2) g) (fun _ => ss) ss); [ | apply lr_const | exact G ].
      intros f y x' y' E [H1 H2]. apply (r_resp (fun s => y ^ 2 / x' s)); [ intros s; now rewrite (E s) | ]. apply (r_div (fun _ => y ^ 2)); auto.
  - apply rr_ok'. unfold nc_noise. cbn [nc_bins].
    apply (lr_respects rel (fun s => map (fun g => 1.0 / g) (map gals_per_steradian (map (read_nz (lf s)) (gnc_bins p))))); [ intros s; rewrite map_map; reflexivity | ].
    replace (map (fun d => ndiv N '1.0 (hgals N d)) (gnc_bins p)) with (map (fun g => ndiv N '1.0 g) (map (hgals N) (gnc_bins p))) by (now rewrite map_map).
    apply (lr_map nzr rel (fun _ g => 1.0 / g)); [ | now apply e_gals ]. intros f x [H1 H2]. apply (r_div (fun _ => 1.0)); auto.
Qed.
Lemma e_noise_cl n S : (forall p, In p S -> peopled p) -> rr mr (fun s => noise_cl n (map (read_probe (lf s)) S)) (hnoise_cl N n S).
Proof.
  intros HP. apply (rr_respects mr (fun s => bind (mapM (fun p => noise (read_probe (lf s) p)) S) (fun ns => Ok (map (fun ij => repeat (el (concat ns) (fst ij) * (1.0 - clip (absdiff (fst ij) (snd ij)) 0.0 1.0) * 1) n) (hcl_ordering S))))).
  { intros s. unfold noise_cl. cbv zeta. now rewrite read_ordering, mapM_map. }
  unfold hnoise_cl. cbv zeta. apply (rr_bind mr mr _ _ (fun _ ns => Ok (map (fun ij => repeat (el (concat ns) (fst ij) * (1.0 - clip (absdiff (fst ij) (snd ij)) 0.0 1.0) * 1) n) (hcl_ordering S)))).
  - apply (rr_mapM vr (fun s p => noise (read_probe (lf s) p))). intros p Hp. now apply e_noise, HP.
  - intros f x P. apply rr_ok'. apply (lr_mapc vr (fun s ij => repeat (el (concat (f s)) (fst ij) * (1.0 - clip (absdiff (fst ij) (snd ij)) 0.0 1.0) * 1) n)). intros ij _.
    apply (lr_repeat rel (fun s => el (concat (f s)) (fst ij) * (1.0 - clip (absdiff (fst ij) (snd ij)) 0.0 1.0) * 1)).
    apply (r_mul _ (fun _ => 1)); [ apply (r_mul _ (fun _ => 1.0 - clip (absdiff (fst ij) (snd ij)) 0.0 1.0)) | ]; auto.
    apply (l_el N rel r_resp r_cst). now apply lr_concat.
Qed.
Lemma e_covariance ell S sig gsig noi gnoi f_sky sparse : (forall norm z, cov_norm ell f_sky = Ok norm -> In z norm -> z <> 0) -> mr sig gsig -> mr noi gnoi ->
  rr (ar rel) (fun s => gaussian_cl_covariance (Array1 ell) (map (read_probe (lf s)) S) (sig s) (noi s) f_sky sparse) (hgaussian_cl_covariance N ell S gsig gnoi f_sky sparse).
Proof.
  intros Z P PN.
  assert (OB : mr (fun s => madd (sig s) (noi s)) (map2 (gvadd N) gsig gnoi)) by (apply (lr_map2 vr vr vr (fun _ => vadd) (gvadd N) sig gsig noi gnoi); [ intros; now apply (l_vadd N rel r_add) | exact P | exact PN ]).
  apply (rr_respects (ar rel) (fun s => bind (cov_norm ell f_sky) (fun norm => bind (cov_blocks_ordering (hcl_ordering S)) (fun blocks =>
    if negb (Nat.eqb (length (map (cov_row (madd (sig s) (noi s)) norm) blocks)) (length (madd (sig s) (noi s)) * length (madd (sig s) (noi s)))) then Err TypeError
    else if sparse then Ok (A3 (length (madd (sig s) (noi s))) (length (madd (sig s) (noi s))) (length ell) (chunk (length (madd (sig s) (noi s))) (length (madd (sig s) (noi s))) (map (cov_row (madd (sig s) (noi s)) norm) blocks)))
    else Ok (A2 (length ell * length (madd (sig s) (noi s))) (length ell * length (madd (sig s) (noi s))) (vstack (map (hstack (length ell)) (chunk (length (madd (sig s) (noi s))) (length (madd (sig s) (noi s)))
      (map (fun cov => map (vmul cov) (eye (length ell))) (map (cov_row (madd (sig s) (noi s)) norm) blocks)))))))))).
  { intros s. unfold gaussian_cl_covariance, get_cov_blocks_ordering. cbv zeta. cbn [atleast_1d]. now rewrite read_ordering. }
  assert (LN := lr_length vr _ _ OB). unfold hgaussian_cl_covariance. cbv zeta. set (ob := map2 (gvadd N) gsig gnoi) in *. set (OBS := fun s => madd (sig s) (noi s)) in *.
  apply rr_bindc. intros norm EN. apply rr_bindc. intros blocks EB.
  assert (RW : mr (fun s => map (cov_row (OBS s) norm) blocks) (map (gcov_row N ob norm) blocks)).
  { apply (lr_mapc vr (fun s => cov_row (OBS s) norm)). intros b _. apply (l_cov_row N rel r_cst r_add r_mul r_div OBS); [ intros z; now apply Z | exact OB ]. }
  apply (rr_respects (ar rel) (fun s => if negb (Nat.eqb (length (map (gcov_row N ob norm) blocks)) (length ob * length ob)) then Err TypeError else
    if sparse then Ok (A3 (length ob) (length ob) (length ell) (chunk (length ob) (length ob) (map (cov_row (OBS s) norm) blocks)))
    else Ok (A2 (length ell * length ob) (length ell * length ob) (vstack (map (hstack (length ell)) (chunk (length ob) (length ob)
      (map (fun cov => map (vmul cov) (eye (length ell))) (map (cov_row (OBS s) norm) blocks)))))))).
  { intros s. fold (OBS s). rewrite LN, (lr_length vr _ _ RW). reflexivity. }
  destruct (negb _); [ apply rr_err' | ]. destruct sparse; apply rr_ok'.
  - apply (ar3 rel _ _ _ _ (fun s => chunk (length ob) (length ob) (map (cov_row (OBS s) norm) blocks))); [ reflexivity | ]. now apply l_chunk.
  - apply (ar2 rel _ _ _ (fun s => vstack (map (hstack (length ell)) (chunk (length ob) (length ob)
      (map (fun cov => map (vmul cov) (eye (length ell))) (map (cov_row (OBS s) norm) blocks)))))); [ reflexivity | ].
    apply lr_concat. apply (lr_map tr mr (fun _ => hstack (length ell)) (ghstack (length ell))).
    + intros u v Hu. apply (lr_tab vr). intros i _. apply lr_concat. apply (lr_map mr vr (fun _ m => nth i m []) (fun m => nth i m [])); [ intros p q Hp; now apply l_row | exact Hu ].
    + apply l_chunk. apply (lr_map vr mr (fun _ cov => map (vmul cov) (eye (length ell)))); [ | exact RW ].
      intros u v Hu. apply (lr_mapc vr (fun s row => vmul (u s) row)). intros row _. apply (l_vmul N rel r_mul u (fun _ => row)); [ exact Hu | apply (l_csts N rel r_cst) ].
Qed.
End Follow.

(** ** shapes do not depend on the parameters *)
Lemma fits_bias {A} (v w : A -> R) n b : bias_fits n (read_bias_arg v b) -> bias_fits n (read_bias_arg w b).
Proof. destruct b; cbn [read_bias_arg bias_fits]; [ auto | now rewrite !map_length ]. Qed.
Lemma fits_m {A} (v w : A -> R) n m : m_fits n (read_m v m) -> m_fits n (read_m w m).
Proof. destruct m; cbn [read_m m_fits]; [ auto | now rewrite !map_length ]. Qed.
Lemma no_delta_read {A} (v w : A -> R) l : ProbesSpec.no_delta (map (read_nz v) l) -> ProbesSpec.no_delta (map (read_nz w) l).
Proof. intros H d Hd. apply in_map_iff in Hd. destruct Hd as (e & <- & He). rewrite read_delta, <- (read_delta v). apply H. now apply in_map. Qed.
Lemma probe_ok_read {A} (v w : A -> R) p : ProbesSpec.probe_ok (read_probe v p) -> ProbesSpec.probe_ok (read_probe w p).
Proof.
  intros [H1 H2]. split.
  - rewrite read_bins in *. destruct (gbins_of p); [ now destruct H1 | discriminate ].
  - destruct p as [p | p]; cbn [read_probe wl_bins wl_m wl_ia nc_bins nc_bias] in *; rewrite map_length in *.
    + destruct H2 as [H2 H3]. split; [ now apply (fits_m v) | ]. destruct (gwl_ia p) as [b | ]; [ | exact I ]. cbn [option_map] in *. destruct H3 as [H3 H4]. split; [ now apply (fits_bias v) | now apply (no_delta_read v) ].
    + destruct H2 as [H2 H3]. split; [ now apply (fits_bias v) | now apply (no_delta_read v) ].
Qed.
Lemma probes_ok_read {A} (v w : A -> R) S : probes_ok (map (read_probe v) S) -> probes_ok (map (read_probe w) S).
Proof.
  intros [H1 H2]. split; [ destruct S; [ now destruct H1 | discriminate ] | ]. intros p Hp. apply in_map_iff in Hp. destruct Hp as (q & <- & Hq). apply (probe_ok_read v). apply H2. now apply in_map.
Qed.

Local Notation tang := (fun (f : R -> R) (x : dual) => tangent_of f 0 x).
Local Notation vr := (lr tang).
Local Notation mr := (lr (lr tang)).
Local Notation tr := (lr (lr (lr tang))).
Section Survey.
Variables (la : linalg) (c : cosmology) (d : direction) (S : list (gprobe dual)) (ells : list R) (T : transfer) (nl : nonlinear) (P : gspectrum dual) (f_sky : R) (data : list R).
Hypotheses (HO : linalg_ok la) (HS : linalg_shaped la) (B : built c) (NG : _gamma c = None) (Hok : probes_ok (values S)) (HN : noise_positive (values S))
  (HG : forall p b, In p S -> In b (gbins_of p) -> fst (gnz_gals b) <> 0)
  (HZ : forall p d, In p (values S) -> In d (bins_of p) -> 0 <= nz_zmax d)
  (HP : forall l a, (l < length ells)%nat -> 1 / (1 + survey_zmax (values S)) <= a <= 1 -> 0 <= nl c ((el ells l + 1 / 2) / Rmax (chi c a) 1) a T)
  (HL : (2 <= length ells)%nat) (HK : forall l, (l < length ells)%nat -> 0 < knox_norm ells f_sky l)
  (J : jvp_rows (fun t => angular_cl (displaced c d t) (Array1 ells) (moved S t) T nl) (hangular_cl num_dual (dual_cosmo c d) (Array1 ells) S P))
  (HD : length data = (length ells * length (get_cl_ordering (values S)))%nat).
Local Notation N := (length (hcl_ordering S)).
Local Notation n := (length ells).
Local Notation C := (displaced c d).
Lemma NS t : length (get_cl_ordering (moved S t)) = N. Proof. unfold moved. now rewrite read_ordering. Qed.
Lemma HD' : length data = (n * N)%nat. Proof. rewrite HD. unfold values. now rewrite read_ordering. Qed.
Lemma KN : forall l, (l < n)%nat -> knox_norm ells f_sky l <> 0. Proof. intros l Hl. specialize (HK l Hl). lra. Qed.
Lemma noise_follow p : In p S -> rr vr (fun s => noise (read_probe (at_time s) p)) (hnoise num_dual p).
Proof.
  intros Hp. apply (e_noise num_dual tang at_time tangent_respects (t_cst 0) (t_mul 0) (t_div 0)). intros b Hb. split; [ apply t_leaf | ]. rewrite at_0. now apply (HG p).
Qed.
Lemma NT t : noise_total (moved S t).
Proof.
  intros p Hp. apply in_map_iff in Hp. destruct Hp as (q & <- & Hq). destruct (HN (read_probe fst q)) as (v & E & LV & _); [ now apply in_map | ].
  assert (ER : read_probe (at_time 0) q = read_probe fst q) by now rewrite at_0_eq.
  destruct (rr_cases _ _ _ (noise_follow q Hq)) as [(x & y & _ & EX & L) | (e & _ & EX)]; [ | specialize (EX 0); cbv beta in EX; rewrite ER in EX; congruence ].
  exists (x t). split; [ apply EX | ]. rewrite (lr_length _ _ _ L t), <- (lr_length _ _ _ L 0). assert (E0 := EX 0). cbv beta in E0. rewrite ER, E in E0. injection E0 as <-.
  rewrite LV, !read_bins, !map_length. reflexivity.
Qed.
Lemma OKT t : probes_ok (moved S t). Proof. exact (probes_ok_read fst (at_time t) S Hok). Qed.
Local Notation FACTS s := (survey_facts (C s) ells (moved S s) T nl f_sky (curve_reachable c d s) (curve_growth c d NG s) (OKT s) (NT s) HL KN).
Lemma mcurve_0 : C 0 = c. Proof. apply displaced_0. exact B. Qed.

Lemma msurvey_parts sparse : exists (V W : R -> list (list R)) M gW Cg cov, (forall s, angular_cl (C s) (Array1 ells) (moved S s) T nl = Ok (V s)) /\ mr V M /\
  hangular_cl num_dual (dual_cosmo c d) (Array1 ells) S P = Ok M /\ (forall s, noise_cl n (moved S s) = Ok (W s)) /\ hnoise_cl num_dual n S = Ok gW /\
  hgaussian_cl_covariance num_dual ells S M gW f_sky sparse = Ok Cg /\
  (forall s, gaussian_cl_covariance (Array1 ells) (moved S s) (V s) (W s) f_sky sparse = Ok (cov s)) /\ ar tang cov Cg.
Proof.
  destruct (FACTS 0) as (sig & noi & mean & s3 & m2 & E1 & E2 & EM & E3 & E4 & _).
  destruct (rr_cases _ _ _ (rr_of_rows _ _ J)) as [(V & M & EG & E & L) | (e & _ & E)]; [ | rewrite E in E1; discriminate ].
  assert (HV : V 0 = sig) by (rewrite E in E1; now injection E1).
  assert (RN : rr mr (fun s => noise_cl n (moved S s)) (hnoise_cl num_dual n S)).
  { apply (e_noise_cl num_dual tang at_time tangent_respects (t_cst 0) (t_mul 0) (t_div 0)). intros p Hp b Hb. split; [ apply t_leaf | ]. rewrite at_0. now apply (HG p). }
  destruct (rr_cases _ _ _ RN) as [(W & gW & EW & E' & LW) | (e & _ & E')]; [ | rewrite E' in E2; discriminate ].
  assert (HW : W 0 = noi) by (rewrite E' in E2; now injection E2).
  assert (RC := e_covariance num_dual tang at_time (t_cst 0) (t_add 0) (t_mul 0) (t_div 0) ells S V M W gW f_sky sparse (norm_nonzero ells f_sky HL KN) L LW).
  destruct (rr_cases _ _ _ RC) as [(cov & Cg & EG2 & EC & LC) | (e & _ & EC)].
  - exists V, W, M, gW, Cg, cov. repeat split; assumption.
  - specialize (EC 0). cbv beta in EC. fold (moved S 0) in EC. rewrite HV, HW in EC. destruct sparse; congruence.
Qed.
Lemma msurvey_dense il method : method = "inverse"%string \/ method = "cholesky"%string ->
  jvp_number (fun t => survey_likelihood la (C t) ells (moved S t) T nl f_sky false data il method) (hsurvey_likelihood num_dual (linalg_dual la) (dual_cosmo c d) ells S P f_sky false data il method).
Proof.
  intros HM. destruct (msurvey_parts false) as (V & W0 & M & gW & Cg & cov & EV & LV & EG & EN & EGN & EG2 & EC & LC).
  assert (W : forall s, exists m2, cov s = A2 (n * N) (n * N) m2 /\ wf2 (n * N) (n * N) m2 /\ symmetric (n * N) m2 /\ length (concat (V s)) = (n * N)%nat).
  { intros s. destruct (FACTS s) as (sig & noi' & mean & s3 & m2 & E1 & E2 & EM & E3 & E4 & E5 & E6 & W3 & DN & SY & LM). rewrite !NS in *.
    rewrite EV in E1. injection E1 as E1. rewrite EN in E2. injection E2 as E2. subst sig noi' mean. rewrite EC in E4. injection E4 as E4.
    exists m2. split; [ exact E4 | split; [ rewrite Nat.mul_comm; apply DN | split; assumption ]]. }
  destruct LC as [cov r k f x HC LX | cov a b q f x HC LX]; [ | destruct (W 0) as (m2 & E & _); rewrite HC in E; discriminate ].
  assert (ER : r = (n * N)%nat /\ k = (n * N)%nat) by (destruct (W 0) as (m2 & E & _); rewrite HC in E; injection E as -> -> _; now split). destruct ER as [-> ->].
  assert (WF : forall s, wf2 (n * N) (n * N) (f s) /\ symmetric (n * N) (f s)) by (intros s; destruct (W s) as (m2 & E & H1 & H2 & _); rewrite HC in E; injection E as ->; now split).
  assert (WM : forall s, length (concat (V s)) = (n * N)%nat) by (intros s; now destruct (W s) as (m2 & _ & _ & _ & H)).
  assert (PD : pos_def (n * N) (f 0)).
  { destruct (covariance_end_to_end c ells (values S) T nl f_sky) as (mean & dd & m & F1 & F2 & F3 & F4); try assumption; [ rewrite <- mcurve_0; apply curve_reachable | rewrite <- mcurve_0; now apply curve_growth | ].
    unfold gaussian_cl_covariance_and_mean in F1. cbn [atleast_1d] in F1. specialize (EV 0). specialize (EC 0). specialize (EN 0). rewrite mcurve_0 in EV. rewrite moved_0 in EV, EC, EN. rewrite EV in F1. cbn [bind] in F1. rewrite EN in F1. cbn [bind] in F1. rewrite EC in F1. cbn [bind] in F1.
    rewrite HC in F1. injection F1 as _ <- _ <-. exact F4. }
  assert (SL : forall s, survey_likelihood la (C s) ells (moved S s) T nl f_sky false data il method = gaussian_log_likelihood la data (concat (V s)) (A2 (n * N) (n * N) (f s)) il method).
  { intros s. unfold survey_likelihood, gaussian_cl_covariance_and_mean. cbn [atleast_1d]. rewrite EV. cbn [bind]. rewrite EN. cbn [bind]. rewrite EC. cbn [bind fst snd]. now rewrite HC. }
  assert (GL : hsurvey_likelihood num_dual (linalg_dual la) (dual_cosmo c d) ells S P f_sky false data il method = ggaussian_log_likelihood num_dual (linalg_dual la) data (concat M) (G2 (n * N) (n * N) x) il method).
  { unfold hsurvey_likelihood, hgaussian_cl_covariance_and_mean. rewrite EG. cbn [bind]. rewrite EGN. cbn [bind]. rewrite EG2. reflexivity. }
  rewrite GL.
  assert (RR := dense_rr la HO HS (n * N) f x data (fun s => concat (V s)) (concat M) il method LX (concat_lr _ _ LV) (fun s => proj1 (WF s)) (fun s => proj2 (WF s)) PD).
  destruct (cholesky_eq_inverse la HO (n * N) (f 0) data (concat (V 0)) il (proj1 (WF 0)) (proj2 (WF 0)) PD HD' (WM 0)) as (v & V1 & V2).
  destruct (rr_ok_number _ _ v RR ltac:(destruct HM as [-> | ->]; assumption)) as (fv & y & H1 & H2 & H3). exists fv, y. split; [ intros t; rewrite SL; apply H1 | split; assumption ].
Qed.
Lemma msurvey_sparse il method :
  jvp_number (fun t => survey_likelihood la (C t) ells (moved S t) T nl f_sky true data il method) (hsurvey_likelihood num_dual (linalg_dual la) (dual_cosmo c d) ells S P f_sky true data il method).
Proof.
  destruct (msurvey_parts true) as (V & W0 & M & gW & Cg & cov & EV & LV & EG & EN & EGN & EG2 & EC & LC).
  assert (W : forall s, exists s3, cov s = A3 N N n s3 /\ wf3 N N n s3 /\ length (concat (V s)) = (N * n)%nat /\ exists m2, denotes N N n s3 m2 /\
    gaussian_cl_covariance_and_mean (C s) (Array1 ells) (moved S s) T nl f_sky false = Ok (concat (V s), A2 (n * N) (n * N) m2)).
  { intros s. destruct (FACTS s) as (sig & noi' & mean & s3 & m2 & E1 & E2 & EM & E3 & E4 & E5 & E6 & W3 & DN & SY & LM). rewrite !NS in *.
    rewrite EV in E1. injection E1 as E1. rewrite EN in E2. injection E2 as E2. subst sig noi' mean. rewrite EC in E3. injection E3 as E3.
    exists s3. split; [ exact E3 | split; [ exact W3 | split; [ rewrite LM; apply Nat.mul_comm | exists m2; split; assumption ]]]. }
  destruct LC as [cov r k f x HC LX | cov a b q f x HC LX]; [ destruct (W 0) as (m2 & E & _); rewrite HC in E; discriminate | ].
  assert (ER : a = N /\ b = N /\ q = n) by (destruct (W 0) as (m2 & E & _); rewrite HC in E; injection E as -> -> -> _; now repeat split). destruct ER as [-> [-> ->]].
  assert (N0 : (0 < N)%nat) by (rewrite <- (NS 0); apply spectra_nonempty, OKT).
  destruct (W 0) as (s3 & E & W3 & LM & m2 & DN & F0). rewrite HC in E. injection E as E. rewrite <- E in W3, DN. clear s3 E.
  assert (PD : pos_def (n * N) m2).
  { destruct (covariance_end_to_end c ells (values S) T nl f_sky) as (mean & dd & m & F1 & F2 & F3 & F4); try assumption; [ rewrite <- mcurve_0; apply curve_reachable | rewrite <- mcurve_0; now apply curve_growth | ].
    rewrite <- moved_0, <- mcurve_0, F0 in F1. injection F1 as _ <- _ <-. exact F4. }
  assert (TI : trailing_invertible N n (f 0)) by (refine (pos_def_trailing _ _ DN _); [ exact W3 | lia | rewrite Nat.mul_comm; exact PD ]).
  assert (SL : forall s, survey_likelihood la (C s) ells (moved S s) T nl f_sky true data il method = gaussian_log_likelihood la data (concat (V s)) (A3 N N n (f s)) il method).
  { intros s. unfold survey_likelihood, gaussian_cl_covariance_and_mean. cbn [atleast_1d]. rewrite EV. cbn [bind]. rewrite EN. cbn [bind]. rewrite EC. cbn [bind fst snd]. now rewrite HC. }
  assert (GL : hsurvey_likelihood num_dual (linalg_dual la) (dual_cosmo c d) ells S P f_sky true data il method = ggaussian_log_likelihood num_dual (linalg_dual la) data (concat M) (G3 N N n x) il method).
  { unfold hsurvey_likelihood, hgaussian_cl_covariance_and_mean. rewrite EG. cbn [bind]. rewrite EGN. cbn [bind]. rewrite EG2. reflexivity. }
  rewrite GL.
  assert (RR := sparse_rr la HO HS N n f x data (fun s => concat (V s)) (concat M) il method N0 ltac:(lia) LX (concat_lr _ _ LV) W3 TI).
  destruct (sparse_eq_dense la HO N n (f 0) m2 data (concat (V 0)) il method W3 N0 ltac:(lia) DN TI ltac:(unfold wf1; rewrite HD'; apply Nat.mul_comm) LM) as (v & V1 & _).
  destruct (rr_ok_number _ _ v RR V1) as (fv & y & H1 & H2 & H3). exists fv, y. split; [ intros t; rewrite SL; apply H1 | split; assumption ].
Qed.
End Survey.

(** ** public statements *)
Lemma nuisance_noise (p : gprobe dual) : (forall b, In b (gbins_of p) -> fst (gnz_gals b) <> 0) ->
  match hnoise num_dual p with
  | Ok l => exists v, (forall t, noise (read_probe (at_time t) p) = Ok (v t)) /\ (forall t, length (v t) = length l) /\ forall i, (i < length l)%nat -> tangent_of (fun t => el (v t) i) 0 (nth i l (0, 0))
  | Err e => forall t, noise (read_probe (at_time t) p) = Err e
  end.
Proof.
  intros HG. assert (RR := e_noise num_dual tang at_time tangent_respects (t_cst 0) (t_mul 0) (t_div 0) p ltac:(intros b Hb; split; [ apply t_leaf | ]; rewrite at_0; now apply HG)).
  destruct (rr_cases _ _ _ RR) as [(x & y & -> & E & L) | (e & -> & E)]; [ | exact E ]. exists x. split; [ exact E | split; [ exact (lr_length _ _ _ L) | ]].
  intros i _. exact (lr_nth tang x y 0 (0, 0) i tangent_respects (t_cst 0 0) L).
Qed.
Lemma nuisance_survey la c d (S : list (gprobe dual)) ells T nl P f_sky sparse data il method : linalg_ok la -> linalg_shaped la ->
  built c -> expanding c -> _gamma c = None -> physical c -> moderate c ->
  shallow (concat (map bins_of (values S))) -> off_clip chi c (values S) -> survey_smooth S -> (forall l, In l ells -> - 0.5 < l) ->
  (forall b, limber_epoch (values S) b -> spectrum_moves (fun c k a => nonlinear_matter_power c k a T nl) P c d b) ->
  probes_ok (values S) -> noise_positive (values S) -> (forall p b, In p S -> In b (gbins_of p) -> fst (gnz_gals b) <> 0) ->
  (forall l a, (l < length ells)%nat -> 1 / (1 + survey_zmax (values S)) <= a <= 1 -> 0 <= nl c ((el ells l + 1 / 2) / Rmax (chi c a) 1) a T) ->
  (2 <= length ells)%nat -> (forall l, (l < length ells)%nat -> 0 < knox_norm ells f_sky l) ->
  length data = (length ells * length (get_cl_ordering (values S)))%nat -> sparse = true \/ method = "inverse"%string \/ method = "cholesky"%string ->
  jvp_number (fun t => survey_likelihood la (displaced c d t) ells (moved S t) T nl f_sky sparse data il method)
    (hsurvey_likelihood num_dual (linalg_dual la) (dual_cosmo c d) ells S P f_sky sparse data il method).
Proof.
  intros HO HS B HE NG HPh HMo HSh HC HSm HEL HK Hok HN HG HP HL HKn HD HM.
  assert (J := nuisance_spectra c d S ells T nl P B HE NG HPh HMo HSh HC HSm HEL HK).
  assert (HZ : forall p d, In p (values S) -> In d (bins_of p) -> 0 <= nz_zmax d).
  { intros p b Hp Hb. assert (IN : In b (concat (map bins_of (values S)))) by (apply in_concat; exists (bins_of p); split; [ now apply in_map | exact Hb ]). now destruct (HSh b IN) as [[Q _] _]. }
  destruct sparse; [ now apply msurvey_sparse | ]. apply msurvey_dense; try assumption. destruct HM as [ | ]; [ discriminate | assumption ].
Qed.
Lemma nuisance_default_survey la c d (S : list (gprobe dual)) ells T GT f_sky sparse data il method : linalg_ok la -> linalg_shaped la ->
  built c -> expanding c -> _gamma c = None -> physical c -> moderate c ->
  (forall d, transfer_moves T GT c d) -> sigmasqr_default c 8.0 T <> 0 -> T c (1 / 10000) <> 0 -> _sigma8 c <> 0 ->
  shallow (concat (map bins_of (values S))) -> off_clip chi c (values S) -> survey_smooth S ->
  (forall b, limber_epoch (values S) b -> scale_found c b T /\ forall k, formula_smooth c k b T "takahashi2012") ->
  probes_ok (values S) -> noise_positive (values S) -> (forall p b, In p S -> In b (gbins_of p) -> fst (gnz_gals b) <> 0) ->
  (2 <= length ells)%nat -> (forall l, In l ells -> 0 <= l) -> (forall l, (l < length ells)%nat -> 0 < knox_norm ells f_sky l) ->
  length data = (length ells * length (get_cl_ordering (values S)))%nat -> sparse = true \/ method = "inverse"%string \/ method = "cholesky"%string ->
  jvp_number (fun t => survey_likelihood la (displaced c d t) ells (moved S t) T halofit_default f_sky sparse data il method)
    (hsurvey_likelihood num_dual (linalg_dual la) (dual_cosmo c d) ells S (ghalofit_default num_dual GT) f_sky sparse data il method).
Proof.
  intros HO HS B HE NG HPh HMo HT HN8 HT0 H8 HSh HC HSm HB Hok HN HG HL HE0 HKn HD HM.
  apply nuisance_survey; try assumption.
  - intros l Hl. specialize (HE0 l Hl). lra.
  - intros b Hb. destruct (HB b Hb). apply halofit_default_moves; try assumption. now apply (limber_range (values S)).
  - intros l a Hl _. apply halofit_default_nonneg; [ exact HN8 | ]. apply HE0, nth_In, Hl.
Qed.

(** ** at exact reals the programs are those of Probes.v, AngularCl.v and Likelihood.v *)
Lemma R_gals d : hgals num_R d = gals_per_steradian (read_nz as_is d). Proof. unfold hgals, gals_per_steradian. now rewrite read_gals. Qed.
Lemma R_noise p : hnoise num_R p = noise (read_probe as_is p).
Proof.
  assert (E : forall l, map (hgals num_R) l = map gals_per_steradian (map (read_nz as_is) l)) by (intros l; rewrite map_map; apply map_ext, R_gals).
  destruct p as [p | p]; cbn [hnoise read_probe noise].
  - unfold wl_noise. cbn [wl_bins wl_sigma_e]. rewrite E. reflexivity.
  - unfold nc_noise. cbn [nc_bins]. rewrite map_map. f_equal. apply map_ext. intros d. now rewrite R_gals.
Qed.
Lemma R_noise_cl n S : hnoise_cl num_R n S = noise_cl n (map (read_probe as_is) S).
Proof. unfold hnoise_cl, noise_cl. rewrite read_ordering, mapM_map, (mapM_ext' _ _ _ R_noise). reflexivity. Qed.
Lemma R_covariance ell S sig noi f_sky sparse :
  hgaussian_cl_covariance num_R ell S sig noi f_sky sparse = ggaussian_cl_covariance num_R ell (map (read_probe as_is) S) sig noi f_sky sparse.
Proof.
  unfold hgaussian_cl_covariance, ggaussian_cl_covariance, get_cov_blocks_ordering. rewrite read_ordering.
  replace (map (map (cst num_R)) noi) with noi by (symmetry; rewrite <- (map_id noi) at 2; apply map_ext; intros v; apply map_id). reflexivity.
Qed.
Lemma nuisance_like_programs la c (S : list (gprobe R)) ells T nl P f_sky sparse data il method : built c -> _gamma c = None ->
  (forall p, hnoise num_R p = noise (read_probe as_is p)) /\
  ((forall b, limber_epoch (map (read_probe as_is) S) b -> 0 < b /\ D c b <> 0) -> (forall k a, P (lift_cosmo c) k a = nonlinear_matter_power c k a T nl) ->
   bind (hgaussian_cl_covariance_and_mean num_R (lift_cosmo c) ells S P f_sky sparse) (fun mc => Ok (fst mc, arr_of (snd mc))) =
     gaussian_cl_covariance_and_mean c (Array1 ells) (map (read_probe as_is) S) T nl f_sky sparse /\
   hsurvey_likelihood num_R (linalg_R la) (lift_cosmo c) ells S P f_sky sparse data il method = survey_likelihood la c ells (map (read_probe as_is) S) T nl f_sky sparse data il method).
Proof.
  intros B NG. split; [ exact R_noise | ]. intros HD HK.
  assert (E := proj2 (proj2 (nuisance_programs c [] 0 S T nl P B NG)) HD HK (Array1 ells)).
  assert (EC : bind (hgaussian_cl_covariance_and_mean num_R (lift_cosmo c) ells S P f_sky sparse) (fun mc => Ok (fst mc, arr_of (snd mc))) = gaussian_cl_covariance_and_mean c (Array1 ells) (map (read_probe as_is) S) T nl f_sky sparse).
  { unfold hgaussian_cl_covariance_and_mean, gaussian_cl_covariance_and_mean. cbn [atleast_1d]. rewrite E. destruct (angular_cl c (Array1 ells) (map (read_probe as_is) S) T nl) as [sig | e]; [ | reflexivity ]. cbn [bind].
    rewrite R_noise_cl. destruct (noise_cl (length ells) (map (read_probe as_is) S)) as [noi | e]; [ | reflexivity ]. cbn [bind]. rewrite cov_program, R_covariance.
    now destruct (ggaussian_cl_covariance num_R ells (map (read_probe as_is) S) sig noi f_sky sparse). }
  split; [ exact EC | ]. unfold hsurvey_likelihood, survey_likelihood. rewrite <- EC.
  destruct (hgaussian_cl_covariance_and_mean num_R (lift_cosmo c) ells S P f_sky sparse) as [mc | e]; [ | reflexivity ]. cbn [bind fst snd]. apply like_program.
Qed.
