(** * Noise, covariance and likelihood in floating point *)
From Coquelicot Require Import Coquelicot.
From Coq Require Import String.
From Verif Require Import FinRules FinBg FinGrowth FinTransfer FinPower FinHalofit.
From Verif Require Import Np NpLemmas Core Sparse SparseSpec SparseProofs DetSpec MxBridge DetProofs DetProofs2 DetPivots Likelihood LikelihoodSpec LikelihoodProofs Interp InterpProofs
  Background BgSpec BgPositive Transfer Power PowerProofs Redshift Bias Probes ProbesSpec AngularCl CovSpec CovProofs CovPsd CovFinal AclSpec AclProofs AclFinal GradSpec FisherSpec Deriv PosDefOpen OracleDeriv
  Ad AdSpec AdProofs AdFinal AdPower AdProbes AdRel AdProbesProofs AdArrSpec AdProbesFinal AdHalofit AdHalofitSpec AdHalofitFinal AdLike AdLikeProofs AdLikeSpec AdLikeFinal AdSurvey
  AdNuis AdNuisProofs AdNuisSpec AdNuisNz AdNuisBack AdNuisFinal AdNuisLike AdNuisLikeProofs FinNz FinSurvey FinGeneric.
Import ListNotations.
Local Open Scope R_scope.
Opaque chi_table growth_table_ODE growth_table_gamma logspace.

Definition every {A : Type} (ok : A -> Prop) (x : list (list A)) : Prop := forall r, In r x -> forall y, In y r -> ok y.
(** the linear algebra is exact on finite matrices that can be inverted *)
Class fl_linalg {A : Type} {N : num A} {FLN : floats N} (la : linalg) (ga : glinalg A) : Prop := FlLinalg {
  fa_inv n x : every fl_ok x -> wf2 n n (map (map fl_v) x) -> invertible n (map (map fl_v) x) ->
    every fl_ok (ga_inv ga n x) /\ map (map fl_rd) (ga_inv ga n x) = ga_inv (linalg_dual la) n (map (map fl_rd) x);
  fa_det n x : every fl_ok x -> wf2 n n (map (map fl_v) x) -> invertible n (map (map fl_v) x) ->
    fl_ok (ga_logdet ga n x) /\ fl_rd (ga_logdet ga n x) = ga_logdet (linalg_dual la) n (map (map fl_rd) x);
  fa_cho n x r : every fl_ok x -> every fl_ok [r] -> wf2 n n (map (map fl_v) x) -> symmetric n (map (map fl_v) x) -> pos_def n (map (map fl_v) x) -> wf1 n (map fl_v r) ->
    every fl_ok [ga_cho_solve ga n x r] /\ map fl_rd (ga_cho_solve ga n x r) = ga_cho_solve (linalg_dual la) n (map (map fl_rd) x) (map fl_rd r) }.

Section Floats.
Context {Nm : Type} {N : num Nm} {FLN : floats N}.
Local Notation rd := (fl_rd (N := N)).
Local Notation fin := (fun f x => fin_of f 0 x).
Local Notation tang := (fun (f : R -> R) (x : dual) => tangent_of f 0 x).
Lemma fin_lists {A B C} (ok : A -> Prop) (h : A -> B) (P : (R -> C) -> A -> Prop) (Q : (R -> C) -> B -> Prop) :
  (forall f x, P f x <-> ok x /\ Q f (h x)) -> forall f x, lr P f x <-> (forall y, In y x -> ok y) /\ lr Q f (map h x).
Proof.
  intros HPQ f x. split.
  - induction 1 as [f E | f u fu y l E HP HL [IH1 IH2]]; [ split; [ intros y [] | now apply lr_nil ] | ]. apply HPQ in HP. split; [ intros z [<- | Hz]; [ apply HP | now apply IH1 ] | ].
    cbn [map]. apply (lr_cons _ _ u fu); [ exact E | apply HP | exact IH2 ].
  - revert f. induction x as [ | y l IH]; intros f [HO HL]; cbn [map] in HL.
    + inversion HL; subst. now apply lr_nil.
    + inversion HL as [ | f' u fu y' l' E HQ HR]; subst. apply (lr_cons _ _ u fu); [ exact E | | apply IH; split; [ intros z Hz; apply HO; now right | exact HR ]].
      apply HPQ. split; [ apply HO; now left | exact HQ ].
Qed.
Lemma fin_vr f x : lr fin f x <-> (forall y, In y x -> fl_ok y) /\ lr tang f (map rd x).
Proof. apply fin_lists. intros h y. reflexivity. Qed.
Lemma fin_mr f x : lr (lr fin) f x <-> every fl_ok x /\ lr (lr tang) f (map (map rd) x).
Proof. apply (fin_lists (fun r => forall y, In y r -> fl_ok y) (map rd) (lr fin) (lr tang)). apply fin_vr. Qed.
Lemma fin_vals f x : lr fin f x -> map fl_v x = f 0.
Proof. intros H. apply fin_vr in H. rewrite <- (lr_vals f _ (proj2 H)), map_map. reflexivity. Qed.
Lemma fin_vals2 f x : lr (lr fin) f x -> map (map fl_v) x = f 0.
Proof. intros H. apply fin_mr in H. rewrite <- (mr_vals f _ (proj2 H)), map_map. apply map_ext. intros r. now rewrite map_map. Qed.

Section Oracles.
Context (la : linalg) (ga : glinalg Nm) {FA : fl_linalg la ga}.
Hypotheses (HO : linalg_ok la) (HS : linalg_shaped la).
Lemma f_inv n f x : (forall s, wf2 n n (f s)) -> invertible n (f 0) -> lr (lr fin) f x -> lr (lr fin) (fun s => la_inv la n (f s)) (ga_inv ga n x).
Proof.
  intros W I P. assert (E := fin_vals2 f x P). apply fin_mr in P. destruct P as [P1 P2]. destruct (fa_inv n x P1) as [Q1 Q2]; [ rewrite E; apply W | now rewrite E | ].
  apply fin_mr. split; [ exact Q1 | ]. rewrite Q2. now apply d_inv.
Qed.
Lemma f_det n f x : (forall s, wf2 n n (f s)) -> invertible n (f 0) -> lr (lr fin) f x -> fin_of (fun s => snd (la_slogdet la n (f s))) 0 (ga_logdet ga n x).
Proof.
  intros W I P. assert (E := fin_vals2 f x P). apply fin_mr in P. destruct P as [P1 P2]. destruct (fa_det n x P1) as [Q1 Q2]; [ rewrite E; apply W | now rewrite E | ].
  split; [ exact Q1 | ]. rewrite Q2. now apply d_det.
Qed.
Lemma f_cho n f x r y : (forall s, wf2 n n (f s)) -> (forall s, symmetric n (f s)) -> pos_def n (f 0) -> (forall s, wf1 n (r s)) -> lr (lr fin) f x -> lr fin r y ->
  lr fin (fun s => la_cho_solve la n (f s) (r s)) (ga_cho_solve ga n x y).
Proof.
  intros W S PD Wr P Q. assert (E := fin_vals2 f x P). assert (E' := fin_vals r y Q). apply fin_mr in P. destruct P as [P1 P2]. apply fin_vr in Q. destruct Q as [Q1 Q2].
  destruct (fa_cho n x y P1) as [H1 H2]; [ intros z [<- | []]; exact Q1 | rewrite E; apply W | rewrite E; apply S | now rewrite E | rewrite E'; apply Wr | ].
  apply fin_vr. split; [ intros z Hz; exact (H1 _ (or_introl eq_refl) z Hz) | ]. rewrite H2. now apply d_cho.
Qed.
Lemma f_log f x : f 0 <> 0 -> fin_of f 0 x -> fin_of (fun s => ln (Rabs (f s))) 0 (nln N (nabs N x)).
Proof. intros H T. apply (ft_ln 0 (fun s => Rabs (f s))); [ now apply Rabs_pos_lt | now apply ft_abs ]. Qed.
Lemma fdense_rr n f x data mu m il method : lr (lr fin) f x -> lr fin mu m -> (forall s, wf2 n n (f s)) -> (forall s, symmetric n (f s)) -> pos_def n (f 0) ->
  rr fin (fun s => gaussian_log_likelihood la data (mu s) (A2 n n (f s)) il method) (ggaussian_log_likelihood N ga data m (G2 n n x) il method).
Proof.
  intros T V W S PD.
  refine (l_like_dense N fin la ga (fin_respects 0) (ft_cst 0) (ft_add 0) (ft_sub 0) (ft_mul 0) f_inv f_det f_cho n n f x data mu m il method T V W (pos_def_invertible PD) (fun _ => conj S PD)).
Qed.
Lemma fsparse_rr a n f x data mu m il method : (0 < a)%nat -> (0 < n)%nat -> lr (lr (lr fin)) f x -> lr fin mu m -> wf3 a a n (f 0) -> trailing_invertible a n (f 0) ->
  rr fin (fun s => gaussian_log_likelihood la data (mu s) (A3 a a n (f s)) il method) (ggaussian_log_likelihood N ga data m (G3 a a n x) il method).
Proof.
  intros Ha Hn T V W I. assert (SL := slice_trailing W I). destruct (pivots_nonzero (proj1 HO) W Ha Hn I) as [PZ LZ].
  apply (l_like_sparse N fin la ga (fin_respects 0) (ft_cst 0) (ft_add 0) (ft_sub 0) (ft_mul 0) f_inv a a n f x data mu m il method T V).
  - intros k Hk. specialize (SL 0%nat k Ha Hk). rewrite Nat.sub_0_r in SL. change (sub3 0 a 0 a (f 0)) with (trail (f 0) a 0) in SL. now rewrite (trail0 W) in SL.
  - intros _. apply (l_logdet N fin la ga (fin_respects 0) (ft_cst 0) (ft_add 0) (ft_sub 0) (ft_mul 0) f_log f_inv a n f x T).
    + intros k q Hk Hq. apply (SL (k + 1)%nat q); [ lia | exact Hq ].
    + intros k z Hk. apply (PZ k z). lia.
    + exact LZ.
Qed.
Lemma frr_ok F G v : rr fin F G -> F 0 = Ok v -> exists f x, (forall t, F t = Ok (f t)) /\ G = Ok x /\ fin_of f 0 x.
Proof.
  intros HR E. destruct (rr_cases _ _ _ HR) as [(V & M & -> & EV & L) | (e & _ & EE)]; [ now exists V, M | rewrite EE in E; discriminate ].
Qed.

Section Survey.
Variables (g : gcosmo Nm) (S : list (gprobe Nm)) (ells : list R) (T : transfer) (nl : nonlinear) (P : gcosmo Nm -> Nm -> Nm -> Nm) (f_sky : R) (data : list R).
Local Notation V0 := (values (map (probe_map rd) S)).
Local Notation C := (fun t => fl_cosmo t g).
Local Notation c := (fl_cosmo 0 g).
Hypotheses (FP : forall p, In p S -> fl_probe p) (NG : _gamma c = None) (Hok : probes_ok V0) (HN : noise_positive V0)
  (HZ : forall p d, In p V0 -> In d (bins_of p) -> 0 <= nz_zmax d)
  (HP : forall l a, (l < length ells)%nat -> 1 / (1 + survey_zmax V0) <= a <= 1 -> 0 <= nl c ((el ells l + 1 / 2) / Rmax (chi c a) 1) a T)
  (HG : forall p b, In p S -> In b (gbins_of p) -> fl_v (gnz_gals b) <> 0)
  (HL : (2 <= length ells)%nat) (HK : forall l, (l < length ells)%nat -> 0 < knox_norm ells f_sky l)
  (J : rr (lr (lr fin)) (fun t => angular_cl (C t) (Array1 ells) (fl_probes t S) T nl) (hangular_cl N g (Array1 ells) S P))
  (HD : length data = (length ells * length (get_cl_ordering V0))%nat).
Local Notation K := (length (hcl_ordering S)).
Local Notation n := (length ells).
Lemma fl_read : V0 = map (read_probe fl_v) S. Proof. apply values_plain. Qed.
Lemma fNS t : length (get_cl_ordering (fl_probes t S)) = K. Proof. unfold fl_probes. now rewrite read_ordering. Qed.
Lemma fHD : length data = (n * K)%nat. Proof. rewrite HD, fl_read. now rewrite read_ordering. Qed.
Lemma fKN : forall l, (l < n)%nat -> knox_norm ells f_sky l <> 0. Proof. intros l Hl. specialize (HK l Hl). lra. Qed.
Lemma fl_peopled p : In p S -> peopled fin fl_at p.
Proof.
  intros Hp b Hb. split; [ | rewrite fl_at_zero; now apply (HG p) ]. apply fl_leaf. destruct (FP p Hp) as [FB _]. specialize (FB b Hb). destruct b. apply FB.
Qed.
Lemma fnoise_follow p : In p S -> rr (lr fin) (fun s => noise (read_probe (fl_at s) p)) (hnoise N p).
Proof. intros Hp. apply (e_noise N fin fl_at (fin_respects 0) (ft_cst 0) (ft_mul 0) (ft_div 0)). now apply fl_peopled. Qed.
Lemma fNT t : noise_total (fl_probes t S).
Proof.
  intros p Hp. apply in_map_iff in Hp. destruct Hp as (q & <- & Hq). destruct (HN (read_probe fl_v q)) as (v & E & LV & _); [ rewrite fl_read; now apply in_map | ].
  assert (ER : read_probe (fl_at 0) q = read_probe fl_v q) by now rewrite fl_v_at.
  destruct (rr_cases _ _ _ (fnoise_follow q Hq)) as [(x & y & _ & EX & L) | (e & _ & EX)]; [ | specialize (EX 0); cbv beta in EX; rewrite ER in EX; congruence ].
  exists (x t). split; [ apply EX | ]. rewrite (lr_length _ _ _ L t), <- (lr_length _ _ _ L 0). assert (E0 := EX 0). cbv beta in E0. rewrite ER, E in E0. injection E0 as <-.
  rewrite LV, !read_bins, !map_length. reflexivity.
Qed.
Lemma fOKT t : probes_ok (fl_probes t S). Proof. apply (probes_ok_read fl_v). rewrite <- fl_read. exact Hok. Qed.
Lemma fl_reachable s : reachable (C s). Proof. exists (C s), []. split; [ split; reflexivity | reflexivity ]. Qed.
Lemma fl_nogamma s : _gamma_growth (C s) = false.
Proof. rewrite no_gamma in NG. unfold fl_cosmo, make_cosmology. destruct (ggamma g); [ discriminate | reflexivity ]. Qed.
Local Notation FACTS s := (survey_facts (C s) ells (fl_probes s S) T nl f_sky (fl_reachable s) (fl_nogamma s) (fOKT s) (fNT s) HL fKN).

Lemma fsurvey_parts sparse : exists (V W : R -> list (list R)) M gW Cg cov, (forall s, angular_cl (C s) (Array1 ells) (fl_probes s S) T nl = Ok (V s)) /\ lr (lr fin) V M /\
  hangular_cl N g (Array1 ells) S P = Ok M /\ (forall s, noise_cl n (fl_probes s S) = Ok (W s)) /\ hnoise_cl N n S = Ok gW /\
  hgaussian_cl_covariance N ells S M gW f_sky sparse = Ok Cg /\
  (forall s, gaussian_cl_covariance (Array1 ells) (fl_probes s S) (V s) (W s) f_sky sparse = Ok (cov s)) /\ ar fin cov Cg.
Proof.
  destruct (FACTS 0) as (sig & noi & mean & s3 & m2 & E1 & E2 & EM & E3 & E4 & _).
  destruct (rr_cases _ _ _ J) as [(V & M & EG & E & L) | (e & _ & E)]; [ | rewrite E in E1; discriminate ].
  assert (HV : V 0 = sig) by (rewrite E in E1; now injection E1).
  assert (RN : rr (lr (lr fin)) (fun s => noise_cl n (fl_probes s S)) (hnoise_cl N n S)).
  { apply (e_noise_cl N fin fl_at (fin_respects 0) (ft_cst 0) (ft_mul 0) (ft_div 0)). exact fl_peopled. }
  destruct (rr_cases _ _ _ RN) as [(W & gW & EW & E' & LW) | (e & _ & E')]; [ | rewrite E' in E2; discriminate ].
  assert (HW : W 0 = noi) by (rewrite E' in E2; now injection E2).
  assert (RC := e_covariance N fin fl_at (ft_cst 0) (ft_add 0) (ft_mul 0) (ft_div 0) ells S V M W gW f_sky sparse (norm_nonzero ells f_sky HL fKN) L LW).
  destruct (rr_cases _ _ _ RC) as [(cov & Cg & EG2 & EC & LC) | (e & _ & EC)].
  - exists V, W, M, gW, Cg, cov. repeat split; assumption.
  - specialize (EC 0). cbv beta in EC. fold (fl_probes 0 S) in EC. rewrite HV, HW in EC. destruct sparse; congruence.
Qed.
Lemma fend_to_end : exists mean dd m, gaussian_cl_covariance_and_mean c (Array1 ells) (fl_probes 0 S) T nl f_sky false = Ok (mean, A2 dd dd m) /\ pos_def dd m.
Proof.
  rewrite probes_0. destruct (covariance_end_to_end c ells V0 T nl f_sky) as (mean & dd & m & F1 & F2 & F3 & F4); try assumption; [ apply fl_reachable | apply fl_nogamma | ].
  now exists mean, dd, m.
Qed.
Lemma fsurvey_dense il method : method = "inverse"%string \/ method = "cholesky"%string ->
  exists f x, (forall t, survey_likelihood la (C t) ells (fl_probes t S) T nl f_sky false data il method = Ok (f t)) /\ hsurvey_likelihood N ga g ells S P f_sky false data il method = Ok x /\ fin_of f 0 x.
Proof.
  intros HM. destruct (fsurvey_parts false) as (V & W0 & M & gW & Cg & cov & EV & LV & EG & EN & EGN & EG2 & EC & LC).
  assert (W : forall s, exists m2, cov s = A2 (n * K) (n * K) m2 /\ wf2 (n * K) (n * K) m2 /\ symmetric (n * K) m2 /\ length (concat (V s)) = (n * K)%nat).
  { intros s. destruct (FACTS s) as (sig & noi' & mean & s3 & m2 & E1 & E2 & EM & E3 & E4 & E5 & E6 & W3 & DN & SY & LM). rewrite !fNS in *.
    rewrite EV in E1. injection E1 as E1. rewrite EN in E2. injection E2 as E2. subst sig noi' mean. rewrite EC in E4. injection E4 as E4.
    exists m2. split; [ exact E4 | split; [ rewrite Nat.mul_comm; apply DN | split; assumption ]]. }
  destruct LC as [cov r k f x HC LX | cov a b q f x HC LX]; [ | destruct (W 0) as (m2 & E & _); rewrite HC in E; discriminate ].
  assert (ER : r = (n * K)%nat /\ k = (n * K)%nat) by (destruct (W 0) as (m2 & E & _); rewrite HC in E; injection E as -> -> _; now split). destruct ER as [-> ->].
  assert (WF : forall s, wf2 (n * K) (n * K) (f s) /\ symmetric (n * K) (f s)) by (intros s; destruct (W s) as (m2 & E & H1 & H2 & _); rewrite HC in E; injection E as ->; now split).
  assert (WM : forall s, length (concat (V s)) = (n * K)%nat) by (intros s; now destruct (W s) as (m2 & _ & _ & _ & H)).
  assert (PD : pos_def (n * K) (f 0)).
  { destruct fend_to_end as (mean & dd & m & F1 & F4).
    unfold gaussian_cl_covariance_and_mean in F1. cbn [atleast_1d] in F1. rewrite EV in F1. cbn [bind] in F1. rewrite EN in F1. cbn [bind] in F1. rewrite EC in F1. cbn [bind] in F1.
    rewrite HC in F1. injection F1 as _ <- _ <-. exact F4. }
  assert (SL : forall s, survey_likelihood la (C s) ells (fl_probes s S) T nl f_sky false data il method = gaussian_log_likelihood la data (concat (V s)) (A2 (n * K) (n * K) (f s)) il method).
  { intros s. unfold survey_likelihood, gaussian_cl_covariance_and_mean. cbn [atleast_1d]. rewrite EV. cbn [bind]. rewrite EN. cbn [bind]. rewrite EC. cbn [bind fst snd]. now rewrite HC. }
  assert (GL : hsurvey_likelihood N ga g ells S P f_sky false data il method = ggaussian_log_likelihood N ga data (concat M) (G2 (n * K) (n * K) x) il method).
  { unfold hsurvey_likelihood, hgaussian_cl_covariance_and_mean. rewrite EG. cbn [bind]. rewrite EGN. cbn [bind]. rewrite EG2. reflexivity. }
  rewrite GL.
  assert (RR := fdense_rr (n * K) f x data (fun s => concat (V s)) (concat M) il method LX (lr_concat _ _ _ LV) (fun s => proj1 (WF s)) (fun s => proj2 (WF s)) PD).
  destruct (cholesky_eq_inverse la HO (n * K) (f 0) data (concat (V 0)) il (proj1 (WF 0)) (proj2 (WF 0)) PD fHD (WM 0)) as (v & V1 & V2).
  destruct (frr_ok _ _ v RR ltac:(destruct HM as [-> | ->]; assumption)) as (fv & y & H1 & H2 & H3). exists fv, y. split; [ intros t; rewrite SL; apply H1 | split; assumption ].
Qed.
Lemma fsurvey_sparse il method :
  exists f x, (forall t, survey_likelihood la (C t) ells (fl_probes t S) T nl f_sky true data il method = Ok (f t)) /\ hsurvey_likelihood N ga g ells S P f_sky true data il method = Ok x /\ fin_of f 0 x.
Proof.
  destruct (fsurvey_parts true) as (V & W0 & M & gW & Cg & cov & EV & LV & EG & EN & EGN & EG2 & EC & LC).
  assert (W : forall s, exists s3, cov s = A3 K K n s3 /\ wf3 K K n s3 /\ length (concat (V s)) = (K * n)%nat /\ exists m2, denotes K K n s3 m2 /\
    gaussian_cl_covariance_and_mean (C s) (Array1 ells) (fl_probes s S) T nl f_sky false = Ok (concat (V s), A2 (n * K) (n * K) m2)).
  { intros s. destruct (FACTS s) as (sig & noi' & mean & s3 & m2 & E1 & E2 & EM & E3 & E4 & E5 & E6 & W3 & DN & SY & LM). rewrite !fNS in *.
    rewrite EV in E1. injection E1 as E1. rewrite EN in E2. injection E2 as E2. subst sig noi' mean. rewrite EC in E3. injection E3 as E3.
    exists s3. split; [ exact E3 | split; [ exact W3 | split; [ rewrite LM; apply Nat.mul_comm | exists m2; split; assumption ]]]. }
  destruct LC as [cov r k f x HC LX | cov a b q f x HC LX]; [ destruct (W 0) as (m2 & E & _); rewrite HC in E; discriminate | ].
  assert (ER : a = K /\ b = K /\ q = n) by (destruct (W 0) as (m2 & E & _); rewrite HC in E; injection E as -> -> -> _; now repeat split). destruct ER as [-> [-> ->]].
  assert (N0 : (0 < K)%nat) by (rewrite <- (fNS 0); apply spectra_nonempty, fOKT).
  destruct (W 0) as (s3 & E & W3 & LM & m2 & DN & F0). rewrite HC in E. injection E as E. rewrite <- E in W3, DN. clear s3 E.
  assert (PD : pos_def (n * K) m2).
  { destruct fend_to_end as (mean & dd & m & F1 & F4). rewrite F0 in F1. injection F1 as _ <- _ <-. exact F4. }
  assert (TI : trailing_invertible K n (f 0)) by (refine (pos_def_trailing _ _ DN _); [ exact W3 | lia | rewrite Nat.mul_comm; exact PD ]).
  assert (SL : forall s, survey_likelihood la (C s) ells (fl_probes s S) T nl f_sky true data il method = gaussian_log_likelihood la data (concat (V s)) (A3 K K n (f s)) il method).
  { intros s. unfold survey_likelihood, gaussian_cl_covariance_and_mean. cbn [atleast_1d]. rewrite EV. cbn [bind]. rewrite EN. cbn [bind]. rewrite EC. cbn [bind fst snd]. now rewrite HC. }
  assert (GL : hsurvey_likelihood N ga g ells S P f_sky true data il method = ggaussian_log_likelihood N ga data (concat M) (G3 K K n x) il method).
  { unfold hsurvey_likelihood, hgaussian_cl_covariance_and_mean. rewrite EG. cbn [bind]. rewrite EGN. cbn [bind]. rewrite EG2. reflexivity. }
  rewrite GL.
  assert (RR := fsparse_rr K n f x data (fun s => concat (V s)) (concat M) il method N0 ltac:(lia) LX (lr_concat _ _ _ LV) W3 TI).
  destruct (sparse_eq_dense la HO K n (f 0) m2 data (concat (V 0)) il method W3 N0 ltac:(lia) DN TI ltac:(unfold wf1; rewrite fHD; apply Nat.mul_comm) LM) as (v & V1 & _).
  destruct (frr_ok _ _ v RR V1) as (fv & y & H1 & H2 & H3). exists fv, y. split; [ intros t; rewrite SL; apply H1 | split; assumption ].
Qed.
End Survey.
(** ** both spectra *)
Definition model_of (nl : bool) : nonlinear := if nl then halofit_default else linear.
Lemma fl_all_survey (nl : bool) g (S : list (gprobe Nm)) ells T GT f_sky sparse data il method : let V := values (map (probe_map rd) S) in
  fl_params g -> (forall p, In p S -> fl_probe p) -> expanding (fl_cosmo 0 g) -> _gamma (fl_cosmo 0 g) = None -> physical (fl_cosmo 0 g) -> moderate (fl_cosmo 0 g) ->
  ftransfer T GT (fun t => fl_cosmo t g) g -> sigmasqr_default (fl_cosmo 0 g) 8.0 T <> 0 ->
  shallow (concat (map bins_of V)) -> off_clip chi (fl_cosmo 0 g) V -> survey_smooth (map (probe_map rd) S) ->
  (if nl then T (fl_cosmo 0 g) (1 / 10000) <> 0 /\ _sigma8 (fl_cosmo 0 g) <> 0 /\
     forall b, limber_epoch V b -> scale_found (fl_cosmo 0 g) b T /\ forall k, formula_smooth (fl_cosmo 0 g) k b T "takahashi2012" else True) ->
  probes_ok V -> noise_positive V -> (forall p b, In p S -> In b (gbins_of p) -> fl_v (gnz_gals b) <> 0) ->
  (2 <= length ells)%nat -> (forall l, In l ells -> 0 <= l) -> (forall l, (l < length ells)%nat -> 0 < knox_norm ells f_sky l) ->
  length data = (length ells * length (get_cl_ordering V))%nat -> sparse = true \/ method = "inverse"%string \/ method = "cholesky"%string ->
  exists f x, (forall t, survey_likelihood la (fl_cosmo t g) ells (fl_probes t S) T (model_of nl) f_sky sparse data il method = Ok (f t)) /\
    hsurvey_likelihood N ga g ells S (if nl then ghalofit_default N GT else fun g k a => glinear_matter_power N g k a GT) f_sky sparse data il method = Ok x /\ fin_of f 0 x.
Proof.
  intros V HF FP HE NG HP HMo HT HN8 HSh HC HM Hnl Hok HN HG HL HE0 HK HD Hm.
  assert (HEL : forall l, In l ells -> - 0.5 < l) by (intros l Hl; specialize (HE0 l Hl); lra).
  assert (J : rr (lr (lr fin)) (fun t => angular_cl (fl_cosmo t g) (Array1 ells) (fl_probes t S) T (model_of nl)) (hangular_cl N g (Array1 ells) S (if nl then ghalofit_default N GT else fun g k a => glinear_matter_power N g k a GT))).
  { destruct nl; [ destruct Hnl as (HT0 & H8 & HB); now apply fl_all_default_spectra | now apply fl_all_spectra ]. }
  assert (HZ : forall p d, In p V -> In d (bins_of p) -> 0 <= nz_zmax d).
  { intros p b Hp Hb. assert (IN : In b (concat (map bins_of V))) by (apply in_concat; exists (bins_of p); split; [ now apply in_map | exact Hb ]). now destruct (HSh b IN) as [[Q _] _]. }
  assert (HPo : forall l a, (l < length ells)%nat -> 1 / (1 + survey_zmax V) <= a <= 1 -> 0 <= model_of nl (fl_cosmo 0 g) ((el ells l + 1 / 2) / Rmax (chi (fl_cosmo 0 g) a) 1) a T).
  { intros l a Hl _. destruct nl; cbn [model_of]; [ apply halofit_default_nonneg; [ exact HN8 | apply HE0, nth_In, Hl ] | unfold linear; now apply linear_nonneg ]. }
  destruct sparse; [ now apply fsurvey_sparse | ]. apply fsurvey_dense; try assumption. destruct Hm as [ | ]; [ discriminate | assumption ].
Qed.
End Oracles.
End Floats.
