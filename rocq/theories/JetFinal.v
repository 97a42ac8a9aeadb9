(** * Second derivatives: public statements *)
From Coquelicot Require Import Coquelicot.
From Coq Require Import String.
From Verif Require Import FinRules FinBg FinGrowth FinTransfer FinPower FinHalofit.
From Verif Require Import Np NpLemmas Core Sparse SparseSpec Likelihood LikelihoodSpec Ode OdeSpec OdeProofs Interp InterpProofs InterpCont Integrate IntegrateSpec RombProofs Background BgSpec BgAlgebra BgTables
  BgGrowth BgPositive BgProofs BgFinal BgFinal2 BgFinal4 BgGrad Transfer TransferProofs TransferMono Power PowerProofs ExPower Redshift RedshiftProofs Bias Probes ProbesSpec AngularCl GradSpec
  Ad AdSpec AdProofs AdBg AdGrowth AdFinal AdPower AdPowerFinal AdHalofit AdHalofitSpec AdProbes AdRel AdProbesProofs AdProbesFinal AdArrSpec AdLike AdLikeSpec AdLikeProofs AdSurvey AdParam AdParamCl AdJacSpec AdJac AdJacFinal AdBack AdBackSpec AdBackProofs AdBackFinal
  AdOver AdOverSpec AdOverProofs AdOverFinal JetRules JetSwap LineSurvey JetSpec.
Import ListNotations.
Local Open Scope R_scope.
Opaque chi_table growth_table_ODE growth_table_gamma logspace.
Local Notation NO := (num_over num_dual).
Local Notation NB := (num_back_over num_dual).
Local Notation N2 := (num_both NO NO).
Local Notation jet f z := (jet_of f 0 z).
Lemma ok_eq {X} (x y : X) : Ok x = Ok y -> x = y. Proof. congruence. Qed.

Lemma bends_jet f z : bends f z -> jet f z.
Proof.
  intros (E1 & L & D1 & E2 & D2). exists (fun s => Derive f s). split; [ | split ].
  - generalize L. apply filter_imp. intros s Hs. now apply Derive_correct.
  - split; [ exact E1 | exact D1 ].
  - split; [ | exact D2 ]. rewrite E2. symmetry. now apply is_derive_unique.
Qed.
Lemma jet_bends f z : jet f z -> bends f z.
Proof.
  intros (f' & L & [A1 A2] & [B1 B2]). split; [ exact A1 | ]. split; [ generalize L; apply filter_imp; intros s Hs; now exists (f' s) | ]. split; [ exact A2 | ]. split.
  - rewrite B1, <- (is_derive_unique _ _ _ A2). symmetry. apply is_derive_unique. exact (locally_singleton _ _ L).
  - apply (is_derive_ext_loc f'); [ | exact B2 ]. generalize L. apply filter_imp. intros s Hs. symmetry. now apply is_derive_unique.
Qed.
Lemma line_jet x d : jet (fun s => x + s * d) ((x, d), (d, 0)).
Proof.
  exists (fun _ => d). split; [ apply filter_forall; intros s; auto_derive; [ exact I | ring ] | ]. split; (split; [ cbn [fst snd]; ring | ]).
  - cbn [fst snd]. auto_derive; [ exact I | ring ].
  - cbn [fst snd]. apply (is_derive_const (V := R_NormedModule)).
Qed.
Lemma jet_moves c d : fin_moves (FLN := jets) (displaced c d) 0 (twice_cosmo c d d).
Proof.
  unfold fin_moves. split; [ intros s; split; [ now split | reflexivity ] | ].
  repeat (split; [ apply line_jet | ]). unfold twice_cosmo, displaced, make_cosmology. cbn [ggamma _gamma]. destruct (_gamma c) as [v | ]; [ | reflexivity ].
  exists (fun _ => v). split; [ reflexivity | apply (j_cst 0 v) ].
Qed.
Lemma jet_jit c e d : _gamma c = None -> gcosmo_jit (twice_cosmo c e d) = Ok (twice_cosmo c e d).
Proof. intros NG. unfold twice_cosmo. rewrite NG. reflexivity. Qed.
Lemma both_jit c e d : _gamma c = None -> gcosmo_jit (both_cosmo c e d) = Ok (both_cosmo c e d).
Proof. intros NG. unfold both_cosmo. rewrite NG. reflexivity. Qed.
Lemma smooth_dense osc c : transfer_smooth osc c -> dense c /\ (if osc then 0 < _Omega_c c else 0 <= eh_alpha_gamma c).
Proof. intros (H1 & H2 & H3 & H4). split; [ now split | exact H4 ]. Qed.
Local Notation off_table n a := ((forall t, a t = a 0) \/ forall i, (2 <= i <= n - 2)%nat -> a 0 <> table_node n i).

Lemma second_background c d a ad : built c -> expanding c -> bends a ad -> 0 < a 0 -> let C := displaced c d in let g := twice_cosmo c d d in
  bends (fun t => H (C t) (a t)) (gH NO g ad) /\ bends (fun t => Omega_m_a (C t) (a t)) (gOmega_m_a NO g ad) /\
  bends (fun t => Omega_de_a (C t) (a t)) (gOmega_de_a NO g ad) /\ bends (fun t => w (C t) (a t)) (gw NO g ad) /\ bends (fun t => dchioverda (C t) (a t)) (gdchioverda NO g ad).
Proof.
  intros B HE Ta Pa C g. destruct (line_background c d g B (jet_moves c d) a ad HE (bends_jet _ _ Ta) Pa) as (H1 & H2 & H3 & H4 & H5).
  refine (conj _ (conj _ (conj _ (conj _ _)))); apply jet_bends; assumption.
Qed.
Lemma second_distances c d a ad : built c -> expanding c -> bends a ad -> 0 < a 0 < 1 -> off_table 256 a ->
  bends (fun t => chi (displaced c d t) (a t)) (gchi NO (twice_cosmo c d d) ad) /\
  (_Omega_k c <> 0 \/ _Omega_k c = 0 /\ dOmega_k d = 0 -> bends (fun t => f_k (displaced c d t) (a t)) (gf_k NO (twice_cosmo c d d) ad)).
Proof.
  intros B HE Ta Pa HO. destruct (line_distances c d _ B (jet_moves c d) a ad HE (bends_jet _ _ Ta) Pa HO) as (H1 & H2).
  split; [ now apply jet_bends | intros HK; now apply jet_bends, H2 ].
Qed.
Lemma second_growth c d a ad : built c -> expanding c -> growing c -> bends a ad -> 0 < a 0 -> off_table 128 a ->
  (0 < D c (a 0) < 1 -> bends (fun t => D (displaced c d t) (a t)) (gD NO (twice_cosmo c d d) ad)) /\
  bends (fun t => f_growth (displaced c d t) (a t)) (gf NO (twice_cosmo c d d) ad).
Proof.
  intros B HE HG Ta Pa HO. destruct (line_growth c d _ B (jet_moves c d) a ad HE HG (bends_jet _ _ Ta) Pa HO) as (H1 & H2).
  split; [ intros HK; now apply jet_bends, H1 | now apply jet_bends ].
Qed.
Lemma second_power c d osc a : built c -> expanding c -> _gamma c = None -> physical c -> moderate c -> transfer_smooth osc c -> sigmasqr_default c 8.0 (eh osc) <> 0 -> table_node 128 1 <= a <= 1 ->
  forall k kd, bends k kd -> 0 < k 0 ->
  bends (fun t => eh osc (displaced c d t) (k t)) (geh NO osc (twice_cosmo c d d) kd) /\
  bends (fun t => linear_matter_power (displaced c d t) (k t) a (eh osc)) (glinear_matter_power NO (twice_cosmo c d d) kd (cst NO a) (geh NO osc)) /\
  forall p, eh osc c (1 / 10000) <> 0 -> _sigma8 c <> 0 -> scale_found c a (eh osc) -> formula_smooth c (k 0) a (eh osc) p ->
    bends_res (fun t => halofit (displaced c d t) (k t) a (eh osc) p) (ghalofit NO (twice_cosmo c d d) kd (cst NO a) (geh NO osc) p).
Proof.
  intros B HE NG HP HMo HTS HN Ha k kd Tk Pk. apply bends_jet in Tk. destruct (smooth_dense osc c HTS) as [HD HO].
  split; [ apply jet_bends; exact (line_transfer c d _ B (jet_moves c d) osc HD HO k kd Tk Pk) | ].
  split; [ apply jet_bends; exact (line_linear c d _ B (jet_moves c d) osc HE NG HP HMo HD HO HN a k kd Ha Tk Pk) | ].
  intros p HT0 H8 HS HF. assert (HR := line_halofit c d _ B (jet_moves c d) osc HE NG HP HMo HD HO HN a p k kd HT0 H8 Ha HS Tk Pk HF).
  unfold bends_res. destruct (rr_cases _ _ _ HR) as [(f & x & -> & E & L) | (e & -> & E)]; [ | exact E ]. exists f. split; [ exact E | now apply jet_bends ].
Qed.
Lemma bends_rows_of F G : rr (lr (lr (fun f x => jet f x))) F G -> bends_rows F G.
Proof.
  intros HR. unfold bends_rows. destruct (rr_cases _ _ _ HR) as [(V & M & -> & E & L) | (e & -> & E)]; [ | exact E ].
  exists V. split; [ exact E | ]. split; [ exact (lr_length _ _ _ L) | ]. split.
  - intros t i. exact (lr_length _ _ _ (lr_nth (lr (fun f x => jet f x)) V M [] [] i (lr_respects _) (lr_nil' _) L) t).
  - intros i j. apply jet_bends. apply (lr_nth (fun f x => jet f x) (fun t => nth i (V t) []) (nth i M []) 0 ((0, 0), (0, 0)) j (fin_respects (FLN := jets) 0) (j_cst 0 0)).
    exact (lr_nth (lr (fun f x => jet f x)) V M [] [] i (lr_respects _) (lr_nil' _) L).
Qed.
Section Spectra.
Variables (c : cosmology) (nl osc : bool) (probes : list probe) (ells : list R).
Hypotheses (B : built c) (HE : expanding c) (NG : _gamma c = None) (HP : physical c) (HMo : moderate c) (HTS : transfer_smooth osc c) (HN : sigmasqr_default c 8.0 (eh osc) <> 0)
  (HNL : nl = true -> eh osc c (1 / 10000) <> 0 /\ _sigma8 c <> 0 /\ forall b, limber_epoch probes b -> scale_found c b (eh osc) /\ forall k, formula_smooth c k b (eh osc) "takahashi2012")
  (HS : shallow (concat (map bins_of probes))) (HC : off_clip chi c probes) (HL : forall l, In l ells -> - 0.5 < l).
Lemma line_model {Nm} {N : num Nm} {FLN : follows N} d (g : gcosmo Nm) : fin_moves (displaced c d) 0 g -> (_gamma c = None -> gcosmo_jit g = Ok g) ->
  rr (lr (lr (fun f x => fin_of f 0 x))) (fun t => angular_cl (displaced c d t) (Array1 ells) probes (eh osc) (model_nl nl)) (gangular_cl N g (Array1 ells) probes (gmodel N nl osc)).
Proof.
  intros HM HJ. destruct (smooth_dense osc c HTS) as [HD HO]. apply (line_spectra c d g B HM HJ osc HE NG HP HMo); try assumption. intros b Hb k kd Tk Pk. assert (RB := limber_range _ _ HS Hb).
  destruct nl; cbn [model_nl gmodel].
  - destruct (HNL eq_refl) as (H1 & H2 & H3). destruct (H3 b Hb) as [H4 H5]. exact (line_default_power c d g B HM osc HE NG HP HMo HD HO HN b k kd H1 H2 RB H4 H5 Tk Pk).
  - exact (line_linear c d g B HM osc HE NG HP HMo HD HO HN b k kd RB Tk Pk).
Qed.
Lemma second_spectra d : bends_rows (fun t => angular_cl (displaced c d t) (Array1 ells) probes (eh osc) (model_nl nl)) (gangular_cl NO (twice_cosmo c d d) (Array1 ells) probes (gmodel NO nl osc)).
Proof. apply bends_rows_of. exact (line_model (FLN := jets) d (twice_cosmo c d d) (jet_moves c d) (jet_jit c d d)). Qed.
Lemma limber_D x : limber_epoch probes x -> 0 < x /\ D c x <> 0.
Proof.
  intros Hx. assert (RX := limber_range _ _ HS Hx). assert (P1 := node1_pos). split; [ lra | ].
  assert (Q := fleaf_D0 (fun _ => c) (fun _ => B) NG HP HMo x RX). exact Q.
Qed.

(** ** the likelihood *)
Variables (la : linalg) (f_sky : R) (data mu : list R) (a n : nat) (s : list (list (list R))).
Hypothesis (HM : gaussian_cl_covariance_and_mean c (Array1 ells) probes (eh osc) (model_nl nl) f_sky true = Ok (mu, A3 a a n s)).
Definition frozen (m : list (list R)) : R := let r := vsub data (concat m) in - (1 / 2) * vdot r (sparse_dot_vec a n (inv_data (la_inv la) a n s) r).
Lemma frozen_form c' m : angular_cl c' (Array1 ells) probes (eh osc) (model_nl nl) = Ok m -> frozen_likelihood la c c' ells probes (eh osc) (model_nl nl) f_sky data = Ok (frozen m).
Proof.
  intros E. unfold frozen_likelihood. rewrite HM. cbn [bind fst snd]. unfold inv, check_sparse. rewrite Nat.eqb_refl. cbn [negb andb bind]. rewrite E. reflexivity.
Qed.
Section Follow.
Context {A : Type} (N : num A) (rel : (R -> R) -> A -> Prop).
Hypotheses (r_resp : respects rel) (r_cst : forall x, rel (fun _ => x) (cst N x))
  (r_add : forall f h x y, rel f x -> rel h y -> rel (fun s => f s + h s) (nadd N x y))
  (r_sub : forall f h x y, rel f x -> rel h y -> rel (fun s => f s - h s) (nsub N x y))
  (r_mul : forall f h x y, rel f x -> rel h y -> rel (fun s => f s * h s) (nmul N x y)).
Lemma follow_notebook g V rows C : ggaussian_cl_covariance_and_mean N g ells probes (gmodel N nl osc) f_sky true = Ok (concat rows, G3 a a n C) -> map (map (map (val N))) C = s ->
  lr (lr rel) V rows -> exists y, gnotebook_likelihood N la g ells probes (gmodel N nl osc) f_sky data = Ok y /\ rel (fun t => frozen (V t)) y.
Proof.
  intros E EC HV. unfold gnotebook_likelihood. rewrite E. cbn [bind fst snd]. rewrite Nat.eqb_refl. cbn [negb]. rewrite EC. eexists. split; [ reflexivity | ]. unfold frozen. cbv zeta.
  assert (HR : lr rel (fun t => vsub data (concat (V t))) (gvsub N (map (cst N) data) (concat rows))).
  { apply (l_vsub N rel r_sub (fun _ => data)); [ apply (l_csts N rel r_cst) | ]. now apply lr_concat. }
  apply (r_mul (fun _ => - (1 / 2))); [ apply r_cst | ]. apply (l_vdot N rel); try assumption. apply (l_sparse_dot_vec N rel) with (f := fun _ => inv_data (la_inv la) a n s); try assumption.
  generalize (inv_data (la_inv la) a n s). intros m. induction m as [ | v m IH]; [ apply lr_nil' | ]. cbn [map]. apply (lr_cons (lr (lr rel)) _ (fun _ => v) (fun _ => m)); [ reflexivity | now apply (l_cst2 N rel) | exact IH ].
Qed.
End Follow.
Lemma twice_rows e d : exists rows C, ggaussian_cl_covariance_and_mean NO (twice_cosmo c e d) ells probes (gmodel NO nl osc) f_sky true = Ok (concat rows, G3 a a n C) /\
  gangular_cl NO (twice_cosmo c e d) (Array1 ells) probes (gmodel NO nl osc) = Ok rows /\ map (map (map (val NO))) C = s.
Proof.
  destruct (twice_run c nl osc ells probes f_sky mu a a n s B NG limber_D HM e d) as (z & C & me & md & E1 & _ & E3 & _).
  destruct (mean_of_angular _ _ _ _ _ _ _ _ _ E1) as (rows & E2 & ->). now exists rows, C.
Qed.
Lemma reverse_run e d : exists y z, gnotebook_likelihood NB la (hessian_cosmo c e) ells probes (gmodel NB nl osc) f_sky data = Ok y /\
  gnotebook_likelihood NO la (twice_cosmo c e d) ells probes (gmodel NO nl osc) f_sky data = Ok z /\ fst y = fst z /\ gradient_along y d = fst (snd z) /\ hessian_along y d = snd (snd z).
Proof.
  assert (K := q_notebook _ _ _ (rbo_num 10 (weight d 0 0)) la _ _ ells probes _ _ f_sky data (rbo_cosmo c e d) (r_model _ _ _ (rbo_num 10 (weight d 0 0)) _ _ nl osc (rbo_cosmo c e d))).
  destruct (twice_rows e d) as (rows & C & E1 & _ & _).
  assert (Z : exists z, gnotebook_likelihood NO la (twice_cosmo c e d) ells probes (gmodel NO nl osc) f_sky data = Ok z) by (unfold gnotebook_likelihood; rewrite E1; cbn [bind fst snd]; rewrite Nat.eqb_refl; cbn [negb]; eexists; reflexivity).
  destruct Z as [z Z]. rewrite Z in K. destruct (gnotebook_likelihood NB _ _ _ _ _ _ _) as [y | x]; cbn [res_rel] in K; [ | contradiction ]. exists y, z. split; [ reflexivity | split; [ exact Z | ]]. exact (rbo_read d y z K).
Qed.
(** along a line *)
Lemma second_likelihood d : exists y f, gnotebook_likelihood NB la (hessian_cosmo c d) ells probes (gmodel NB nl osc) f_sky data = Ok y /\
  (forall t, frozen_likelihood la c (displaced c d t) ells probes (eh osc) (model_nl nl) f_sky data = Ok (f t)) /\
  fst (fst y) = f 0 /\ locally 0 (fun t => ex_derive f t) /\ is_derive f 0 (gradient_along y d) /\ is_derive (Derive f) 0 (hessian_along y d).
Proof.
  destruct (reverse_run d d) as (y & z & E1 & E2 & E3 & E4 & E5). destruct (twice_rows d d) as (rows & C & F1 & F2 & F3).
  assert (HR := line_model (FLN := jets) d (twice_cosmo c d d) (jet_moves c d) (jet_jit c d d)). rewrite F2 in HR.
  destruct (rr_cases _ _ _ HR) as [(V & M & EM & EV & LV) | (e & EM & _)]; [ | discriminate ]. apply ok_eq in EM. subst M.
  destruct (follow_notebook NO (fun f x => jet f x) (fin_respects (FLN := jets) 0) (j_cst 0) (j_add 0) (j_sub 0) (j_mul 0) (twice_cosmo c d d) V rows C F1 F3 LV) as (z' & G1 & G2).
  rewrite G1 in E2. apply ok_eq in E2. subst z'. apply jet_bends in G2. destruct G2 as (B1 & B2 & B3 & B4 & B5).
  exists y, (fun t => frozen (V t)). split; [ exact E1 | ]. split; [ intros t; now apply frozen_form | ].
  split; [ rewrite E3; exact B1 | ]. split; [ exact B2 | ]. split; [ rewrite E4, B4; exact B3 | rewrite E5; exact B5 ].
Qed.
Lemma both_rows e d : exists rows C, ggaussian_cl_covariance_and_mean N2 (both_cosmo c e d) ells probes (gmodel N2 nl osc) f_sky true = Ok (concat rows, G3 a a n C) /\
  gangular_cl N2 (both_cosmo c e d) (Array1 ells) probes (gmodel N2 nl osc) = Ok rows /\ map (map (map (val N2))) C = s.
Proof.
  destruct (twice_rows e d) as (rows & C & E1 & E2 & E3).
  pose proof (q_mean N2 NO left_of left_num _ _ ells probes _ _ f_sky true (left_cosmo c e d) (r_model N2 NO left_of left_num _ _ nl osc (left_cosmo c e d))) as K. rewrite E1 in K.
  destruct (ggaussian_cl_covariance_and_mean N2 _ _ _ _ _ _) as [[z C2] | x] eqn:E; cbn [res_rel] in K; [ | contradiction ]. destruct K as [K1 K2]. cbn [fst snd] in K1, K2.
  destruct C2 as [ | | | a' b' n' C2 | ]; cbn [arr_rel] in K2; try contradiction. destruct K2 as (-> & -> & -> & K2).
  destruct (mean_of_angular _ _ _ _ _ _ _ _ _ E) as (rows2 & A1 & ->). exists rows2, C2. split; [ reflexivity | split; [ exact A1 | ]]. rewrite <- E3. exact (vals3 N2 NO left_of left_num _ _ K2).
Qed.
Lemma twice_swap e d z z' : gnotebook_likelihood NO la (twice_cosmo c e d) ells probes (gmodel NO nl osc) f_sky data = Ok z ->
  gnotebook_likelihood NO la (twice_cosmo c d e) ells probes (gmodel NO nl osc) f_sky data = Ok z' -> z' = swap z.
Proof.
  intros Ez Ez'. destruct (both_rows e d) as (rows & C & F1 & F2 & F3).
  assert (HR := line_model (FLN := swapped) e (both_cosmo c e d) (both_moves c e d) (both_jit c e d)). rewrite F2 in HR.
  destruct (rr_cases _ _ _ HR) as [(V & M & EM & EV & LV) | (x & EM & _)]; [ | discriminate ]. apply ok_eq in EM. subst M.
  destruct (follow_notebook N2 (fun f x => swaps f 0 x) (fin_respects (FLN := swapped) 0) (w_cst 0) (w_add 0) (w_sub 0) (w_mul 0) (both_cosmo c e d) V rows C F1 F3 LV) as (y & G1 & [_ G2]).
  assert (K := q_notebook _ _ _ left_num la _ _ ells probes _ _ f_sky data (left_cosmo c e d) (r_model _ _ _ left_num _ _ nl osc (left_cosmo c e d))).
  assert (L := q_notebook _ _ _ right_num la _ _ ells probes _ _ f_sky data (right_cosmo c e d) (r_model _ _ _ right_num _ _ nl osc (right_cosmo c e d))).
  rewrite G1, Ez in K. rewrite G1, Ez' in L. cbn [res_rel] in K, L. destruct L as [L _]. unfold left_of in K. subst z. rewrite <- L. exact G2.
Qed.
Lemma hessian_symmetric e d y y' : gnotebook_likelihood NB la (hessian_cosmo c e) ells probes (gmodel NB nl osc) f_sky data = Ok y ->
  gnotebook_likelihood NB la (hessian_cosmo c d) ells probes (gmodel NB nl osc) f_sky data = Ok y' -> hessian_along y d = hessian_along y' e.
Proof.
  intros E E'. destruct (reverse_run e d) as (y1 & z & E1 & E2 & _ & _ & E5). destruct (reverse_run d e) as (y2 & z' & E1' & E2' & _ & _ & E5').
  rewrite E in E1. apply ok_eq in E1. subst y1. rewrite E' in E1'. apply ok_eq in E1'. subst y2. rewrite E5, E5', (twice_swap e d z z' E2 E2'). reflexivity.
Qed.
Lemma hessian_linear (y : back_over dual) d e : hessian_along y (dsum d e) = hessian_along y d + hessian_along y e.
Proof. unfold hessian_along, AdJacSpec.dot, dsum. destruct (slots _). cbn. ring. Qed.
Lemma second_mixed d e : exists yd ye ys, gnotebook_likelihood NB la (hessian_cosmo c d) ells probes (gmodel NB nl osc) f_sky data = Ok yd /\
  gnotebook_likelihood NB la (hessian_cosmo c e) ells probes (gmodel NB nl osc) f_sky data = Ok ye /\ gnotebook_likelihood NB la (hessian_cosmo c (dsum d e)) ells probes (gmodel NB nl osc) f_sky data = Ok ys /\
  hessian_along yd e = hessian_along ye d /\ hessian_along ys (dsum d e) = hessian_along yd d + 2 * hessian_along yd e + hessian_along ye e.
Proof.
  destruct (reverse_run d d) as (yd & _ & Ed & _). destruct (reverse_run e e) as (ye & _ & Ee & _). destruct (reverse_run (dsum d e) d) as (ys & _ & Es & _).
  exists yd, ye, ys. split; [ exact Ed | split; [ exact Ee | split; [ exact Es | ]]]. assert (S := hessian_symmetric d e yd ye Ed Ee). split; [ exact S | ].
  rewrite hessian_linear, (hessian_symmetric _ d ys yd Es Ed), (hessian_symmetric _ e ys ye Es Ee), !hessian_linear. lra.
Qed.
End Spectra.
Lemma frozen_here la c ells probes T nl f_sky data : frozen_likelihood la c c ells probes T nl f_sky data = notebook_likelihood la c ells probes T nl f_sky data.
Proof.
  unfold frozen_likelihood, notebook_likelihood, gaussian_cl_covariance_and_mean. cbn [atleast_1d]. destruct (angular_cl c (Array1 ells) probes T nl) as [m | x]; cbn [bind]; [ | reflexivity ].
  destruct (noise_cl _ _) as [noi | x]; cbn [bind]; [ | reflexivity ]. destruct (gaussian_cl_covariance _ _ _ _ _ _) as [C | x]; cbn [bind fst snd]; [ | reflexivity ]. reflexivity.
Qed.
