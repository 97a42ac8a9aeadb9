(** * A survey with a density that spoils its gradient: the likelihood exists, is differentiable, and jax returns NaN *)
From Coq Require Import Reals Lra Lia ZArith String List.
From Coquelicot Require Import Coquelicot.
From Verif Require Import SparseX AdNan AdNanSpec AdNanProofs Poison AdNanFinal.
From Verif Require Import Np NpLemmas Core Sparse SparseSpec SparseProofs DetSpec MxBridge DetProofs DetProofs2 DetPivots Likelihood LikelihoodSpec LikelihoodProofs Interp InterpProofs
  Background BgSpec BgPositive Transfer Power Redshift Bias Probes ProbesSpec AngularCl CovSpec CovProofs CovPsd CovFinal AclSpec AclProofs AclFinal GradSpec FisherSpec Deriv PosDefOpen OracleDeriv
  Ad AdSpec AdProofs AdFinal AdPower AdProbes AdRel AdProbesProofs AdArrSpec AdProbesFinal AdHalofit AdHalofitSpec AdHalofitFinal AdLike AdLikeProofs AdLikeSpec AdLikeFinal AdSurvey
  AdNuis AdNuisProofs AdNuisSpec AdNuisNz AdNuisFinal AdNuisLike AdNuisLikeProofs SoftSpec SoftLike PoisonLike AdNuisBack AdNuisBackSpec AdNuisBackFinal XBack XBackSpec XBackFinal AdParamNuis XBackNan XLike.
Import ListNotations.
Local Open Scope R_scope.
Opaque chi_table growth_table_ODE growth_table_gamma logspace.

(** ** the programs return a number in every kind of arithmetic *)
Section Status.
Context {A : Type} (N : num A) (ga : glinalg A) (v : A -> R).
Local Notation tru := (fun (_ : R -> R) (_ : A) => True).
Lemma like_dense data mu k m il method : length data = k -> length mu = k -> method = "inverse"%string \/ method = "cholesky"%string ->
  exists x, ggaussian_log_likelihood N ga data mu (G2 k k m) il method = Ok x.
Proof.
  intros L1 L2 HM. unfold ggaussian_log_likelihood. cbv zeta. set (r := gvsub N mu (map (cst N) data)).
  assert (LR : length r = k) by (unfold r, gvsub; rewrite length_map2, map_length; lia). cbn [gis_sparse]. rewrite LR, !Nat.eqb_refl. cbn [negb].
  destruct HM as [-> | ->]; cbn [String.eqb Ascii.eqb Bool.eqb bind]; destruct il; cbn [negb bind]; eexists; reflexivity.
Qed.
Lemma like_sparse data mu a n s il method : length data = (a * n)%nat -> length mu = (a * n)%nat -> exists x, ggaussian_log_likelihood N ga data mu (G3 a a n s) il method = Ok x.
Proof.
  intros L1 L2. unfold ggaussian_log_likelihood. cbv zeta. set (r := gvsub N mu (map (cst N) data)).
  assert (LR : length r = (a * n)%nat) by (unfold r, gvsub; rewrite length_map2, map_length; lia). cbn [gis_sparse ginv]. rewrite Nat.eqb_refl. cbn [negb bind gdot3]. rewrite LR, !Nat.eqb_refl. cbn [negb orb bind].
  unfold gslogdet. rewrite Nat.eqb_refl. cbn [negb]. destruct il; cbn [negb bind]; eexists; reflexivity.
Qed.
Lemma survey_runs c g (S : list (gprobe A)) ells (P : gcosmo A -> A -> A -> A) f_sky sparse data il method : let V := map (read_probe v) S in
  built c -> expanding c -> _gamma c = None -> physical c -> moderate c -> ggamma g = None -> shallow (concat (map bins_of V)) -> probes_ok V -> noise_positive V ->
  (forall p b, In p S -> In b (gbins_of p) -> v (gnz_gals b) <> 0) -> (2 <= length ells)%nat -> (forall l, (l < length ells)%nat -> 0 < knox_norm ells f_sky l) ->
  length data = (length ells * length (get_cl_ordering V))%nat -> sparse = true \/ method = "inverse"%string \/ method = "cholesky"%string ->
  exists x, hsurvey_likelihood N ga g ells S P f_sky sparse data il method = Ok x.
Proof.
  intros V B HE NG HP HMo GG HS Hok HN HG HL HK HD HM. assert (P1 := node1_pos). pose (T := (fun _ _ => 0) : Power.transfer). pose (nl := (fun _ _ _ _ => 0) : Power.nonlinear). clearbody T nl. set (lens := limber_epoch V).
  assert (RL : forall b, lens b -> table_node 128 1 <= b <= 1) by (intros b; now apply limber_range).
  assert (KN : forall l, (l < length ells)%nat -> knox_norm ells f_sky l <> 0) by (intros l Hl; specialize (HK l Hl); lra).
  assert (HR : respects tru) by (intros ? ? ? ? ?; exact I).
  assert (GJ : gcosmo_jit g = Ok g) by (unfold gcosmo_jit; now rewrite GG).
  assert (RA : rr (lr (lr tru)) (fun _ => angular_cl c (Array1 ells) V T nl) (hangular_cl N g (Array1 ells) S P)).
  { apply (e_angular_cl N tru (fun _ => v) (fun _ => True) HR (fun _ => I) (fun _ _ => I) (fun _ _ _ _ _ _ => I) (fun _ _ _ _ _ _ => I) (fun _ _ _ _ _ _ _ => I) (fun _ => c) g
      (fun _ => R_jit c B NG) GJ I S T nl P lens (fun _ => True) (fun _ _ => True) (fun _ => True) (fun _ => True)); try (intros; exact I).
    - intros a Ha. rewrite <- (displaced_0 c rest B). apply leaf_D0; try assumption. now apply RL.
    - now intros [ | | ].
    - intros zs zmax E1 E2. rewrite <- (@read_zmaxs A v) in E1. assert (Hm := probes_deepest _ _ _ E1 E2). fold V in Hm. split.
      + intros x Hx. assert (Hx' : lens x) by now apply (limber_in _ zmax). split; [ exact Hx' | ]. apply RL in Hx'. lra.
      + intros p Hp. assert (BA : forall b : gbias_arg A, match b with GOneBias _ => True | GBiasList bs => forall b0, In b0 bs -> True end) by (intros [ | ]; auto).
        destruct p as [p | p]; cbn [gprobe_ok gbins_of]; unfold bins_ok, lensing_ok, fine_m, fair_arg;
          repeat match goal with |- _ /\ _ => split | |- forall _, _ => intro | |- match ?x with _ => _ end => destruct x end; try exact I; auto. }
  assert (RN : rr (lr (lr tru)) (fun _ => noise_cl (length ells) V) (hnoise_cl N (length ells) S)).
  { apply (e_noise_cl N tru (fun _ => v) HR (fun _ => I) (fun _ _ _ _ _ _ => I) (fun _ _ _ _ _ _ _ => I)). intros p Hp b Hb. split; [ exact I | now apply (HG p) ]. }
  assert (CR : reachable c) by (rewrite <- (displaced_0 c rest B); apply curve_reachable). assert (CG : _gamma_growth c = false) by (rewrite <- (displaced_0 c rest B); now apply curve_growth).
  assert (NT : noise_total V) by (intros p Hp; destruct (HN p Hp) as (u & E & L & _); now exists u).
  destruct (survey_facts c ells V T nl f_sky CR CG Hok NT HL KN) as (sig & noi & mean & s3 & m2 & E1 & E2 & EM & E3 & E4 & E5 & E6 & W3 & DN & SY & LM).
  destruct (rr_cases _ _ _ RA) as [(x & M & EG & EX & L) | (e & _ & EX)]; [ | specialize (EX 0); cbv beta in EX; congruence ].
  destruct (rr_cases _ _ _ RN) as [(y & W & EN & EY & LW) | (e & _ & EY)]; [ | specialize (EY 0); cbv beta in EY; congruence ].
  assert (X0 : x 0 = sig) by (specialize (EX 0); cbv beta in EX; rewrite E1 in EX; now injection EX). assert (Y0 : y 0 = noi) by (specialize (EY 0); cbv beta in EY; rewrite E2 in EY; now injection EY).
  assert (RC := e_covariance N tru (fun _ => v) (fun _ => I) (fun _ _ _ _ _ _ => I) (fun _ _ _ _ _ _ => I) (fun _ _ _ _ _ _ _ => I) ells S x M y W f_sky sparse (norm_nonzero ells f_sky HL KN) L LW). fold V in RC.
  assert (LC : length (concat M) = length (concat (x 0))) by (rewrite <- (lr_length _ _ _ (lr_concat _ _ _ L) 0); reflexivity). rewrite X0, <- EM, LM in LC.
  unfold hsurvey_likelihood, hgaussian_cl_covariance_and_mean. rewrite EG. cbn [bind]. rewrite EN. cbn [bind].
  destruct (rr_cases _ _ _ RC) as [(cov & Cg & EG2 & EC & LG) | (e & _ & EC)].
  - rewrite EG2. cbn [bind fst snd]. specialize (EC 0). cbv beta in EC. fold V in EC. rewrite X0, Y0 in EC. destruct sparse.
    + rewrite E3 in EC. injection EC as EC. destruct LG as [cv r k f q HC LX | cv a b n f q HC LX]; rewrite HC in EC; [ discriminate | ]. injection EC as <- <- <- _. apply like_sparse; rewrite ?HD, ?LC; apply Nat.mul_comm.
    + rewrite E4 in EC. injection EC as EC. destruct LG as [cv r k f q HC LX | cv a b n f q HC LX]; rewrite HC in EC; [ | discriminate ]. injection EC as <- <- _. destruct HM as [HM | HM]; [ discriminate | ]. now apply like_dense.
  - specialize (EC 0). cbv beta in EC. fold V in EC. rewrite X0, Y0 in EC. destruct sparse; congruence.
Qed.
End Status.

(** ** shapes *)
Lemma fits_of {A} (v : A -> R) (p : gprobe A) : ProbesSpec.probe_ok (read_probe v p) -> gprobe_fits p.
Proof.
  assert (BF : forall n b, bias_fits n (read_bias_arg v b) -> gbias_fits n b) by (intros n [b | bs]; cbn; [ auto | now rewrite map_length ]).
  destruct p as [[bs m ia se] | [bs b]]; unfold ProbesSpec.probe_ok, gprobe_fits; cbn.
  - rewrite map_length. intros (_ & H1 & H2). split; [ destruct m as [x | ms]; cbn in *; [ exact I | now rewrite map_length in H1 ] | ]. destruct ia; cbn in *; [ apply BF, H2 | exact I ].
  - rewrite map_length. intros (_ & H1 & _). now apply BF.
Qed.
Lemma shaped_x xl : ga_shaped (linalg_x xl). Proof. split; intros; apply length_tab. Qed.
Lemma shaped_xb xl : ga_shaped (linalg_xb xl). Proof. split; intros; apply length_tab. Qed.

(** ** differentiability *)
Lemma soft_likelihood la c (S : list (gprobe dual)) ells T nl f_sky sparse data il method : let V := values S in
  linalg_ok la -> linalg_shaped la -> built c -> expanding c -> _gamma c = None -> physical c -> moderate c ->
  shallow (concat (map bins_of V)) -> soft_survey S -> probes_ok V -> noise_positive V -> (forall p b, In p S -> In b (gbins_of p) -> fst (gnz_gals b) <> 0) ->
  (forall p d, In p V -> In d (bins_of p) -> 0 <= nz_zmax d) ->
  (forall l a, (l < length ells)%nat -> 1 / (1 + survey_zmax V) <= a <= 1 -> 0 <= nl c ((el ells l + 1 / 2) / Rmax (chi c a) 1) a T) ->
  (2 <= length ells)%nat -> (forall l, (l < length ells)%nat -> 0 < knox_norm ells f_sky l) ->
  length data = (length ells * length (get_cl_ordering V))%nat -> sparse = true \/ method = "inverse"%string \/ method = "cholesky"%string ->
  exists f, (forall t, survey_likelihood la c ells (moved S t) T nl f_sky sparse data il method = Ok (f t)) /\ ex_derive f 0.
Proof.
  intros V HO HSh B HE NG HP HMo HS HN Hok HNo HG HZ HPk HL HK HD HM. assert (J := soft_spectra c S ells T nl B HE NG HP HMo HS HN).
  destruct sparse; [ apply msurvey_sparse; assumption | ]. destruct HM as [HM | HM]; [ discriminate | ]. apply msurvey_dense; assumption.
Qed.

(** ** NaN *)
Lemma in_all_bins {A} (S : list (gprobe A)) (D : gnz A -> Prop) d0 : (exists p d, In p S /\ In d (gbins_of p) /\ D d) -> exists i, (i < length (all_bins S))%nat /\ D (nth i (all_bins S) d0).
Proof.
  intros (p & d & Hp & Hd & HD). assert (HI : In d (all_bins S)) by (unfold all_bins; apply in_concat; exists (gbins_of p); split; [ now apply in_map | exact Hd ]).
  apply (In_nth _ _ d0) in HI. destruct HI as (i & Hi & E). exists i. split; [ exact Hi | now rewrite E ].
Qed.
Lemma ells_nonempty (ells : list R) : (2 <= length ells)%nat -> ells <> []. Proof. intros H ->. cbn in H. lia. Qed.
Lemma hordering {A} (v : A -> R) S : length (hcl_ordering S) = length (get_cl_ordering (map (read_probe v) S)).
Proof. now rewrite read_ordering. Qed.

Lemma jvp_survey_nan la xl c (S : list (gprobe xdual)) ells T nl P f_sky sparse data il method : let V := map (read_probe x_val) S in
  linalg_ok la -> linalg_shaped la -> built c -> expanding c -> _gamma c = None -> physical c -> moderate c ->
  shallow (concat (map bins_of V)) -> soft_survey (map (probe_map (fun x => (x_val x, x_tan x))) S) -> probes_ok V -> noise_positive V ->
  (forall p b, In p S -> In b (gbins_of p) -> x_val (gnz_gals b) <> 0) -> (forall p d, In p V -> In d (bins_of p) -> 0 <= nz_zmax d) ->
  (forall l a, (l < length ells)%nat -> 1 / (1 + survey_zmax V) <= a <= 1 -> 0 <= nl c ((el ells l + 1 / 2) / Rmax (chi c a) 1) a T) ->
  (2 <= length ells)%nat -> (forall l, (l < length ells)%nat -> 0 < knox_norm ells f_sky l) ->
  length data = (length ells * length (get_cl_ordering V))%nat -> sparse = true \/ method = "inverse"%string \/ method = "cholesky"%string ->
  (exists p d, In p S /\ In d (gbins_of p) /\ (root_smail d \/ root_shift d)) ->
  (exists f, (forall t, survey_likelihood la c ells (map (read_probe (AdNanSpec.moving t)) S) T nl f_sky sparse data il method = Ok (f t)) /\ ex_derive f 0) /\
  exists x, hsurvey_likelihood num_x (linalg_x xl) (cosmo_map AdNanSpec.still (lift_cosmo c)) ells S P f_sky sparse data il method = Ok x /\ snd x = Some NaN.
Proof.
  intros V HO HSh B HE NG HP HMo HS HN Hok HNo HG HZ HPk HL HK HD HM HB.
  assert (EV : values (map (probe_map (fun x => (x_val x, x_tan x))) S) = V) by (unfold values, V; rewrite map_map; apply map_ext; intros p; now rewrite read_probe_map).
  assert (EM : forall t, moved (map (probe_map (fun x => (x_val x, x_tan x))) S) t = map (read_probe (AdNanSpec.moving t)) S) by (intros t; unfold moved; rewrite map_map; apply map_ext; intros p; now rewrite read_probe_map).
  split.
  - destruct (soft_likelihood la c (map (probe_map (fun x => (x_val x, x_tan x))) S) ells T nl f_sky sparse data il method) as (f & F1 & F2); rewrite ?EV; try assumption.
    + intros p b Hp Hb. apply in_map_iff in Hp. destruct Hp as (q & <- & Hq). rewrite w_bins in Hb. apply in_map_iff in Hb. destruct Hb as (e & <- & He). intros HH. apply (HG q e Hq He). destruct e. exact HH.
    + exists f. split; [ intros t; rewrite <- EM; apply F1 | exact F2 ].
  - destruct (survey_runs num_x (linalg_x xl) x_val c (cosmo_map AdNanSpec.still (lift_cosmo c)) S ells P f_sky sparse data il method) as (x & E); try assumption; [ cbn; now rewrite NG | ].
    exists x. split; [ exact E | ]. destruct (in_all_bins S _ (gnz_default num_x) HB) as (i & Hi & Hd).
    refine (survey_bad (bad := bad) (linalg_x xl) S _ P ells f_sky sparse data il method x i (shaped_x xl) _ Hi _ (ells_nonempty _ HL) _ E).
    + intros p Hp. apply (fits_of x_val). apply Hok. now apply in_map.
    + destruct Hd as [Hd | Hd]; [ now apply root_smail_dead | now apply root_shift_dead ].
    + rewrite (hordering x_val). exact HD.
Qed.
Lemma grad_survey_nan la xl c (S : list (gprobe leaf)) ells T nl P f_sky sparse data il method i : let V := map (read_probe fst) S in
  linalg_ok la -> linalg_shaped la -> built c -> expanding c -> _gamma c = None -> physical c -> moderate c ->
  shallow (concat (map bins_of V)) -> soft_leaves S -> probes_ok V -> noise_positive V ->
  (forall p b, In p S -> In b (gbins_of p) -> fst (gnz_gals b) <> 0) -> (forall p d, In p V -> In d (bins_of p) -> 0 <= nz_zmax d) ->
  (forall l a, (l < length ells)%nat -> 1 / (1 + survey_zmax V) <= a <= 1 -> 0 <= nl c ((el ells l + 1 / 2) / Rmax (chi c a) 1) a T) ->
  (2 <= length ells)%nat -> (forall l, (l < length ells)%nat -> 0 < knox_norm ells f_sky l) ->
  length data = (length ells * length (get_cl_ordering V))%nat -> sparse = true \/ method = "inverse"%string \/ method = "cholesky"%string ->
  (exists p d, In p S /\ In d (gbins_of p) /\ root_leaf i d) ->
  (forall w, exists f, (forall t, survey_likelihood la c ells (survey_at w t S) T nl f_sky sparse data il method = Ok (f t)) /\ ex_derive f 0) /\
  exists x, hsurvey_likelihood num_xb (linalg_xb xl) (xcosmo (fixed_cosmo c)) ells (xprobes S) P f_sky sparse data il method = Ok x /\ partial x i = NaN.
Proof.
  intros V HO HSh B HE NG HP HMo HS HN Hok HNo HG HZ HPk HL HK HD HM HB. split.
  - intros w. assert (EV : values (map (probe_map (slope_pair w)) S) = V) by (unfold values, V; rewrite map_map; apply map_ext; intros p; now rewrite read_probe_map).
    assert (EM : forall t, moved (map (probe_map (slope_pair w)) S) t = survey_at w t S) by (intros t; unfold moved, survey_at; rewrite map_map; apply map_ext; intros p; now rewrite read_probe_map).
    destruct (soft_likelihood la c (map (probe_map (slope_pair w)) S) ells T nl f_sky sparse data il method) as (f & F1 & F2); rewrite ?EV; try assumption.
    + apply HN.
    + intros p b Hp Hb. apply in_map_iff in Hp. destruct Hp as (q & <- & Hq). rewrite w_bins in Hb. apply in_map_iff in Hb. destruct Hb as (e & <- & He). intros HH. apply (HG q e Hq He). destruct e. exact HH.
    + exists f. split; [ intros t; rewrite <- EM; apply F1 | exact F2 ].
  - set (v := fun x : xback => match fst x with Fin y => y | _ => 0 end).
    assert (EV : map (read_probe v) (xprobes S) = V) by (unfold xprobes, V; rewrite map_map; apply map_ext; intros p; now rewrite read_probe_map).
    destruct (survey_runs num_xb (linalg_xb xl) v c (xcosmo (fixed_cosmo c)) (xprobes S) ells P f_sky sparse data il method) as (x & E); rewrite ?EV; try assumption; [ cbn; now rewrite NG | | ].
    + intros p b Hp Hb. unfold xprobes in Hp. apply in_map_iff in Hp. destruct Hp as (q & <- & Hq). rewrite w_bins in Hb. apply in_map_iff in Hb. destruct Hb as (e & <- & He). intros HH. apply (HG q e Hq He). destruct e. exact HH.
    + exists x. split; [ exact E | ].
      assert (HB' : exists p d, In p (xprobes S) /\ In d (gbins_of p) /\ dead (N := num_xb) (bad := spoils i) d).
      { destruct HB as (p & d & Hp & Hd & HR). exists (probe_map xinput p), (nz_map xinput d). split; [ now apply in_map | split; [ rewrite w_bins; now apply in_map | now apply root_dead ]]. }
      destruct (in_all_bins (xprobes S) _ (gnz_default num_xb) HB') as (k & Hk & Hd).
      destruct (survey_bad (bad := spoils i) (linalg_xb xl) (xprobes S) (xcosmo (fixed_cosmo c)) P ells f_sky sparse data il method x k) as (C & E1 & E2); try assumption.
      * apply shaped_xb.
      * intros p Hp. apply (fits_of v). apply Hok. rewrite <- EV. now apply in_map.
      * now apply ells_nonempty.
      * rewrite (hordering v), EV. exact HD.
      * unfold partial. now rewrite E1.
Qed.
