(** * Background, spectra and Limber integrals along a line of parameters, for any arithmetic that follows curves *)
From Coquelicot Require Import Coquelicot.
From Coq Require Import String.
From Verif Require Import FinRules FinBg FinGrowth FinTransfer FinPower FinHalofit.
From Verif Require Import Np NpLemmas Core Ode OdeSpec OdeProofs Interp InterpProofs InterpCont Integrate IntegrateSpec RombProofs Background BgSpec BgAlgebra BgTables
  BgGrowth BgPositive BgProofs BgFinal BgFinal2 BgFinal4 BgGrad Transfer TransferProofs TransferMono Power PowerProofs ExPower Redshift RedshiftProofs Bias Probes AngularCl GradSpec
  Ad AdSpec AdProofs AdBg AdGrowth AdFinal AdPower AdPowerFinal AdHalofit AdHalofitSpec AdProbes AdRel AdProbesProofs AdProbesFinal AdArrSpec AdOver.
Import ListNotations.
Local Open Scope R_scope.
Opaque chi_table growth_table_ODE growth_table_gamma logspace.

Section Along.
Context {Nm : Type} {N : num Nm} {FLN : follows N}.
Local Notation goes f z := (fin_of f 0 z).
Variables (c : cosmology) (d : direction) (g : gcosmo Nm).
Hypotheses (B : built c).
Local Notation C := (displaced c d).
Hypotheses (HM : fin_moves C 0 g) (HJ : _gamma c = None -> gcosmo_jit g = Ok g).
Lemma line_0 : C 0 = c. Proof. exact (displaced_0 c d B). Qed.
Lemma line_built s : built (C s). Proof. reflexivity. Qed.
Lemma line_jit s : _gamma c = None -> cosmo_jit (C s) = Ok (C s).
Proof. intros NG. unfold displaced. rewrite NG. reflexivity. Qed.
Lemma line_gamma : _gamma (C 0) = _gamma c. Proof. reflexivity. Qed.

Local Notation M := HM.
Lemma line_background a ad : expanding c -> goes a ad -> 0 < a 0 ->
  goes (fun t => H (C t) (a t)) (gH N g ad) /\ goes (fun t => Omega_m_a (C t) (a t)) (gOmega_m_a N g ad) /\
  goes (fun t => Omega_de_a (C t) (a t)) (gOmega_de_a N g ad) /\ goes (fun t => w (C t) (a t)) (gw N g ad) /\ goes (fun t => dchioverda (C t) (a t)) (gdchioverda N g ad).
Proof.
  intros HE Ta Pa. assert (PE : 0 < Esqr (C 0) (a 0)) by (rewrite line_0; now apply HE).
  split; [ exact (fm_H _ _ _ M a ad Ta Pa PE) | ]. split; [ exact (fm_Omega_m_a _ _ _ M a ad Ta Pa PE) | ]. split; [ exact (fm_Omega_de_a _ _ _ M a ad Ta Pa PE) | ].
  split; [ exact (fm_w _ _ _ M a ad Ta) | exact (fm_dchioverda _ _ _ M a ad Ta Pa PE) ].
Qed.
Local Notation off_table n a := ((forall t, a t = a 0) \/ forall i, (2 <= i <= n - 2)%nat -> a 0 <> table_node n i).
Lemma line_off n a : (2 <= n)%nat -> off_table n a -> query_ok 0 a (logspace (-3) 0.0 n).
Proof.
  intros Hn [H | H]; [ left; exact H | right ]. intros i. rewrite length_logspace. intros Hi. rewrite logspace_el, anode_table by lia. now apply H.
Qed.
Lemma line_distances a ad : expanding c -> goes a ad -> 0 < a 0 < 1 -> off_table 256 a ->
  goes (fun t => chi (C t) (a t)) (gchi N g ad) /\ (_Omega_k c <> 0 \/ _Omega_k c = 0 /\ dOmega_k d = 0 -> goes (fun t => f_k (C t) (a t)) (gf_k N g ad)).
Proof.
  intros HE Ta Pa HO. apply line_off in HO; [ | lia ]. assert (HE0 : expanding (C 0)) by (now rewrite line_0).
  assert (PC : 0 < chi (C 0) (a 0)).
  { assert (Q := chi_strict (C 0) (a 0) 1 (line_built 0) HE0 ltac:(lra)). rewrite (chi_one_any (C 0)) in Q by (apply built_fresh, line_built). exact Q. }
  split; [ exact (fm_chi _ _ _ M HE0 a ad Ta HO PC) | ]. intros HK. apply (fm_f_k _ _ _ M HE0 a ad Ta HO PC).
  destruct HK as [HK | [H1 H2]]; [ left; now rewrite line_0 | right; intros s ]. unfold displaced, make_cosmology; cbn [_Omega_k]. rewrite H1, H2. ring.
Qed.
Lemma line_growth a ad : expanding c -> growing c -> goes a ad -> 0 < a 0 -> off_table 128 a ->
  (0 < D c (a 0) < 1 -> goes (fun t => D (C t) (a t)) (gD N g ad)) /\ goes (fun t => f_growth (C t) (a t)) (gf N g ad).
Proof.
  intros HE HG Ta Pa HO. apply line_off in HO; [ | lia ]. assert (HE0 : expanding (C 0)) by (now rewrite line_0). assert (GO : growth_ok (C 0)) by (rewrite line_0; exact HG).
  split; [ intros HD; apply (fm_D _ _ _ M HE0 a ad Ta HO GO); now rewrite line_0 | exact (fm_f _ _ _ M HE0 a ad Ta Pa HO GO) ].
Qed.
Lemma line_transfer (osc : bool) : dense c -> (if osc then 0 < _Omega_c c else 0 <= eh_alpha_gamma c) -> ftransfer (eh osc) (geh N osc) C g.
Proof.
  intros HD HO k kd Tk Pk. assert (HD0 : dense (C 0)) by (now rewrite line_0). destruct osc; cbn [eh geh].
  - apply (ftr_eisenhu_osc _ _ _ M HD0 k kd Tk Pk). now rewrite line_0.
  - apply (ftr_eisenhu _ _ _ M HD0 k kd Tk Pk). now rewrite line_0.
Qed.
Section Spectra.
Variable (osc : bool).
Hypotheses (HE : expanding c) (NG : _gamma c = None) (HP : physical c) (HMo : moderate c) (HD : dense c) (HO : if osc then 0 < _Omega_c c else 0 <= eh_alpha_gamma c)
  (HN : sigmasqr_default c 8.0 (eh osc) <> 0).
Local Notation T := (eh osc).
Local Notation GT := (geh N osc).
Let HE0 : expanding (C 0). Proof. now rewrite line_0. Qed.
Let HP0 : physical (C 0). Proof. now rewrite line_0. Qed.
Let HM0 : moderate (C 0). Proof. now rewrite line_0. Qed.
Let HN0 : sigmasqr_default (C 0) 8.0 T <> 0. Proof. now rewrite line_0. Qed.
Let NG0 : _gamma (C 0) = None. Proof. exact NG. Qed.
Lemma line_linear a k kd : table_node 128 1 <= a <= 1 -> goes k kd -> 0 < k 0 -> goes (fun t => linear_matter_power (C t) (k t) a T) (glinear_matter_power N g kd (cst N a) GT).
Proof.
  intros Ha Tk Pk. apply (flinear _ g T GT M (line_transfer osc HD HO) HN0 k kd (fun _ => a) (cst N a) Tk Pk). exact (fleaf_D _ g M line_built HE0 NG0 HP0 HM0 a Ha).
Qed.
Lemma line_halofit a p k kd : T c (1 / 10000) <> 0 -> _sigma8 c <> 0 -> table_node 128 1 <= a <= 1 -> scale_found c a T -> goes k kd -> 0 < k 0 -> formula_smooth c (k 0) a T p ->
  rr (fun f z => goes f z) (fun t => halofit (C t) (k t) a T p) (ghalofit N g kd (cst N a) GT p).
Proof.
  intros HT0 H8 Ha HS Tk Pk HF. apply (halofit_number _ g T GT a M line_built HE0 NG0 HP0 HM0 (line_transfer osc HD HO) HN0); try assumption; now rewrite line_0.
Qed.
Lemma line_spectra probes ells nl P : shallow (concat (map bins_of probes)) -> off_clip chi c probes -> (forall l, In l ells -> - 0.5 < l) ->
  (forall b, limber_epoch probes b -> forall k kd, goes k kd -> 0 < k 0 -> goes (fun t => nonlinear_matter_power (C t) (k t) b T nl) (P g kd (cst N b))) ->
  rr (lr (lr (fun f x => goes f x))) (fun t => angular_cl (C t) (Array1 ells) probes T nl) (gangular_cl N g (Array1 ells) probes P).
Proof.
  intros HS HC HL HK. assert (P1 := node1_pos).
  apply (f_angular_cl N (fun f x => goes f x) (fin_respects 0) (ft_cst 0) (ft_add 0) (ft_mul 0) (ft_div 0) C g (fun s => line_jit s NG) (HJ NG)
    (fm_Omega_m _ _ _ M) probes T nl P (limber_epoch probes) (fun a => table_node 128 1 <= a <= 1 /\ chi c a <> 1)).
  - intros a Ha. apply (limber_range _ _ HS) in Ha. apply (fleaf_chi C g M line_built HE0). lra.
  - intros b a Hb [Ha _]. apply (limber_range _ _ HS) in Hb. apply (fleaf_dif C g M line_built HE0); lra.
  - intros a [Ha | [Ha NE]]; apply (fleaf_clip C g M line_built HE0); [ apply (limber_range _ _ HS) in Ha; lra | rewrite line_0; now apply HC | lra | now rewrite line_0 ].
  - intros a Ha. apply (fleaf_clip2 C g M line_built HE0); [ apply (limber_range _ _ HS) in Ha; lra | rewrite line_0; now apply HC ].
  - intros a Ha. apply (fleaf_D C g M line_built HE0 NG0 HP0 HM0). now apply (limber_range _ _ HS).
  - intros a Ha. apply (fleaf_D0 C line_built NG0 HP0 HM0). now apply (limber_range _ _ HS).
  - intros a Ha. apply (limber_range _ _ HS) in Ha. apply (fleaf_H C g M HE0). lra.
  - intros a Ha. apply (limber_range _ _ HS) in Ha. apply (fleaf_dchi C g M HE0). lra.
  - intros ells' l E Hl a Ha. injection E as <-. assert (RA := limber_range _ _ HS Ha).
    apply (HK a Ha (fun s => (l + 0.5) / clip_lo (chi (C s) a) 1.0)).
    + apply (ft_div 0 (fun _ => l + 0.5)); [ apply clip1_pos | apply (ft_cst 0 (l + 0.5)) | apply (fleaf_clip C g M line_built HE0); [ lra | rewrite line_0; now apply HC ]].
    + specialize (HL l Hl). apply Rdiv_lt_0_compat; [ lra | ]. unfold clip_lo. pose proof (Rmax_r (chi (C 0) a) 1.0). lra.
  - intros zs zmax E1 E2. assert (Hm := probes_deepest _ _ _ E1 E2). split.
    + intros x Hx. apply (limber_in probes) in Hx; [ | exact Hm ]. split; [ exact Hx | ]. apply (limber_range _ _ HS) in Hx. lra.
    + intros p Hp. destruct p as [p | p]; [ | exact I ]. cbn [probe_ok]. intros q a Hq Ha. apply in_map_iff in Hq. destruct Hq as (b & <- & Hb).
      apply (limber_in probes) in Hb; [ | exact Hm ]. apply source_of in Ha. rewrite a2z_eq in Ha.
      split; [ apply (source_range (wl_bins p) (1 / b - 1)); [ apply (shallow_in (PWL p) probes Hp HS) | apply redshift_of, (limber_range _ _ HS), Hb | exact Ha ] | ].
      apply (proj2 (HC b Hb) (PWL p)); [ exact Hp | exact Ha ].
Qed.
Lemma line_default_power b k kd : T c (1 / 10000) <> 0 -> _sigma8 c <> 0 -> table_node 128 1 <= b <= 1 -> scale_found c b T -> (forall k, formula_smooth c k b T "takahashi2012") -> goes k kd -> 0 < k 0 ->
  goes (fun t => nonlinear_matter_power (C t) (k t) b T halofit_default) (ghalofit_default N GT g kd (cst N b)).
Proof.
  intros HT0 H8 Hb HS HF Tk Pk. assert (HR := line_halofit b "takahashi2012" k kd HT0 H8 Hb HS Tk Pk (HF _)).
  unfold ghalofit_default. destruct (rr_cases _ _ _ HR) as [(f & x & -> & E & L) | (e & E' & E)].
  - apply (ft_ext 0 f); [ | exact L ]. intros s. unfold nonlinear_matter_power, halofit_default. now rewrite E.
  - exfalso. revert E'. unfold ghalofit. destruct (ghalofit_parameters _ _ _ _) as [[? ?] ?]. cbv zeta. cbn [String.eqb Ascii.eqb Bool.eqb]. discriminate.
Qed.
End Spectra.
End Along.
