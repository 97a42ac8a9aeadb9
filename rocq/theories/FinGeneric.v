(** * Finite gradients, for any arithmetic that is exact on finite numbers *)
From Coquelicot Require Import Coquelicot.
From Coq Require Import String.
From Verif Require Import FinRules FinBg FinGrowth FinTransfer FinPower FinHalofit.
From Verif Require Import Np NpLemmas Core Ode OdeSpec OdeProofs Interp InterpProofs InterpCont Integrate IntegrateSpec RombProofs Background BgSpec BgAlgebra BgTables
  BgGrowth BgPositive BgProofs BgFinal BgFinal2 BgFinal4 BgGrad Transfer TransferProofs TransferMono Power PowerProofs ExPower Redshift RedshiftProofs Bias Probes AngularCl GradSpec
  Ad AdSpec AdProofs AdBg AdFinal AdPower AdPowerFinal AdHalofit AdHalofitSpec AdProbes AdRel AdProbesProofs AdProbesFinal AdArrSpec AdNuis AdNuisProofs AdNuisSpec AdNuisNz AdNuisBack AdNuisFinal FinNz FinSurvey.
Import ListNotations.
Local Open Scope R_scope.
Opaque chi_table growth_table_ODE growth_table_gamma logspace.

(** a query that is not differentiated, or one between the nodes of the table of n values *)
Local Notation off_table n a := ((forall t, a t = a 0) \/ forall i, (2 <= i <= n - 2)%nat -> a 0 <> table_node n i).
Section Floats.
Context {Nm : Type} {N : num Nm} {FLN : floats N}.
Local Notation rd := (fl_rd (N := N)).
Local Notation carries f x := (fin_of f 0 x).
Local Notation rows_carried F G := (rr (lr (lr (fun f x => fin_of f 0 x))) F G).
Lemma off_query n a : (2 <= n)%nat -> off_table n a -> query_ok 0 a (logspace (-3) 0.0 n).
Proof.
  intros Hn [H | H]; [ left; exact H | right ]. intros i. rewrite length_logspace. intros Hi. rewrite logspace_el, anode_table by lia. now apply H.
Qed.
Lemma fl_all_background g a ad : fl_params g -> expanding (fl_cosmo 0 g) -> carries a ad -> 0 < a 0 ->
  carries (fun t => H (fl_cosmo t g) (a t)) (gH N g ad) /\ carries (fun t => Omega_m_a (fl_cosmo t g) (a t)) (gOmega_m_a N g ad) /\
  carries (fun t => Omega_de_a (fl_cosmo t g) (a t)) (gOmega_de_a N g ad) /\ carries (fun t => w (fl_cosmo t g) (a t)) (gw N g ad) /\
  carries (fun t => dchioverda (fl_cosmo t g) (a t)) (gdchioverda N g ad).
Proof.
  intros HF HE Ta Pa. assert (M := fl_moves g HF). assert (PE : 0 < Esqr (fl_cosmo 0 g) (a 0)) by now apply HE.
  split; [ exact (fm_H _ _ _ M a ad Ta Pa PE) | ]. split; [ exact (fm_Omega_m_a _ _ _ M a ad Ta Pa PE) | ]. split; [ exact (fm_Omega_de_a _ _ _ M a ad Ta Pa PE) | ].
  split; [ exact (fm_w _ _ _ M a ad Ta) | exact (fm_dchioverda _ _ _ M a ad Ta Pa PE) ].
Qed.
Lemma fl_all_distances g a ad : fl_params g -> expanding (fl_cosmo 0 g) -> carries a ad -> 0 < a 0 < 1 -> off_table 256 a ->
  carries (fun t => chi (fl_cosmo t g) (a t)) (gchi N g ad) /\
  (fl_v (gOmega_k g) <> 0 \/ fl_v (gOmega_k g) = 0 /\ snd (rd (gOmega_k g)) = 0 -> carries (fun t => f_k (fl_cosmo t g) (a t)) (gf_k N g ad)).
Proof.
  intros HF HE Ta Pa HO. assert (M := fl_moves g HF). apply off_query in HO; [ | lia ].
  assert (PC : 0 < chi (fl_cosmo 0 g) (a 0)).
  { assert (Q := chi_strict (fl_cosmo 0 g) (a 0) 1 (fl_built 0 g) HE ltac:(lra)). rewrite (chi_one_any (fl_cosmo 0 g)) in Q by (apply built_fresh, fl_built). exact Q. }
  split; [ exact (fm_chi _ _ _ M HE a ad Ta HO PC) | ]. intros HK. apply (fm_f_k _ _ _ M HE a ad Ta HO PC).
  destruct HK as [HK | [H1 H2]]; [ left | right; intros s ]; unfold fl_cosmo, make_cosmology; cbn [_Omega_k].
  - now rewrite fl_at_zero.
  - unfold fl_at. fold (fl_v (gOmega_k g)). rewrite H1, H2. ring.
Qed.
Lemma fl_all_growth g a ad : fl_params g -> expanding (fl_cosmo 0 g) -> growing (fl_cosmo 0 g) -> carries a ad -> 0 < a 0 -> off_table 128 a ->
  (0 < D (fl_cosmo 0 g) (a 0) < 1 -> carries (fun t => D (fl_cosmo t g) (a t)) (gD N g ad)) /\
  carries (fun t => f_growth (fl_cosmo t g) (a t)) (gf N g ad).
Proof.
  intros HF HE HG Ta Pa HO. assert (M := fl_moves g HF). apply off_query in HO; [ | lia ]. assert (GO := fgrowth_ok (fun t => fl_cosmo t g) HG).
  split; [ intros HD; exact (fm_D _ _ _ M HE a ad Ta HO GO HD) | exact (fm_f _ _ _ M HE a ad Ta Pa HO GO) ].
Qed.
Lemma fl_all_transfers g : fl_params g -> dense (fl_cosmo 0 g) ->
  (0 <= eh_alpha_gamma (fl_cosmo 0 g) -> ftransfer eisenhu (geisenhu N) (fun t => fl_cosmo t g) g) /\
  (0 < _Omega_c (fl_cosmo 0 g) -> ftransfer eisenhu_osc (geisenhu_osc N) (fun t => fl_cosmo t g) g).
Proof.
  intros HF HD. assert (M := fl_moves g HF). split.
  - intros HA k kd Tk Pk. exact (ftr_eisenhu _ _ _ M HD k kd Tk Pk HA).
  - intros HC k kd Tk Pk. exact (ftr_eisenhu_osc _ _ _ M HD k kd Tk Pk HC).
Qed.
Lemma fl_all_linear g T GT a : fl_params g -> expanding (fl_cosmo 0 g) -> _gamma (fl_cosmo 0 g) = None -> physical (fl_cosmo 0 g) -> moderate (fl_cosmo 0 g) ->
  ftransfer T GT (fun t => fl_cosmo t g) g -> sigmasqr_default (fl_cosmo 0 g) 8.0 T <> 0 -> table_node 128 1 <= a <= 1 ->
  forall k kd, carries k kd -> 0 < k 0 -> carries (fun t => linear_matter_power (fl_cosmo t g) (k t) a T) (glinear_matter_power N g kd (cst N a) GT).
Proof.
  intros HF HE NG HP HMo HT HN Ha k kd Tk Pk. assert (M := fl_moves g HF).
  apply (flinear _ g T GT M HT HN k kd (fun _ => a) (cst N a) Tk Pk). exact (fleaf_D _ g M (fun s => fl_built s g) HE NG HP HMo a Ha).
Qed.
Lemma fl_all_halofit g T GT a p k kd : fl_params g -> expanding (fl_cosmo 0 g) -> _gamma (fl_cosmo 0 g) = None -> physical (fl_cosmo 0 g) -> moderate (fl_cosmo 0 g) ->
  ftransfer T GT (fun t => fl_cosmo t g) g -> sigmasqr_default (fl_cosmo 0 g) 8.0 T <> 0 -> T (fl_cosmo 0 g) (1 / 10000) <> 0 -> _sigma8 (fl_cosmo 0 g) <> 0 ->
  table_node 128 1 <= a <= 1 -> scale_found (fl_cosmo 0 g) a T -> carries k kd -> 0 < k 0 -> formula_smooth (fl_cosmo 0 g) (k 0) a T p ->
  rr (fun f x => fin_of f 0 x) (fun t => halofit (fl_cosmo t g) (k t) a T p) (ghalofit N g kd (cst N a) GT p).
Proof.
  intros HF HE NG HP HMo HT HN HT0 H8 Ha HS Tk Pk HP'.   exact (halofit_number _ g T GT a (fl_moves g HF) (fun s => fl_built s g) HE NG HP HMo HT HN HT0 H8 Ha HS p k kd Tk Pk HP').
Qed.
Lemma fl_all_kernel g (p : gprobe Nm) z ell : let v := read_probe fst ((probe_map rd) p) in
  fl_params g -> fl_probe p -> expanding (fl_cosmo 0 g) -> _gamma (fl_cosmo 0 g) = None -> physical (fl_cosmo 0 g) -> moderate (fl_cosmo 0 g) ->
  (forall q, In q z -> tabulated q) -> shallow (bins_of v) -> (forall q a, In q z -> source_epoch (lensing_bins v) q a -> chi (fl_cosmo 0 g) a <> 1) ->
  probe_smooth (lenses z) [v] ((probe_map rd) p) ->
  rows_carried (fun t => kernel (read_probe (fl_at t) p) (fl_cosmo t g) z ell) (hkernel N p g z ell).
Proof. intros v HF FP HE NG HP HMo HZ HS HC HN. now apply fl_kernel. Qed.
Lemma fl_all_spectra g (S : list (gprobe Nm)) ells T GT : let V := values (map (probe_map rd) S) in
  fl_params g -> (forall p, In p S -> fl_probe p) -> expanding (fl_cosmo 0 g) -> _gamma (fl_cosmo 0 g) = None -> physical (fl_cosmo 0 g) -> moderate (fl_cosmo 0 g) ->
  ftransfer T GT (fun t => fl_cosmo t g) g -> sigmasqr_default (fl_cosmo 0 g) 8.0 T <> 0 ->
  shallow (concat (map bins_of V)) -> off_clip chi (fl_cosmo 0 g) V -> survey_smooth (map (probe_map rd) S) -> (forall l, In l ells -> - 0.5 < l) ->
  rows_carried (fun t => angular_cl (fl_cosmo t g) (Array1 ells) (fl_probes t S) T linear)
    (hangular_cl N g (Array1 ells) S (fun g k a => glinear_matter_power N g k a GT)).
Proof.
  intros V HF FP HE NG HP HMo HT HN HS HC HM HL. apply fl_spectra; try assumption. intros b Hb k kd Tk Pk. revert k kd Tk Pk. apply fl_all_linear; try assumption. now apply (limber_range V).
Qed.
Lemma fl_all_default_spectra g (S : list (gprobe Nm)) ells T GT : let V := values (map (probe_map rd) S) in
  fl_params g -> (forall p, In p S -> fl_probe p) -> expanding (fl_cosmo 0 g) -> _gamma (fl_cosmo 0 g) = None -> physical (fl_cosmo 0 g) -> moderate (fl_cosmo 0 g) ->
  ftransfer T GT (fun t => fl_cosmo t g) g -> sigmasqr_default (fl_cosmo 0 g) 8.0 T <> 0 -> T (fl_cosmo 0 g) (1 / 10000) <> 0 -> _sigma8 (fl_cosmo 0 g) <> 0 ->
  shallow (concat (map bins_of V)) -> off_clip chi (fl_cosmo 0 g) V -> survey_smooth (map (probe_map rd) S) -> (forall l, In l ells -> - 0.5 < l) ->
  (forall b, limber_epoch V b -> scale_found (fl_cosmo 0 g) b T /\ forall k, formula_smooth (fl_cosmo 0 g) k b T "takahashi2012") ->
  rows_carried (fun t => angular_cl (fl_cosmo t g) (Array1 ells) (fl_probes t S) T halofit_default) (hangular_cl N g (Array1 ells) S (ghalofit_default N GT)).
Proof.
  intros V HF FP HE NG HP HMo HT HN HT0 H8 HS HC HM HL HB. apply fl_spectra; try assumption. intros b Hb k kd Tk Pk. destruct (HB b Hb) as [HB1 HB2].
  assert (HR := halofit_number _ g T GT b (fl_moves g HF) (fun s => fl_built s g) HE NG HP HMo HT HN HT0 H8 (limber_range V b HS Hb) HB1 "takahashi2012" k kd Tk Pk (HB2 _)).
  unfold ghalofit_default. destruct (rr_cases _ _ _ HR) as [(f & x & -> & E & L) | (e & E' & E)].
  - apply (ft_ext 0 f); [ | exact L ]. intros s. unfold nonlinear_matter_power, halofit_default. now rewrite E.
  - exfalso. revert E'. unfold ghalofit. destruct (ghalofit_parameters _ _ _ _) as [[? ?] ?]. cbv zeta. cbn [String.eqb Ascii.eqb Bool.eqb]. discriminate.
Qed.
End Floats.
