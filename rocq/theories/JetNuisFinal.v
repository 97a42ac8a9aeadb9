(** * Second derivatives with moving surveys: public statements *)
From Coquelicot Require Import Coquelicot.
From Coq Require Import String.
From Verif Require Import FinRules FinBg FinGrowth FinTransfer FinPower FinHalofit.
From Verif Require Import Np NpLemmas Core Interp Integrate IntegrateSpec Background BgSpec BgPositive BgGrad BgProofs Transfer Power ExPower SparseX Redshift RedshiftProofs Bias Probes ProbesSpec AngularCl GradSpec HalofitX
  Ad AdSpec AdProofs AdFinal AdPower AdHalofit AdHalofitSpec AdProbes AdRel AdProbesProofs AdProbesFinal AdArrSpec AdNuis AdNuisProofs AdNuisSpec AdNuisNz AdNuisBack AdNuisFinal AdNuisBackFinal
  AdNan AdNanSpec AdNanProofs AdNanFinal Poison AdNanTwice AdOver JetRules LineSurvey JetSpec JetFinal JetNuisSpec JetNz JetSurvey.
Import ListNotations.
Local Open Scope R_scope.
Opaque chi_table growth_table_ODE growth_table_gamma logspace.
Local Notation NO := (num_over num_dual).
Local Notation NX := num_x2.
Local Notation jet f z := (jet_of f 0 z).

Lemma second_redshift (d : gnz dual) z : 0 <= gnz_zmax d -> bend_norm (read_nz fst d) -> 0 <= z -> bend_nz false (read_nz fst d) z ->
  bends (fun t => pz (read_nz (at_time t) d) z) (hpz NO (twice_nz d) z).
Proof. intros H1 H2 H3 H4. apply jet_bends, j_pz; try assumption; [ now apply norm_weaker | now apply (bend_weaker false) ]. Qed.
Lemma second_kernel c d (p : gprobe dual) z ell : built c -> expanding c -> _gamma c = None -> physical c -> moderate c ->
  (forall q, In q z -> tabulated q) -> shallow (bins_of (read_probe fst p)) ->
  (forall q a, In q z -> source_epoch (lensing_bins (read_probe fst p)) q a -> chi c a <> 1) -> probe_bends (lenses z) [read_probe fst p] p ->
  bends_rows (fun t => kernel (read_probe (at_time t) p) (displaced c d t) z ell) (hkernel NO (twice_probe p) (twice_cosmo c d d) z ell).
Proof. intros B HE NG HP HMo HZ HS HC HN. apply bends_rows_of. now apply j_kernel. Qed.
Lemma second_survey c nl osc (S : list (gprobe dual)) ells d :
  built c -> expanding c -> _gamma c = None -> physical c -> moderate c -> transfer_smooth osc c -> sigmasqr_default c 8.0 (eh osc) <> 0 ->
  (nl = true -> eh osc c (1 / 10000) <> 0 /\ _sigma8 c <> 0 /\ forall b, limber_epoch (values S) b -> scale_found c b (eh osc) /\ forall k, formula_smooth c k b (eh osc) "takahashi2012") ->
  shallow (concat (map bins_of (values S))) -> off_clip chi c (values S) -> survey_bends S -> (forall l, In l ells -> - 0.5 < l) ->
  bends_rows (fun t => angular_cl (displaced c d t) (Array1 ells) (moved S t) (eh osc) (model_nl nl))
    (hangular_cl NO (twice_cosmo c d d) (Array1 ells) (map twice_probe S) (gmodel NO nl osc)).
Proof.
  intros B HE NG HP HMo HTS HN HNL HS HC HB HL. apply bends_rows_of. destruct (smooth_dense osc c HTS) as [HD HO].
  apply j_spectra; try assumption. intros b Hb k kd Tk Pk. assert (RB := limber_range _ _ HS Hb). assert (M := jet_moves c d).
  destruct nl; cbn [model_nl gmodel].
  - destruct (HNL eq_refl) as (H1 & H2 & H3). destruct (H3 b Hb) as [H4 H5]. exact (line_default_power c d _ B M osc HE NG HP HMo HD HO HN b k kd H1 H2 RB H4 H5 Tk Pk).
  - exact (line_linear c d _ B M osc HE NG HP HMo HD HO HN b k kd RB Tk Pk).
Qed.

(** ** exponents between 1 and 2: NaN *)
Definition nan2 (x : xdual2) : Prop := curvature x = Some NaN.
Local Notation bad := AdNanProofs.bad.
Lemma t_l u v : nan2 ((Fin 0, None), u) -> nan2 ((Fin 0, None), tplus2 u v).
Proof. unfold nan2, curvature. cbn [snd]. destruct u as [u | ], v as [v | ]; cbn [tplus2]; try easy. intros H. now apply (bad_add_l u v). Qed.
Lemma t_r u v : nan2 ((Fin 0, None), v) -> nan2 ((Fin 0, None), tplus2 u v).
Proof. unfold nan2, curvature. cbn [snd]. destruct u as [u | ], v as [v | ]; cbn [tplus2]; try easy. intros H. now apply (bad_add_r u v). Qed.
Lemma t_times u k : nan2 ((Fin 0, None), u) -> nan2 ((Fin 0, None), ttimes2 u k).
Proof. unfold nan2, curvature. cbn [snd]. destruct u as [u | ]; cbn [ttimes2 option_map]; try easy. intros H. now apply (bad_mul_l u k). Qed.
Lemma t_map f u : (forall x, bad x -> bad (f x)) -> nan2 ((Fin 0, None), u) -> nan2 ((Fin 0, None), option_map f u).
Proof. unfold nan2, curvature. cbn [snd]. intros HF. destruct u as [u | ]; cbn [option_map]; try easy. intros H. now apply (HF u). Qed.
Global Instance nan2_poison : poison NX nan2.
Proof.
  split; intros x y H.
  - exact (t_l (snd x) (snd y) H).
  - exact (t_r (snd x) (snd y) H).
  - exact (t_l (snd x) _ H).
  - exact (t_l _ _ (t_times (snd x) (fst y) H)).
  - exact (t_r _ _ (t_times (snd y) (fst x) H)).
  - refine (t_l _ _ (t_map _ (snd x) _ H)). intros t. apply bad_div_l.
  - refine (t_r _ _ (t_map _ (snd y) _ H)). intros t Ht. now apply bad_mul_l, bad_mul_l, bad_neg.
Qed.
Lemma nan2_exp_neg x : nan2 x -> nan2 (nexp NX (nneg NX x)).
Proof. intros H. refine (t_times (option_map _ (snd x)) _ (t_map _ (snd x) _ H)). exact bad_neg. Qed.
Lemma cutoff_dead a b z0 g zm : 1 < b < 2 -> 0 < z0 -> dead (N := NX) (bad := nan2) (GNz (GSmail (still2 a) (still2 b) (moves2 1 z0)) (still2 g) zm).
Proof.
  intros HB HZ. split; [ reflexivity | ]. cbn [hpz_fn hfam_pz]. apply po_mul_r, nan2_exp_neg. unfold nan2, curvature.
  assert (E : exists t, ndiv NX (cst NX 0) (moves2 1 z0) = ((Fin 0, Some (Fin 0)), Some t)).
  { cbn [ndiv cst num_x2 moves2 fst snd tplus2 option_map ndiv num_x cst tplus]. eexists. apply f_equal2; [ | reflexivity ].
    assert (E2 : xipow (Fin z0) (-2) = Fin (1 / (z0 * (z0 * 1)))).
    { unfold xipow. change (Pos.to_nat 2) with 2%nat. cbn [xpow_nat xmul xdiv]. destruct (Req_EM_T (z0 * (z0 * 1)) 0); [ nra | reflexivity ]. }
    rewrite E2. cbn [xdiv xneg xmul]. destruct (Req_EM_T z0 0); [ lra | ]. apply f_equal2; [ f_equal; unfold Rdiv; ring | do 2 f_equal; ring ]. }
  destruct E as (t & ->). cbn [npow num_x2 fst snd still2 ttimes2 option_map tplus2].
  assert (E1 : one_at_zero (Fin b, None) (nsub num_x (Fin b, None) (cst num_x 1)) = (Fin (b - 1), None)).
  { unfold one_at_zero. cbn [fst xeqb]. destruct (Req_EM_T b 0); [ lra | ]. reflexivity. }
  rewrite E1. apply (bad_mul_r t), bad_mul_r. unfold bad. cbn [npow num_x fst snd ttimes option_map tplus]. rewrite root_jac by lra. f_equal. cbn [xmul xsgR]. unfold Rsgn. destruct (Rlt_dec 0 0); [ lra | ]. now rewrite Rmult_0_l, inf_0.
Qed.
Lemma cutoff_curved a b z0 g zm q : 1 <= a -> 1 <= b -> 0 < z0 -> 0 < zm -> 0 <= q ->
  exists z, bends (fun t => pz (nz_new (Smail a b (z0 + t)) g zm) q) z.
Proof.
  intros HA HB HZ Zm Hq. set (d := GNz (GSmail (a, 0) (b, 0) (z0, 1)) (g, 0) zm : gnz dual). exists (hpz NO (twice_nz d) q). apply jet_bends.
  apply (jet_respects (fun s => pz (read_nz (at_time s) d) q)); [ intros s; unfold d, at_time; cbn [read_nz read_fam fst snd]; now rewrite !Rmult_0_r, !Rplus_0_r, Rmult_1_r | ].
  assert (SM : forall x, bend0_nz (read_nz fst d) x) by (intros x; cbn; lra).
  apply j_pz; [ cbn; lra | | exact Hq | apply SM ]. split; [ intros i _; apply SM | ]. cbn [d read_nz read_fam nz_new nz_zmax pz_fn fst]. apply (simpson_pos _ zm 127); [ lra | apply smail_nonneg | apply smail_pos; lra ].
Qed.
Lemma cutoff_nan (a b z0 g zm q : R) : 1 <= a -> 1 < b < 2 -> 0 < z0 -> 0 < zm -> 0 <= q ->
  (exists z, bends (fun t => pz (nz_new (Smail a b (z0 + t)) g zm) q) z) /\ curvature (hpz NX (GNz (GSmail (still2 a) (still2 b) (moves2 1 z0)) (still2 g) zm) q) = Some NaN.
Proof. intros HA HB HZ Zm Hq. split; [ apply cutoff_curved; lra | ]. apply (dead_pz (bad := nan2)). now apply cutoff_dead. Qed.
Definition cutoff_moves (d : gnz xdual2) : Prop := exists a b z0 g zm, 1 < b < 2 /\ 0 < z0 /\ d = GNz (GSmail (still2 a) (still2 b) (moves2 1 z0)) (still2 g) zm.
Lemma cutoff_spectra c (ds : list (gnz xdual2)) ba P ells rows : (forall d, In d ds -> cutoff_moves d) ->
  hangular_cl NX c (Array1 ells) [GPNC (GNC ds ba)] P = Ok rows -> forall row x, In row rows -> In x row -> curvature x = Some NaN.
Proof. intros HD. apply (clustering_nan (bad := nan2)). intros d Hd. destruct (HD d Hd) as (a & b & z0 & g & zm & H1 & H2 & ->). now apply cutoff_dead. Qed.
Lemma cutoff_refuted : exists a b z0 g zm : R, 1 <= a /\ 1 <= b /\ 0 < z0 /\ 0 < zm /\ forall q, 0 <= q ->
  (exists z, bends (fun t => pz (nz_new (Smail a b (z0 + t)) g zm) q) z) /\ curvature (hpz NX (GNz (GSmail (still2 a) (still2 b) (moves2 1 z0)) (still2 g) zm) q) = Some NaN.
Proof. exists 2, 1.5, 0.7, 1, 3. repeat match goal with |- _ <= _ /\ _ => split; [ lra | ] | |- _ < _ /\ _ => split; [ lra | ] end. intros q Hq. apply cutoff_nan; lra. Qed.
