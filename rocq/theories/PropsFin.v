(** * C135-C136: gradients without infinities and NaN *)
From Coq Require Import Reals Lra Lia ZArith String List.
From Coquelicot Require Import Coquelicot.
From Verif Require Import SparseX AdNan AdNanSpec.
From Verif Require Import Np Core Interp Integrate IntegrateSpec Background BgSpec BgPositive BgGrad Transfer TransferProofs Power ExPower Redshift Bias Probes AngularCl GradSpec Ad AdSpec AdPower AdProbes AdProbesFinal AdArrSpec AdHalofit AdHalofitSpec AdNuis AdNuisSpec AdNuisFinal ExAdHalofit FinSpec FinProbes FinFinal FinBaryon ExFin.
Import ListNotations.
Local Open Scope R_scope.
Opaque chi_table growth_table_ODE growth_table_gamma logspace.


(** C135  every intermediate number is finite: the run over numbers with infinities and NaN returns the value and the derivative *)
Theorem C135_background : forall g a ad,
  finite_cosmo g -> expanding (cosmo_at 0 g) -> carries a ad -> 0 < a 0 ->
  carries (fun t => H (cosmo_at t g) (a t)) (gH num_x g ad) /\ carries (fun t => Omega_m_a (cosmo_at t g) (a t)) (gOmega_m_a num_x g ad) /\
  carries (fun t => Omega_de_a (cosmo_at t g) (a t)) (gOmega_de_a num_x g ad) /\ carries (fun t => w (cosmo_at t g) (a t)) (gw num_x g ad) /\
  carries (fun t => dchioverda (cosmo_at t g) (a t)) (gdchioverda num_x g ad).
Proof. exact finite_background. Qed.
Print Assumptions C135_background.
Theorem C135_distances : forall g a ad,
  finite_cosmo g -> expanding (cosmo_at 0 g) -> carries a ad -> 0 < a 0 < 1 -> off_table 256 a ->
  carries (fun t => chi (cosmo_at t g) (a t)) (gchi num_x g ad) /\
  (x_val (gOmega_k g) <> 0 \/ x_val (gOmega_k g) = 0 /\ x_tan (gOmega_k g) = 0 -> carries (fun t => f_k (cosmo_at t g) (a t)) (gf_k num_x g ad)).
Proof. exact finite_distances. Qed.
Print Assumptions C135_distances.
Theorem C135_growth : forall g a ad,
  finite_cosmo g -> expanding (cosmo_at 0 g) -> growing (cosmo_at 0 g) -> carries a ad -> 0 < a 0 -> off_table 128 a ->
  (0 < D (cosmo_at 0 g) (a 0) < 1 -> carries (fun t => D (cosmo_at t g) (a t)) (gD num_x g ad)) /\
  carries (fun t => f_growth (cosmo_at t g) (a t)) (gf num_x g ad).
Proof. exact finite_growth. Qed.
Print Assumptions C135_growth.
Theorem C135_transfers : forall g,
  finite_cosmo g -> dense (cosmo_at 0 g) ->
  (0 <= eh_alpha_gamma (cosmo_at 0 g) -> transfer_carried eisenhu (geisenhu num_x) g) /\
  (0 < _Omega_c (cosmo_at 0 g) -> transfer_carried eisenhu_osc (geisenhu_osc num_x) g).
Proof. exact finite_transfers. Qed.
Print Assumptions C135_transfers.
Theorem C135_linear : forall g T GT a,
  finite_cosmo g -> expanding (cosmo_at 0 g) -> _gamma (cosmo_at 0 g) = None -> physical (cosmo_at 0 g) -> moderate (cosmo_at 0 g) ->
  transfer_carried T GT g -> sigmasqr_default (cosmo_at 0 g) 8.0 T <> 0 -> table_node 128 1 <= a <= 1 ->
  spectrum_carried (fun c k a => linear_matter_power c k a T) (fun g k a => glinear_matter_power num_x g k a GT) g a.
Proof. exact finite_linear. Qed.
Print Assumptions C135_linear.
Theorem C135_halofit : forall g T GT a p k kd,
  finite_cosmo g -> expanding (cosmo_at 0 g) -> _gamma (cosmo_at 0 g) = None -> physical (cosmo_at 0 g) -> moderate (cosmo_at 0 g) ->
  transfer_carried T GT g -> sigmasqr_default (cosmo_at 0 g) 8.0 T <> 0 -> T (cosmo_at 0 g) (1 / 10000) <> 0 -> _sigma8 (cosmo_at 0 g) <> 0 ->
  table_node 128 1 <= a <= 1 -> scale_found (cosmo_at 0 g) a T -> carries k kd -> 0 < k 0 -> formula_smooth (cosmo_at 0 g) (k 0) a T p ->
  number_carried (fun t => halofit (cosmo_at t g) (k t) a T p) (ghalofit num_x g kd (AdNanSpec.still a) GT p).
Proof. exact finite_halofit. Qed.
Print Assumptions C135_halofit.
Theorem C135_kernel : forall g (p : gprobe xdual) z ell,
  let v := read_probe fst (plain_probe p) in
  finite_cosmo g -> finite_probe p -> expanding (cosmo_at 0 g) -> _gamma (cosmo_at 0 g) = None -> physical (cosmo_at 0 g) -> moderate (cosmo_at 0 g) ->
  (forall q, In q z -> tabulated q) -> shallow (bins_of v) -> (forall q a, In q z -> source_epoch (lensing_bins v) q a -> chi (cosmo_at 0 g) a <> 1) ->
  probe_smooth (lenses z) [v] (plain_probe p) ->
  rows_carried (fun t => kernel (read_probe (moving t) p) (cosmo_at t g) z ell) (hkernel num_x p g z ell).
Proof. exact finite_kernel. Qed.
Print Assumptions C135_kernel.
Theorem C135_spectra : forall g (S : list (gprobe xdual)) ells T GT,
  let V := values (map plain_probe S) in
  finite_cosmo g -> (forall p, In p S -> finite_probe p) -> expanding (cosmo_at 0 g) -> _gamma (cosmo_at 0 g) = None -> physical (cosmo_at 0 g) -> moderate (cosmo_at 0 g) ->
  transfer_carried T GT g -> sigmasqr_default (cosmo_at 0 g) 8.0 T <> 0 ->
  shallow (concat (map bins_of V)) -> off_clip chi (cosmo_at 0 g) V -> survey_smooth (map plain_probe S) -> (forall l, In l ells -> - 0.5 < l) ->
  rows_carried (fun t => angular_cl (cosmo_at t g) (Array1 ells) (probes_at t S) T linear)
    (hangular_cl num_x g (Array1 ells) S (fun g k a => glinear_matter_power num_x g k a GT)).
Proof. exact finite_spectra. Qed.
Print Assumptions C135_spectra.
Theorem C135_default_spectra : forall g (S : list (gprobe xdual)) ells T GT,
  let V := values (map plain_probe S) in
  finite_cosmo g -> (forall p, In p S -> finite_probe p) -> expanding (cosmo_at 0 g) -> _gamma (cosmo_at 0 g) = None -> physical (cosmo_at 0 g) -> moderate (cosmo_at 0 g) ->
  transfer_carried T GT g -> sigmasqr_default (cosmo_at 0 g) 8.0 T <> 0 -> T (cosmo_at 0 g) (1 / 10000) <> 0 -> _sigma8 (cosmo_at 0 g) <> 0 ->
  shallow (concat (map bins_of V)) -> off_clip chi (cosmo_at 0 g) V -> survey_smooth (map plain_probe S) -> (forall l, In l ells -> - 0.5 < l) ->
  (forall b, limber_epoch V b -> scale_found (cosmo_at 0 g) b T /\ forall k, formula_smooth (cosmo_at 0 g) k b T "takahashi2012") ->
  rows_carried (fun t => angular_cl (cosmo_at t g) (Array1 ells) (probes_at t S) T halofit_default) (hangular_cl num_x g (Array1 ells) S (ghalofit_default num_x GT)).
Proof. exact finite_default_spectra. Qed.
Print Assumptions C135_default_spectra.
Example C135_case : let g := planck_x 0.8159 in let V := values (map plain_probe mvx_survey) in finite_cosmo g /\ (forall p, In p mvx_survey -> finite_probe p) /\ expanding (cosmo_at 0 g) /\ _gamma (cosmo_at 0 g) = None /\ physical (cosmo_at 0 g) /\ moderate (cosmo_at 0 g) /\ transfer_carried eisenhu (geisenhu num_x) g /\ transfer_carried eisenhu_osc (geisenhu_osc num_x) g /\ sigmasqr_default (cosmo_at 0 g) 8.0 eisenhu <> 0 /\ shallow (concat (map bins_of V)) /\ off_clip chi (cosmo_at 0 g) V /\ survey_smooth (map plain_probe mvx_survey).
Proof. exact ex_finite_survey. Qed.
Example C135_case_default : let g := planck_x faint in let V := values (map plain_probe mvx_survey) in finite_cosmo g /\ (forall p, In p mvx_survey -> finite_probe p) /\ expanding (cosmo_at 0 g) /\ _gamma (cosmo_at 0 g) = None /\ physical (cosmo_at 0 g) /\ moderate (cosmo_at 0 g) /\ transfer_carried eisenhu (geisenhu num_x) g /\ sigmasqr_default (cosmo_at 0 g) 8.0 eisenhu <> 0 /\ eisenhu (cosmo_at 0 g) (1 / 10000) <> 0 /\ _sigma8 (cosmo_at 0 g) <> 0 /\ shallow (concat (map bins_of V)) /\ off_clip chi (cosmo_at 0 g) V /\ survey_smooth (map plain_probe mvx_survey) /\ forall b, limber_epoch V b -> scale_found (cosmo_at 0 g) b eisenhu /\ forall k, formula_smooth (cosmo_at 0 g) k b eisenhu "takahashi2012".
Proof. exact ex_finite_default. Qed.
Example C135_case_epoch : let g := planck_x 0.8159 in let a := (table_node 256 254 + 1) / 2 in let b := (table_node 128 126 + 1) / 2 in carries (fun t => a + t) (moves_at 1 a) /\ 0 < a < 1 /\ off_table 256 (fun t => a + t) /\ growing (cosmo_at 0 g) /\ carries (fun t => b + t) (moves_at 1 b) /\ 0 < b /\ off_table 128 (fun t => b + t) /\ 0 < D (cosmo_at 0 g) (b + 0) < 1.
Proof. exact ex_finite_epoch. Qed.


(** C136  the full statement, for cosmologies with or without baryons, is false *)
Theorem C136_with_baryons_partial : forall g,
  finite_cosmo g -> dense (cosmo_at 0 g) ->
  (0 <= eh_alpha_gamma (cosmo_at 0 g) -> transfer_carried eisenhu (geisenhu num_x) g) /\
  (0 < _Omega_c (cosmo_at 0 g) -> transfer_carried eisenhu_osc (geisenhu_osc num_x) g).
Proof. exact finite_transfers. Qed.
Print Assumptions C136_with_baryons_partial.
Theorem C136_no_baryons : forall g k,
  finite (gOmega_c g) -> finite (gh g) -> fst (gOmega_b g) = Fin 0 -> 0 < x_val (gOmega_c g) -> 0 < x_val (gh g) ->
  fst (geisenhu num_x g k) = NaN /\ fst (geisenhu_osc num_x g k) = NaN.
Proof. exact no_baryons. Qed.
Print Assumptions C136_no_baryons.
Theorem C136_no_baryons_power : forall g k a,
  finite (gOmega_c g) -> finite (gh g) -> fst (gOmega_b g) = Fin 0 -> 0 < x_val (gOmega_c g) -> 0 < x_val (gh g) ->
  fst (glinear_matter_power num_x g k a (geisenhu num_x)) = NaN /\ fst (glinear_matter_power num_x g k a (geisenhu_osc num_x)) = NaN.
Proof. exact no_baryons_power. Qed.
Print Assumptions C136_no_baryons_power.
Theorem C136_refuted : exists g, finite_cosmo g /\ expanding (cosmo_at 0 g) /\ physical (cosmo_at 0 g) /\ moderate (cosmo_at 0 g) /\ _Omega_b (cosmo_at 0 g) = 0 /\
  forall k a, fst (geisenhu num_x g k) = NaN /\ fst (geisenhu_osc num_x g k) = NaN /\
    fst (glinear_matter_power num_x g k a (geisenhu num_x)) = NaN /\ fst (glinear_matter_power num_x g k a (geisenhu_osc num_x)) = NaN.
Proof. exact baryons_refuted. Qed.
Print Assumptions C136_refuted.
Example C136_case : finite (gOmega_c dry_x) /\ finite (gh dry_x) /\ fst (gOmega_b dry_x) = Fin 0 /\ 0 < x_val (gOmega_c dry_x) /\ 0 < x_val (gh dry_x).
Proof. exact ex_dry. Qed.
