(** * C149: second derivatives with respect to redshift distributions, biases and calibrations *)
From Coq Require Import Reals Lra List String.
From Coquelicot Require Import Coquelicot.
From Verif Require Import Np Core Interp Integrate IntegrateSpec Background BgSpec BgPositive BgGrad Transfer Power SparseX Redshift Bias Probes ProbesSpec AngularCl GradSpec ContFinal
  Ad AdSpec AdPower AdHalofit AdHalofitSpec AdProbes AdArrSpec AdProbesFinal ExAdHalofit AdNuis AdNuisSpec AdNuisBack AdNuisFinal AdNan AdNanTwice AdOver JetSpec JetFinal JetNuisSpec JetNuisFinal JetKink ExJetNuis.
Import ListNotations.
Local Open Scope R_scope.
Opaque chi_table growth_table_ODE growth_table_gamma logspace.
(** forward over forward mode: on exact numbers, and on floating point numbers up to rounding *)
Local Notation NO := (num_over num_dual).
Local Notation NX := num_x2.


(** C149  second derivatives of distributions, kernels and spectra when nuisance parameters and cosmology move together.  The full statement, with smooth_nz of C131 for bend_nz, is false: see the refutations below *)
Theorem C149_redshift_partial : forall (d : gnz dual) z,
  0 <= gnz_zmax d -> bend_norm (read_nz fst d) -> 0 <= z -> bend_nz false (read_nz fst d) z ->
  bends (fun t => pz (read_nz (at_time t) d) z) (hpz NO (twice_nz d) z).
Proof. exact second_redshift. Qed.
Print Assumptions C149_redshift_partial.
Theorem C149_kernel_partial : forall c d (p : gprobe dual) z ell,
  built c -> expanding c -> _gamma c = None -> physical c -> moderate c ->
  (forall q, In q z -> tabulated q) -> shallow (bins_of (read_probe fst p)) ->
  (forall q a, In q z -> source_epoch (lensing_bins (read_probe fst p)) q a -> chi c a <> 1) -> probe_bends (lenses z) [read_probe fst p] p ->
  bends_rows (fun t => kernel (read_probe (at_time t) p) (displaced c d t) z ell) (hkernel NO (twice_probe p) (twice_cosmo c d d) z ell).
Proof. exact second_kernel. Qed.
Print Assumptions C149_kernel_partial.
Theorem C149_spectra_partial : forall c nl osc (S : list (gprobe dual)) ells d,
  built c -> expanding c -> _gamma c = None -> physical c -> moderate c -> transfer_smooth osc c -> sigmasqr_default c 8.0 (eh osc) <> 0 ->
  (nl = true -> eh osc c (1 / 10000) <> 0 /\ _sigma8 c <> 0 /\ forall b, limber_epoch (values S) b -> scale_found c b (eh osc) /\ forall k, formula_smooth c k b (eh osc) "takahashi2012") ->
  shallow (concat (map bins_of (values S))) -> off_clip chi c (values S) -> survey_bends S -> (forall l, In l ells -> - 0.5 < l) ->
  bends_rows (fun t => angular_cl (displaced c d t) (Array1 ells) (moved S t) (eh osc) (model_nl nl))
    (hangular_cl NO (twice_cosmo c d d) (Array1 ells) (map twice_probe S) (gmodel NO nl osc)).
Proof. exact second_survey. Qed.
Print Assumptions C149_spectra_partial.
Example C149_case : let c := planck_s faint in built c /\ expanding c /\ _gamma c = None /\ physical c /\ moderate c /\ transfer_smooth false c /\ sigmasqr_default c 8.0 (eh false) <> 0 /\
  (eh false c (1 / 10000) <> 0 /\ _sigma8 c <> 0 /\ forall b, limber_epoch (values bd_survey) b -> scale_found c b (eh false) /\ forall k, formula_smooth c k b (eh false) "takahashi2012") /\
  shallow (concat (map bins_of (values bd_survey))) /\ off_clip chi c (values bd_survey) /\ survey_bends bd_survey.
Proof. exact ex_C149. Qed.

(** a distribution shifted by 0 is differentiable, but has no second derivative with respect to the shift: the number returned is meaningless *)
Theorem C149_shift_refuted : exists (d : gnz dual) q, 0 <= gnz_zmax d /\ smooth_norm (read_nz fst d) /\ 0 <= q /\ smooth_nz (read_nz fst d) q /\
  let f := fun t => pz (read_nz (at_time t) d) q in locally 0 (fun s => ex_derive f s) /\ (forall l, ~ is_derive (Derive f) 0 l) /\ ~ bends f (hpz (num_over num_dual) (twice_nz d) q).
Proof. exact shift_second_refuted. Qed.
Print Assumptions C149_shift_refuted.

(** z**a exp(-(z / z0)**b), b between 1 and 2: the second derivative with respect to z0 exists, and jax returns NaN, for the distribution and for every clustering spectrum *)
Theorem C149_cutoff : forall (a b z0 g zm q : R),
  1 <= a -> 1 < b < 2 -> 0 < z0 -> 0 < zm -> 0 <= q ->
  (exists z, bends (fun t => pz (nz_new (Smail a b (z0 + t)) g zm) q) z) /\ curvature (hpz NX (GNz (GSmail (still2 a) (still2 b) (moves2 1 z0)) (still2 g) zm) q) = Some NaN.
Proof. exact cutoff_nan. Qed.
Print Assumptions C149_cutoff.
Theorem C149_cutoff_spectra : forall c (ds : list (gnz xdual2)) ba P ells rows,
  (forall d, In d ds -> cutoff_moves d) ->
  hangular_cl NX c (Array1 ells) [GPNC (GNC ds ba)] P = Ok rows -> forall row x, In row rows -> In x row -> curvature x = Some NaN.
Proof. exact cutoff_spectra. Qed.
Print Assumptions C149_cutoff_spectra.
Theorem C149_cutoff_refuted : exists a b z0 g zm : R, 1 <= a /\ 1 <= b /\ 0 < z0 /\ 0 < zm /\ forall q, 0 <= q ->
  (exists z, bends (fun t => pz (nz_new (Smail a b (z0 + t)) g zm) q) z) /\ curvature (hpz NX (GNz (GSmail (still2 a) (still2 b) (moves2 1 z0)) (still2 g) zm) q) = Some NaN.
Proof. exact cutoff_refuted. Qed.
Print Assumptions C149_cutoff_refuted.
Example C149_case_cutoff : forall c b P l, ggamma c = None -> let d := GNz (GSmail (still2 2) (still2 1.5) (moves2 1 0.7)) (still2 1) 3 in
  (forall d', In d' [d] -> cutoff_moves d') /\ exists x, hangular_cl num_x2 c (Array1 [l]) [GPNC (GNC [d] (GOneBias b))] P = Ok [[x]] /\ curvature x = Some NaN.
Proof. exact ex_cutoff. Qed.
