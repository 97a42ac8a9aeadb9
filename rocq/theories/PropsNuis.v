(** * C131-C132: derivatives with respect to redshift distributions, biases and calibrations *)
From Coq Require Import Reals Lra Lia ZArith String List.
From Coquelicot Require Import Coquelicot.
From Verif Require Import Np Core Interp Integrate IntegrateSpec Background BgSpec BgPositive BgGrad Transfer Power ExPower SparseX Redshift Bias Probes AngularCl GradSpec Ad AdSpec AdPower AdProbes AdProbesFinal AdArrSpec AdHalofit AdHalofitSpec AdNuis AdNuisSpec AdNuisFinal AdNuisHalo AdNan AdNanSpec AdNanFinal ExAdHalofit ExNuis ExNuisHalo ContFinal.
Import ListNotations.
Local Open Scope R_scope.
Opaque chi_table growth_table_ODE growth_table_gamma logspace.


(** C131  jvp of distributions, kernels and spectra with respect to nuisance parameters, together with the cosmology *)
Theorem C131_redshift : forall (d : gnz dual) z,
  0 <= gnz_zmax d -> smooth_norm (read_nz fst d) -> 0 <= z -> smooth_nz (read_nz fst d) z ->
  tangent_of (fun t => pz (read_nz (at_time t) d) z) 0 (hpz num_dual d z).
Proof. exact nuisance_redshift. Qed.
Print Assumptions C131_redshift.
Theorem C131_kernel : forall c d (p : gprobe dual) z ell,
  built c -> expanding c -> _gamma c = None -> physical c -> moderate c ->
  (forall q, In q z -> tabulated q) -> shallow (bins_of (read_probe fst p)) ->
  (forall q a, In q z -> source_epoch (lensing_bins (read_probe fst p)) q a -> chi c a <> 1) -> probe_smooth (lenses z) [read_probe fst p] p ->
  jvp_rows (fun t => kernel (read_probe (at_time t) p) (displaced c d t) z ell) (hkernel num_dual p (dual_cosmo c d) z ell).
Proof. exact nuisance_kernel. Qed.
Print Assumptions C131_kernel.
Theorem C131_spectra : forall c d (S : list (gprobe dual)) ells T nl P,
  built c -> expanding c -> _gamma c = None -> physical c -> moderate c ->
  shallow (concat (map bins_of (values S))) -> off_clip chi c (values S) -> survey_smooth S -> (forall l, In l ells -> - 0.5 < l) ->
  (forall b, limber_epoch (values S) b -> spectrum_moves (fun c k a => nonlinear_matter_power c k a T nl) P c d b) ->
  jvp_rows (fun t => angular_cl (displaced c d t) (Array1 ells) (moved S t) T nl) (hangular_cl num_dual (dual_cosmo c d) (Array1 ells) S P).
Proof. exact nuisance_spectra. Qed.
Print Assumptions C131_spectra.
Theorem C131_linear_spectra : forall c d (S : list (gprobe dual)) ells T GT,
  built c -> expanding c -> _gamma c = None -> physical c -> moderate c ->
  (forall d, transfer_moves T GT c d) -> sigmasqr_default c 8.0 T <> 0 ->
  shallow (concat (map bins_of (values S))) -> off_clip chi c (values S) -> survey_smooth S -> (forall l, In l ells -> - 0.5 < l) ->
  jvp_rows (fun t => angular_cl (displaced c d t) (Array1 ells) (moved S t) T linear)
    (hangular_cl num_dual (dual_cosmo c d) (Array1 ells) S (fun g k a => glinear_matter_power num_dual g k a GT)).
Proof. exact nuisance_linear. Qed.
Print Assumptions C131_linear_spectra.
Theorem C131_default_spectra : forall c d (S : list (gprobe dual)) ells T GT,
  built c -> expanding c -> _gamma c = None -> physical c -> moderate c ->
  (forall d, transfer_moves T GT c d) -> sigmasqr_default c 8.0 T <> 0 -> T c (1 / 10000) <> 0 -> _sigma8 c <> 0 ->
  shallow (concat (map bins_of (values S))) -> off_clip chi c (values S) -> survey_smooth S -> (forall l, In l ells -> - 0.5 < l) ->
  (forall b, limber_epoch (values S) b -> scale_found c b T /\ forall k, formula_smooth c k b T "takahashi2012") ->
  jvp_rows (fun t => angular_cl (displaced c d t) (Array1 ells) (moved S t) T halofit_default)
    (hangular_cl num_dual (dual_cosmo c d) (Array1 ells) S (ghalofit_default num_dual GT)).
Proof. exact nuisance_default. Qed.
Print Assumptions C131_default_spectra.

(** the differentiated programs, on ordinary numbers, are the programs of the model *)
Theorem C131_programs : forall c z ell (S : list (gprobe R)) T nl P,
  built c -> _gamma c = None ->
  (forall d q, hpz num_R d q = pz (read_nz as_is d) q) /\
  (forall p, (forall q, In q z -> D c (z2a q) <> 0) -> hkernel num_R p (lift_cosmo c) z ell = kernel (read_probe as_is p) c z ell) /\
  ((forall b, limber_epoch (map (read_probe as_is) S) b -> 0 < b /\ D c b <> 0) -> (forall k a, P (lift_cosmo c) k a = nonlinear_matter_power c k a T nl) ->
   forall ells, hangular_cl num_R (lift_cosmo c) ells S P = angular_cl c ells (map (read_probe as_is) S) T nl).
Proof. exact nuisance_programs. Qed.
Print Assumptions C131_programs.
Example C131_case : built Planck15 /\ expanding Planck15 /\ _gamma Planck15 = None /\ physical Planck15 /\ moderate Planck15 /\ (forall d, transfer_moves eisenhu (geisenhu num_dual) Planck15 d) /\ sigmasqr_default Planck15 8.0 eisenhu <> 0 /\ shallow (concat (map bins_of (values mv_survey))) /\ off_clip chi Planck15 (values mv_survey) /\ survey_smooth mv_survey.
Proof. exact ex_nuisance. Qed.
Example C131_case_default : let c := planck_s faint in built c /\ expanding c /\ _gamma c = None /\ physical c /\ moderate c /\ (forall d, transfer_moves eisenhu (geisenhu num_dual) c d) /\ sigmasqr_default c 8.0 eisenhu <> 0 /\ eisenhu c (1 / 10000) <> 0 /\ _sigma8 c <> 0 /\ shallow (concat (map bins_of (values mv_survey))) /\ off_clip chi c (values mv_survey) /\ survey_smooth mv_survey /\ forall b, limber_epoch (values mv_survey) b -> scale_found c b eisenhu /\ forall k, formula_smooth c k b eisenhu "takahashi2012".
Proof. exact ex_nuisance_default. Qed.


(** C132  in floating point, up to rounding: gradients of differentiable distributions; the full statement, without the exponents of at least 1 in smooth_nz, is false *)
Theorem C132_finite_partial : forall (d : gnz xdual) q,
  0 <= gnz_zmax d -> finite_nz d -> smooth_norm (read_nz x_val d) -> 0 <= q -> smooth_nz (read_nz x_val d) q ->
  finite (hpz num_x d q) /\ tangent_of (fun t => pz (read_nz (moving t) d) q) 0 (x_val (hpz num_x d q), x_tan (hpz num_x d q)).
Proof. exact finite_gradient. Qed.
Print Assumptions C132_finite_partial.
Theorem C132_smail : forall d q,
  root_smail d -> 0 < gnz_zmax d -> 0 <= q -> ex_derive (fun t => pz (read_nz (moving t) d) q) 0 /\ snd (hpz num_x d q) = Some NaN.
Proof. exact root_smail_nan. Qed.
Print Assumptions C132_smail.
Theorem C132_shift : forall d q,
  root_shift d -> 0 <= q -> ex_derive (fun t => pz (read_nz (moving t) d) q) 0 /\ snd (hpz num_x d q) = Some NaN.
Proof. exact root_shift_nan. Qed.
Print Assumptions C132_shift.
Theorem C132_spectra : forall c (ds : list (gnz xdual)) ba (P : gspectrum (A := xdual)) ells rows,
  (forall d, In d ds -> root_smail d \/ root_shift d) ->
  hangular_cl num_x c (Array1 ells) [GPNC (GNC ds ba)] P = Ok rows -> forall row x, In row rows -> In x row -> snd x = Some NaN.
Proof. exact root_spectra_nan. Qed.
Print Assumptions C132_spectra.
Theorem C132_smail_refuted : exists a b z0 g zm : R, 0 < a /\ 0 < b /\ 0 < z0 /\ 0 < zm /\
  forall q, 0 <= q -> ex_derive (fun t => pz (nz_new (Smail a b (z0 + t)) g zm) q) 0 /\ snd (hpz num_x (GNz (GSmail (still a) (still b) (moves_at 1 z0)) (still g) zm) q) = Some NaN.
Proof. exact smail_refuted. Qed.
Print Assumptions C132_smail_refuted.
Theorem C132_shift_refuted : exists a b z0 g zm : R, 1 < a /\ 0 < b /\ 0 < z0 /\ 0 < zm /\
  forall q, 0 <= q -> ex_derive (fun t => pz (nz_new (Shift (nz_new (Smail a b z0) g zm) t) g zm) q) 0 /\
    snd (hpz num_x (GNz (GShift (GNz (GSmail (still a) (still b) (still z0)) (still g) zm) (moves_at 1 0)) (still g) zm) q) = Some NaN.
Proof. exact shift_refuted. Qed.
Print Assumptions C132_shift_refuted.
Example C132_case_finite : let d : gnz xdual := GNz (GSmail (moves_at 1 2) (still 3) (moves_at 2 1)) (still 1) 5 in 0 <= gnz_zmax d /\ finite_nz d /\ smooth_norm (read_nz x_val d) /\ smooth_nz (read_nz x_val d) 1.
Proof. exact ex_finite. Qed.
Example C132_case : root_smail lsst /\ root_shift lsst_shifted.
Proof. exact lsst_root. Qed.
Example C132_case_spectra c b (P : gspectrum (A := xdual)) l : ggamma c = None -> (forall d, In d [lsst] -> root_smail d \/ root_shift d) /\ exists v, hangular_cl num_x c (Array1 [l]) [GPNC (GNC [lsst] (GOneBias b))] P = Ok [[(v, Some NaN)]].
Proof. exact (ex_spectra_nan c b P l). Qed.
