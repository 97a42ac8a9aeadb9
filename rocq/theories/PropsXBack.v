(** * C137-C138: jax.grad in floating point *)
From Coq Require Import Reals Lra Lia ZArith String List.
From Coquelicot Require Import Coquelicot.
From Verif Require Import SparseX AdNan AdNanSpec.
From Verif Require Import Np Core Interp Integrate IntegrateSpec Background BgSpec BgPositive BgGrad Transfer TransferProofs Power ExPower Redshift Bias Probes AngularCl GradSpec Ad AdSpec AdPower AdProbes AdProbesFinal AdArrSpec AdHalofit AdHalofitSpec AdNuis AdNuisSpec AdNuisFinal ExAdHalofit AdNuisBack AdNuisBackSpec XBack XBackSpec XBackFinal XBackNan ExXBack.
Import ListNotations.
Local Open Scope R_scope.
Opaque chi_table growth_table_ODE growth_table_gamma logspace.
(** the cosmology whose parameters move with the tangents of their slots, and the one at rest *)
Local Notation C g := (fun w t => read_cosmo (leaf_at w t) g).
Local Notation c0 g := (read_cosmo fst g).


(** C137  the backward pass over numbers with infinities and NaN returns the value and the gradient *)
Theorem C137_background : forall g a,
  expanding (c0 g) -> 0 < fst a ->
  graded (fun w t => H (C g w t) (leaf_at w t a)) (gH num_xb (xcosmo g) (xinput a)) /\
  graded (fun w t => Omega_m_a (C g w t) (leaf_at w t a)) (gOmega_m_a num_xb (xcosmo g) (xinput a)) /\
  graded (fun w t => Omega_de_a (C g w t) (leaf_at w t a)) (gOmega_de_a num_xb (xcosmo g) (xinput a)) /\
  graded (fun u t => w (C g u t) (leaf_at u t a)) (gw num_xb (xcosmo g) (xinput a)) /\
  graded (fun w t => dchioverda (C g w t) (leaf_at w t a)) (gdchioverda num_xb (xcosmo g) (xinput a)).
Proof. exact grad_background. Qed.
Print Assumptions C137_background.
Theorem C137_distances : forall g a,
  expanding (c0 g) -> 0 < fst a < 1 -> between 256 a ->
  graded (fun w t => chi (C g w t) (leaf_at w t a)) (gchi num_xb (xcosmo g) (xinput a)) /\
  (fst (gOmega_k g) <> 0 \/ fst (gOmega_k g) = 0 /\ snd (gOmega_k g) = None -> graded (fun w t => f_k (C g w t) (leaf_at w t a)) (gf_k num_xb (xcosmo g) (xinput a))).
Proof. exact grad_distances. Qed.
Print Assumptions C137_distances.
Theorem C137_growth : forall g a,
  expanding (c0 g) -> growing (c0 g) -> 0 < fst a -> between 128 a ->
  (0 < D (c0 g) (fst a) < 1 -> graded (fun w t => D (C g w t) (leaf_at w t a)) (gD num_xb (xcosmo g) (xinput a))) /\
  graded (fun w t => f_growth (C g w t) (leaf_at w t a)) (gf num_xb (xcosmo g) (xinput a)).
Proof. exact grad_growth. Qed.
Print Assumptions C137_growth.
Theorem C137_transfers : forall osc g k,
  eh_regular osc (c0 g) -> 0 < fst k -> graded (fun w t => eh osc (C g w t) (leaf_at w t k)) (geh num_xb osc (xcosmo g) (xinput k)).
Proof. exact grad_transfers. Qed.
Print Assumptions C137_transfers.
Theorem C137_linear : forall osc g a k,
  expanding (c0 g) -> _gamma (c0 g) = None -> physical (c0 g) -> moderate (c0 g) -> eh_regular osc (c0 g) -> sigmasqr_default (c0 g) 8.0 (eh osc) <> 0 ->
  table_node 128 1 <= a <= 1 -> 0 < fst k ->
  graded (fun w t => linear_matter_power (C g w t) (leaf_at w t k) a (eh osc)) (glinear_matter_power num_xb (xcosmo g) (xinput k) (cst num_xb a) (geh num_xb osc)).
Proof. exact grad_linear. Qed.
Print Assumptions C137_linear.
Theorem C137_halofit : forall osc g a p k,
  expanding (c0 g) -> _gamma (c0 g) = None -> physical (c0 g) -> moderate (c0 g) -> eh_regular osc (c0 g) -> sigmasqr_default (c0 g) 8.0 (eh osc) <> 0 ->
  eh osc (c0 g) (1 / 10000) <> 0 -> _sigma8 (c0 g) <> 0 -> table_node 128 1 <= a <= 1 -> scale_found (c0 g) a (eh osc) -> 0 < fst k -> formula_smooth (c0 g) (fst k) a (eh osc) p ->
  number_graded (fun w t => halofit (C g w t) (leaf_at w t k) a (eh osc) p) (ghalofit num_xb (xcosmo g) (xinput k) (cst num_xb a) (geh num_xb osc) p).
Proof. exact grad_halofit. Qed.
Print Assumptions C137_halofit.
Theorem C137_kernel : forall g (p : gprobe leaf) z ell,
  let v := read_probe fst p in
  expanding (c0 g) -> _gamma (c0 g) = None -> physical (c0 g) -> moderate (c0 g) ->
  (forall q, In q z -> tabulated q) -> shallow (bins_of v) -> (forall q a, In q z -> source_epoch (lensing_bins v) q a -> chi (c0 g) a <> 1) ->
  probe_smooth (lenses z) [v] (probe_map all_move p) ->
  rows_graded (fun w t => kernel (read_probe (leaf_at w t) p) (C g w t) z ell) (hkernel num_xb (probe_map xinput p) (xcosmo g) z ell).
Proof. exact grad_kernel. Qed.
Print Assumptions C137_kernel.
Theorem C137_spectra : forall osc g (S : list (gprobe leaf)) ells,
  let V := map (read_probe fst) S in
  expanding (c0 g) -> _gamma (c0 g) = None -> physical (c0 g) -> moderate (c0 g) -> eh_regular osc (c0 g) -> sigmasqr_default (c0 g) 8.0 (eh osc) <> 0 ->
  shallow (concat (map bins_of V)) -> off_clip chi (c0 g) V -> survey_smooth (map (probe_map all_move) S) -> (forall l, In l ells -> - 0.5 < l) ->
  rows_graded (fun w t => angular_cl (C g w t) (Array1 ells) (survey_at w t S) (eh osc) linear) (hangular_cl num_xb (xcosmo g) (Array1 ells) (xprobes S) (gmodel num_xb false osc)).
Proof. exact grad_spectra. Qed.
Print Assumptions C137_spectra.
Theorem C137_default_spectra : forall osc g (S : list (gprobe leaf)) ells,
  let V := map (read_probe fst) S in
  expanding (c0 g) -> _gamma (c0 g) = None -> physical (c0 g) -> moderate (c0 g) -> eh_regular osc (c0 g) -> sigmasqr_default (c0 g) 8.0 (eh osc) <> 0 ->
  eh osc (c0 g) (1 / 10000) <> 0 -> _sigma8 (c0 g) <> 0 ->
  shallow (concat (map bins_of V)) -> off_clip chi (c0 g) V -> survey_smooth (map (probe_map all_move) S) -> (forall l, In l ells -> - 0.5 < l) ->
  (forall b, limber_epoch V b -> scale_found (c0 g) b (eh osc) /\ forall k, formula_smooth (c0 g) k b (eh osc) "takahashi2012") ->
  rows_graded (fun w t => angular_cl (C g w t) (Array1 ells) (survey_at w t S) (eh osc) halofit_default) (hangular_cl num_xb (xcosmo g) (Array1 ells) (xprobes S) (gmodel num_xb true osc)).
Proof. exact grad_default_spectra. Qed.
Print Assumptions C137_default_spectra.
Example C137_case : let c := read_cosmo fst (planck_leaf 0.8159) in let V := map (read_probe fst) leaf_survey in expanding c /\ _gamma c = None /\ physical c /\ moderate c /\ eh_regular false c /\ eh_regular true c /\ sigmasqr_default c 8.0 (eh false) <> 0 /\ shallow (concat (map bins_of V)) /\ off_clip chi c V /\ survey_smooth (map (probe_map all_move) leaf_survey).
Proof. exact ex_grad_survey. Qed.
Example C137_case_default : let c := read_cosmo fst (planck_leaf faint) in let V := map (read_probe fst) leaf_survey in expanding c /\ _gamma c = None /\ physical c /\ moderate c /\ eh_regular false c /\ sigmasqr_default c 8.0 (eh false) <> 0 /\ eh false c (1 / 10000) <> 0 /\ _sigma8 c <> 0 /\ shallow (concat (map bins_of V)) /\ off_clip chi c V /\ survey_smooth (map (probe_map all_move) leaf_survey) /\ forall b, limber_epoch V b -> scale_found c b (eh false) /\ forall k, formula_smooth c k b (eh false) "takahashi2012".
Proof. exact ex_grad_default. Qed.
Example C137_case_epoch : let c := read_cosmo fst (planck_leaf 0.8159) in let a := (table_node 256 254 + 1) / 2 in let b := (table_node 128 126 + 1) / 2 in 0 < a < 1 /\ between 256 (a, Some 26%nat) /\ growing c /\ 0 < b /\ between 128 (b, Some 27%nat) /\ 0 < D c b < 1.
Proof. exact ex_grad_epoch. Qed.


(** C138  the gradient of a differentiable redshift distribution; the full statement, without the exponents of at least 1 in smooth_nz, is false *)
Theorem C138_finite_partial : forall (d : gnz leaf) q,
  0 <= gnz_zmax d -> smooth_norm (read_nz fst d) -> 0 <= q -> smooth_nz (read_nz fst d) q ->
  graded (fun w t => pz (read_nz (leaf_at w t) d) q) (hpz num_xb (nz_map xinput d) q).
Proof. exact grad_redshift. Qed.
Print Assumptions C138_finite_partial.
Theorem C138_smail : forall i d q,
  root_leaf i d -> 0 <= q -> (forall w, ex_derive (fun t => pz (read_nz (leaf_at w t) d) q) 0) /\ partial (hpz num_xb (nz_map xinput d) q) i = NaN.
Proof. exact root_nan. Qed.
Print Assumptions C138_smail.
Theorem C138_spectra : forall i c (ds : list (gnz leaf)) ba (P : gcosmo xback -> xback -> xback -> xback) ells rows,
  (forall d, In d ds -> root_leaf i d) ->
  hangular_cl num_xb c (Array1 ells) [GPNC (GNC (map (nz_map xinput) ds) ba)] P = Ok rows -> forall row x, In row rows -> In x row -> partial x i = NaN.
Proof. exact root_grad_nan. Qed.
Print Assumptions C138_spectra.
Theorem C138_refuted : exists a b z0 g zm : R, 0 < a /\ 0 < b /\ 0 < z0 /\ 0 < zm /\
  forall q, 0 <= q -> ex_derive (fun t => pz (nz_new (Smail a b (z0 + t)) g zm) q) 0 /\ partial (hpz num_xb (nz_map xinput (GNz (GSmail (a, None) (b, None) (z0, Some 0%nat)) (g, None) zm)) q) 0 = NaN.
Proof. exact root_refuted. Qed.
Print Assumptions C138_refuted.
Example C138_case_finite : let d : gnz leaf := GNz (GSmail (2, Some 0%nat) (3, None) (1, Some 1%nat)) (1, None) 5 in 0 <= gnz_zmax d /\ smooth_norm (read_nz fst d) /\ smooth_nz (read_nz fst d) 1.
Proof. exact ex_leaf_finite. Qed.
Example C138_case : root_leaf 0 lsst_leaf /\ root_leaf 0 lsst_leaf_shifted.
Proof. exact ex_root. Qed.
Example C138_case_spectra c b (P : gcosmo xback -> xback -> xback -> xback) l : ggamma c = None -> exists x, hangular_cl num_xb c (Array1 [l]) [GPNC (GNC (map (nz_map xinput) [lsst_leaf]) (GOneBias b))] P = Ok [[x]] /\ partial x 0 = NaN.
Proof. exact (ex_root_spectra c b P l). Qed.
