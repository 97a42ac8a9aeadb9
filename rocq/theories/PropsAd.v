(** * Property theorems C120-C123: forward-mode derivatives of the background functions, the power spectra, the kernels and the Limber spectra *)
From Coq Require Import Reals List String.
From Coquelicot Require Import Coquelicot.
From Verif Require Import Np Core Background BgSpec BgPositive BgFinal4 BgGrad GradSpec Interp Transfer TransferProofs Power Ad AdSpec AdProofs AdFinal AdPower AdPowerFinal Redshift Bias Probes AngularCl AdProbes AdArrSpec AdProbesFinal ExAdProbes HalofitScaleSpec ContFinal AdHalofit AdHalofitSpec AdHalofitFinal ExAdHalofit.
Local Open Scope R_scope.


(** C120  dual-number runs of background.py return the value and its derivative, in the parameters and in the scale factor *)
Theorem C120_programs : forall c a,
  built c ->
  gH num_R (lift_cosmo c) a = H c a /\ gOmega_m_a num_R (lift_cosmo c) a = Omega_m_a c a /\ gOmega_de_a num_R (lift_cosmo c) a = Omega_de_a c a /\
  gchi num_R (lift_cosmo c) a = chi c a /\ gf_k num_R (lift_cosmo c) a = f_k c a /\
  gD num_R (lift_cosmo c) a = D c a /\ gf num_R (lift_cosmo c) a = f_growth c a.
Proof. exact same_programs. Qed.
Print Assumptions C120_programs.
Theorem C120_rates : forall c d a da,
  built c -> expanding c -> 0 < a ->
  differentiates H (gH num_dual) c d a da /\ differentiates Omega_m_a (gOmega_m_a num_dual) c d a da /\
  differentiates Omega_de_a (gOmega_de_a num_dual) c d a da /\ differentiates dchioverda (gdchioverda num_dual) c d a da.
Proof. exact background_jvp. Qed.
Print Assumptions C120_rates.
Theorem C120_distances_partial : forall c d a da,
  built c -> expanding c -> 0 < a < 1 -> off_nodes 256 a da ->
  differentiates chi (gchi num_dual) c d a da /\
  (_Omega_k c <> 0 \/ dOmega_k d = 0 ->
   differentiates f_k (gf_k num_dual) c d a da /\
   differentiates (fun c a => el (fst (angular_diameter_distance c (Scalar a))) 0) (gd_A num_dual) c d a da).
Proof. exact distances_jvp. Qed.
Print Assumptions C120_distances_partial.
Theorem C120_growth_partial : forall c d a da,
  built c -> expanding c -> growing c -> 0 < a -> off_nodes 128 a da ->
  (0 < D c a < 1 -> differentiates D (gD num_dual) c d a da) /\ differentiates f_growth (gf num_dual) c d a da.
Proof. exact growths_jvp. Qed.
Print Assumptions C120_growth_partial.
Theorem C120_today : forall c d da,
  built c -> expanding c ->
  gchi num_dual (dual_cosmo c d) (1, da) = (0, da * last_slope (chi c) 256 / 2) /\
  (growing c -> gD num_dual (dual_cosmo c d) (1, da) = (1, da * last_slope (D c) 128 / 2)) /\
  (forall a, table_node 256 254 <= a -> chi c a = Rmax (last_slope (chi c) 256 * (a - 1)) 0) /\ last_slope (chi c) 256 < 0.
Proof. exact today_jvp. Qed.
Print Assumptions C120_today.
Theorem C120_today_refuted : exists c d da, built c /\ expanding c /\ ~ differentiates chi (gchi num_dual) c d 1 da.
Proof. exact today_refuted. Qed.
Print Assumptions C120_today_refuted.
Example C120_case : built Planck15 /\ expanding Planck15 /\ growing Planck15 /\ (let a := (table_node 256 254 + 1) / 2 in 0 < a < 1 /\ off_nodes 256 a 1) /\ (let a := table_node 128 126 in 0 < a /\ 0 < D Planck15 a < 1 /\ off_nodes 128 a 0).
Proof. exact ex_C120. Qed.
Example C120_case_curved : built open_planck /\ expanding open_planck /\ _Omega_k open_planck <> 0.
Proof. exact (conj eq_refl (conj (proj1 (proj2 open_planck_ok)) (proj1 (proj2 (proj2 open_planck_ok))))). Qed.


(** C121  dual-number runs of transfer.py and power.py return the value and its derivative, in the parameters, k and a *)
Theorem C121_programs : forall c k a,
  built c ->
  (forall q, geisenhu num_R (lift_cosmo c) q = eisenhu c q) /\ (forall q, geisenhu_osc num_R (lift_cosmo c) q = eisenhu_osc c q) /\
  forall T (GT : gcosmo R -> R -> R), (forall q, GT (lift_cosmo c) q = T c q) -> glinear_matter_power num_R (lift_cosmo c) k a GT = linear_matter_power c k a T.
Proof. exact power_programs. Qed.
Print Assumptions C121_programs.
Theorem C121_eisenhu : forall c,
  built c -> dense c -> 0 <= eh_alpha_gamma c -> transfer_jvp eisenhu (geisenhu num_dual) c.
Proof. exact eisenhu_jvp. Qed.
Print Assumptions C121_eisenhu.
Theorem C121_eisenhu_osc : forall c,
  built c -> dense c -> 0 < _Omega_c c -> transfer_jvp eisenhu_osc (geisenhu_osc num_dual) c.
Proof. exact eisenhu_osc_jvp. Qed.
Print Assumptions C121_eisenhu_osc.
Theorem C121_sigma : forall c d T GT Rr kmin kmax,
  built c -> transfer_jvp T GT c -> 0 < Rr ->
  fst (gsigmasqr num_dual (dual_cosmo c d) Rr GT kmin kmax) = sigmasqr c Rr T kmin kmax /\
  is_derive (fun t => sigmasqr (displaced c d t) Rr T kmin kmax) 0 (snd (gsigmasqr num_dual (dual_cosmo c d) Rr GT kmin kmax)).
Proof. exact sigma_jvp. Qed.
Print Assumptions C121_sigma.
Theorem C121_linear_power : forall c d T GT k dk a da,
  built c -> expanding c -> growing c -> transfer_jvp T GT c -> sigmasqr_default c 8.0 T <> 0 ->
  0 < k -> growth_smooth D c a da ->
  differentiates2 (fun c k a => linear_matter_power c k a T) (fun g k a => glinear_matter_power num_dual g k a GT) c d k dk a da.
Proof. exact power_jvp. Qed.
Print Assumptions C121_linear_power.
Theorem C121_growth_inside : forall c a,
  built c -> _gamma c = None -> physical c -> moderate c -> table_node 128 1 <= a < 1 -> 0 < D c a < 1.
Proof. exact growth_interior. Qed.
Print Assumptions C121_growth_inside.
Example C121_case : built Planck15 /\ expanding Planck15 /\ growing Planck15 /\ transfer_jvp eisenhu (geisenhu num_dual) Planck15 /\ transfer_jvp eisenhu_osc (geisenhu_osc num_dual) Planck15 /\ sigmasqr_default Planck15 8.0 eisenhu <> 0 /\ growth_smooth D Planck15 1 0 /\ growth_smooth D Planck15 0.5 0 /\ growth_smooth D Planck15 ((table_node 128 126 + 1) / 2) 1.
Proof. exact ex_C121. Qed.


(** C122  dual-number runs of probes.py and angular_cl.py return arrays of values and derivatives, or raise what the code raises *)
Theorem C122_programs : forall c z ell probes T nl P,
  built c -> _gamma c = None ->
  (forall p, (forall q, In q z -> D c (z2a q) <> 0) -> gkernel num_R p (lift_cosmo c) z ell = kernel p c z ell) /\
  ((forall b, limber_epoch probes b -> 0 < b /\ D c b <> 0) -> (forall k a, P (lift_cosmo c) k a = nonlinear_matter_power c k a T nl) ->
   forall ells, gangular_cl num_R (lift_cosmo c) ells probes P = angular_cl c ells probes T nl).
Proof. exact probes_programs. Qed.
Print Assumptions C122_programs.
Theorem C122_kernel : forall c d p z ell,
  built c -> expanding c -> _gamma c = None -> physical c -> moderate c ->
  (forall q, In q z -> tabulated q) -> shallow (lensing_bins p) -> (forall q a, In q z -> source_epoch (lensing_bins p) q a -> chi c a <> 1) ->
  jvp_rows (fun t => kernel p (displaced c d t) z ell) (gkernel num_dual p (dual_cosmo c d) z ell).
Proof. exact kernel_jvp. Qed.
Print Assumptions C122_kernel.
Theorem C122_spectra : forall c d probes ells T nl P,
  built c -> expanding c -> _gamma c = None -> physical c -> moderate c ->
  shallow (concat (map bins_of probes)) -> off_clip chi c probes -> (forall l, In l ells -> - 0.5 < l) ->
  (forall b, limber_epoch probes b -> spectrum_moves (fun c k a => nonlinear_matter_power c k a T nl) P c d b) ->
  jvp_rows (fun t => angular_cl (displaced c d t) (Array1 ells) probes T nl) (gangular_cl num_dual (dual_cosmo c d) (Array1 ells) probes P).
Proof. exact spectra_jvp. Qed.
Print Assumptions C122_spectra.
Theorem C122_linear_spectra : forall c d probes ells T GT,
  built c -> expanding c -> _gamma c = None -> physical c -> moderate c ->
  (forall d, transfer_moves T GT c d) -> sigmasqr_default c 8.0 T <> 0 ->
  shallow (concat (map bins_of probes)) -> off_clip chi c probes -> (forall l, In l ells -> - 0.5 < l) ->
  jvp_rows (fun t => angular_cl (displaced c d t) (Array1 ells) probes T linear)
    (gangular_cl num_dual (dual_cosmo c d) (Array1 ells) probes (fun g k a => glinear_matter_power num_dual g k a GT)).
Proof. exact linear_spectra_jvp. Qed.
Print Assumptions C122_linear_spectra.
Theorem C122_distance_strict : forall c a b,
  built c -> expanding c -> a < b <= 1 -> chi c b < chi c a.
Proof. exact chi_strict. Qed.
Print Assumptions C122_distance_strict.
Example C122_case : built Planck15 /\ expanding Planck15 /\ _gamma Planck15 = None /\ physical Planck15 /\ moderate Planck15 /\ (forall d, transfer_moves eisenhu (geisenhu num_dual) Planck15 d) /\ (forall d, transfer_moves eisenhu_osc (geisenhu_osc num_dual) Planck15 d) /\ sigmasqr_default Planck15 8.0 eisenhu <> 0 /\ shallow (concat (map bins_of ex_survey)) /\ off_clip chi Planck15 ex_survey /\ shallow (concat (map bins_of ex_aligned)) /\ off_clip chi Planck15 ex_aligned.
Proof. exact ex_C122. Qed.


(** C123  dual-number runs of halofit, and of the Limber spectra with the default model, return the values and their derivatives *)
Theorem C123_programs : forall c k a p T (GT : gcosmo R -> R -> R),
  built c -> (forall q, GT (lift_cosmo c) q = T c q) ->
  ghalofit_parameters num_R (lift_cosmo c) a GT = halofit_parameters c a T /\ ghalofit num_R (lift_cosmo c) k a GT p = halofit c k a T p.
Proof. exact halofit_programs. Qed.
Print Assumptions C123_programs.
Theorem C123_scale : forall c d T GT a,
  built c -> expanding c -> _gamma c = None -> physical c -> moderate c -> (forall d, transfer_moves T GT c d) ->
  sigmasqr_default c 8.0 T <> 0 -> T c (1 / 10000) <> 0 -> _sigma8 c <> 0 -> table_node 128 1 <= a <= 1 -> scale_found c a T ->
  let p := fun t => halofit_parameters (displaced c d t) a T in let q := ghalofit_parameters num_dual (dual_cosmo c d) (a, 0) GT in
  tangent_of (fun t => fst (fst (p t))) 0 (fst (fst q)) /\ tangent_of (fun t => snd (fst (p t))) 0 (snd (fst q)) /\ tangent_of (fun t => snd (p t)) 0 (snd q).
Proof. exact halofit_scale_jvp. Qed.
Print Assumptions C123_scale.
Theorem C123_halofit : forall c d T GT a p k kd,
  built c -> expanding c -> _gamma c = None -> physical c -> moderate c -> (forall d, transfer_moves T GT c d) ->
  sigmasqr_default c 8.0 T <> 0 -> T c (1 / 10000) <> 0 -> _sigma8 c <> 0 -> table_node 128 1 <= a <= 1 -> scale_found c a T ->
  tangent_of k 0 kd -> 0 < k 0 -> formula_smooth c (k 0) a T p ->
  jvp_number (fun t => halofit (displaced c d t) (k t) a T p) (ghalofit num_dual (dual_cosmo c d) kd (a, 0) GT p).
Proof. exact halofit_jvp. Qed.
Print Assumptions C123_halofit.
Theorem C123_default_model : forall c d T GT a,
  built c -> expanding c -> _gamma c = None -> physical c -> moderate c -> (forall d, transfer_moves T GT c d) ->
  sigmasqr_default c 8.0 T <> 0 -> T c (1 / 10000) <> 0 -> _sigma8 c <> 0 -> table_node 128 1 <= a <= 1 -> scale_found c a T -> (forall k, formula_smooth c k a T "takahashi2012") ->
  spectrum_moves (fun c k a => nonlinear_matter_power c k a T halofit_default) (ghalofit_default num_dual GT) c d a.
Proof. exact halofit_default_moves. Qed.
Print Assumptions C123_default_model.
Theorem C123_default_spectra : forall c d probes ells T GT,
  built c -> expanding c -> _gamma c = None -> physical c -> moderate c ->
  (forall d, transfer_moves T GT c d) -> sigmasqr_default c 8.0 T <> 0 -> T c (1 / 10000) <> 0 -> _sigma8 c <> 0 ->
  shallow (concat (map bins_of probes)) -> off_clip chi c probes -> (forall l, In l ells -> - 0.5 < l) ->
  (forall b, limber_epoch probes b -> scale_found c b T /\ forall k, formula_smooth c k b T "takahashi2012") ->
  jvp_rows (fun t => angular_cl (displaced c d t) (Array1 ells) probes T halofit_default)
    (gangular_cl num_dual (dual_cosmo c d) (Array1 ells) probes (ghalofit_default num_dual GT)).
Proof. exact default_spectra_jvp. Qed.
Print Assumptions C123_default_spectra.
Theorem C123_generic_amplitude : forall Oc Ob h ns Ok_ w0 wa gam a T,
  let C := fun s => make_cosmology Oc Ob h ns s Ok_ w0 wa gam in
  (forall s k, T (C s) k = T (C 1) k) -> sigmasqr_default (C 1) 8.0 T <> 0 -> T (C 1) (1 / 10000) <> 0 -> D (C 1) a <> 0 -> D (C 1) 1 <> 0 ->
  exists L : list R, forall s, 0 < s -> ~ In s L -> scale_found (C s) a T.
Proof. exact scale_found_generic. Qed.
Print Assumptions C123_generic_amplitude.
Example C123_case : let c := planck_s faint in 0 < faint <= 1 / 100 /\ built c /\ expanding c /\ _gamma c = None /\ physical c /\ moderate c /\ (forall d, transfer_moves eisenhu (geisenhu num_dual) c d) /\ sigmasqr_default c 8.0 eisenhu <> 0 /\ eisenhu c (1 / 10000) <> 0 /\ _sigma8 c <> 0 /\ shallow (concat (map bins_of ex_survey)) /\ off_clip chi c ex_survey /\ forall b, limber_epoch ex_survey b -> scale_found c b eisenhu /\ forall k, formula_smooth c k b eisenhu "takahashi2012".
Proof. exact ex_C123. Qed.
Example C123_case_inside : let c := planck_s bright in 0 < bright /\ built c /\ expanding c /\ _gamma c = None /\ physical c /\ moderate c /\ (forall d, transfer_moves bump gbump c d) /\ sigmasqr_default c 8.0 bump <> 0 /\ bump c (1 / 10000) <> 0 /\ _sigma8 c <> 0 /\ table_node 128 1 <= 1 <= 1 /\ scale_found c 1 bump /\ fst (fst (halofit_parameters c 1 bump)) = 1000 /\ forall k, formula_smooth c k 1 bump "takahashi2012".
Proof. exact ex_C123_inside. Qed.
