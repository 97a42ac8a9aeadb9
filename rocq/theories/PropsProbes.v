(** * Property theorems C32, C74-C80 and C82 (probes.py and bias.py) *)
From Coquelicot Require Import Coquelicot.
From Verif Require Import Np NpLemmas Core Background BgSpec BgPositive BgFinal4 Redshift RedshiftSpec Bias Probes ProbesSpec ProbesProofs ProbesFinal ExCov ExProbes.

(** C32: false; the compiled kernels lose gamma when the cosmology is unflattened and raise *)
Theorem C32_gamma_kernel_refuted : exists c p z ell, probe_ok p /\ fresh c /\ physical c /\ kernel p c z ell = Err AttributeError.
Proof. exact gamma_kernel_fails. Qed.
Print Assumptions C32_gamma_kernel_refuted.
Theorem C32_gamma_always_raises : forall p c g z ell,
  _gamma c = Some g -> _gamma_growth c = true -> kernel p c z ell = Err AttributeError.
Proof. exact kernel_gamma. Qed.
Print Assumptions C32_gamma_always_raises.

(** what does hold: without gamma every usable probe returns one row per bin, with the documented formula *)
Theorem C32_without_gamma_partial : forall p c z ell,
  reachable c -> _gamma_growth c = false -> probe_ok p ->
  exists rows, kernel p c z ell = Ok rows /\ length rows = length (bins_of p) /\
  forall k, (k < length (bins_of p))%nat -> nth k rows [] = map (tracer_kernel p k c ell) z.
Proof. exact probe_formula. Qed.
Print Assumptions C32_without_gamma_partial.
Example C32_case : reachable Planck15 /\ _gamma_growth Planck15 = false /\ probe_ok wl_ex /\ probe_ok wl_ia_ex /\ probe_ok nc_ex.
Proof. exact ex_kernels. Qed.

(** C74 *)
Theorem C74_bin_order : forall c pzs z ell k,
  reachable c -> _gamma_growth c = false -> (k < length pzs)%nat ->
  exists rows, weak_lensing_kernel c pzs z ell = Ok rows /\ length rows = length pzs /\
    nth k rows [] = map (lensing c (zmax_of pzs) (nth_nz pzs k) ell) z.
Proof. exact lensing_order. Qed.
Print Assumptions C74_bin_order.
Theorem C74_empty : forall c z ell,
  _gamma_growth c = false -> weak_lensing_kernel c [] z ell = Err ValueError.
Proof. exact lensing_empty. Qed.
Print Assumptions C74_empty.
Example C74_case : exists rows, weak_lensing_kernel Planck15 [bin2; bin1] [0.5; 1.5] 100 = Ok rows /\
  nth 0 rows [] = map (lensing Planck15 (zmax_of [bin2; bin1]) bin2 100) [0.5; 1.5].
Proof. exact ex_C74. Qed.

(** C75 *)
Theorem C75_signs : forall c pzs z ell rows,
  reachable c -> expanding c -> _gamma_growth c = false -> 0 <= Omega_m c -> 1 <= ell ->
  (forall d, In d pzs -> -1 < nz_zmax d) -> (forall q, In q z -> -1 < q) ->
  weak_lensing_kernel c pzs z ell = Ok rows ->
  forall k i, (k < length pzs)%nat -> (i < length z)%nat -> let d := nth_nz pzs k in
  ((forall z', el z i <= z' <= zmax_of pzs -> 0 <= nz_density d z') -> 0 <= el2 rows k i) /\
  (forall z0, nz_fam d = Delta z0 -> -1 < z0 -> z0 <= el z i -> el2 rows k i = 0) /\
  (is_delta d = false -> zmax_of pzs <= el z i -> el2 rows k i = 0).
Proof. exact lensing_signs. Qed.
Print Assumptions C75_signs.
Example C75_case : reachable Planck15 /\ expanding Planck15 /\ _gamma_growth Planck15 = false /\ 0 <= Omega_m Planck15 /\
  (forall d, In d [bin1; bin2] -> -1 < nz_zmax d) /\ (forall z', 0.5 <= z' <= 3 -> 0 <= nz_density bin1 z') /\ nz_fam bin2 = Delta 1.
Proof. exact ex_C75. Qed.

(** C76 *)
Theorem C76_shear_bias : forall bins m ia se c z ell,
  reachable c -> _gamma_growth c = false -> probe_ok (PWL (WL bins m ia se)) ->
  exists rows, kernel (PWL (WL bins (MScalar 0) ia se)) c z ell = Ok rows /\
    kernel (PWL (WL bins m ia se)) c z ell = Ok (tab (length bins) (fun k => map (Rmult (1 + m_for m k)) (nth k rows []))).
Proof. exact shear_bias. Qed.
Print Assumptions C76_shear_bias.
Theorem C76_formula : forall p c z ell,
  reachable c -> _gamma_growth c = false -> probe_ok p ->
  exists rows, kernel p c z ell = Ok rows /\ length rows = length (bins_of p) /\
  forall k, (k < length (bins_of p))%nat -> nth k rows [] = map (tracer_kernel p k c ell) z.
Proof. exact probe_formula. Qed.
Print Assumptions C76_formula.
Example C76_case : reachable Planck15 /\ _gamma_growth Planck15 = false /\ probe_ok wl_ex /\ probe_ok wl_ia_ex /\ probe_ok nc_ex.
Proof. exact ex_kernels. Qed.

(** C77 *)
Theorem C77_noise : forall p,
  match p with PWL q => sigma_fits (length (wl_bins q)) (wl_sigma_e q) | PNC _ => True end ->
  exists v, noise p = Ok v /\ length v = length (bins_of p) /\
  forall k, (k < length (bins_of p))%nat -> let n_gal := nz_gals (nth_nz (bins_of p) k) * 11818102.86004228 in
    el v k = match p with PWL q => sigma_for (wl_sigma_e q) k ^ 2 / n_gal | PNC _ => 1 / n_gal end /\
    (0 < nz_gals (nth_nz (bins_of p) k) -> match p with PWL q => sigma_for (wl_sigma_e q) k <> 0 | PNC _ => True end -> 0 < el v k).
Proof. exact noise_values. Qed.
Print Assumptions C77_noise.
Example C77_case : exists v, noise wl_ex = Ok v /\ el v 1 = 0.3 ^ 2 / (20 * 11818102.86004228) /\ 0 < el v 1.
Proof. exact ex_C77. Qed.

(** C78 *)
Theorem C78_delta_rejected : forall c pzs ba z ell,
  _gamma_growth c = false ->
  (density_kernel c pzs ba z ell = Err NotImplementedError <-> exists b, In b pzs /\ is_delta b = true) /\
  (nla_kernel c pzs ba z ell = Err NotImplementedError <-> exists b, In b pzs /\ is_delta b = true).
Proof. exact delta_rejected. Qed.
Print Assumptions C78_delta_rejected.
Example C78_case : density_kernel Planck15 [bin1; bin2] (OneBias (constant_linear_bias 1)) [1] 10 = Err NotImplementedError /\
  density_kernel Planck15 [bin1] (OneBias (constant_linear_bias 1)) [1] 10 <> Err NotImplementedError.
Proof. exact ex_C78. Qed.

(** C79 *)
Theorem C79_bounds : forall ell,
  1 <= ell -> 1 - 5 / (2 * (ell + 1 / 2) ^ 2) <= spin2 ell < 1 /\ 0 <= spin2 ell.
Proof. exact spin2_bounds. Qed.
Print Assumptions C79_bounds.
Theorem C79_limit : is_lim spin2 p_infty 1.
Proof. exact spin2_lim. Qed.
Print Assumptions C79_limit.
Theorem C79_enters_kernel : forall c pzs z,
  reachable c -> _gamma_growth c = false -> pzs <> [] ->
  exists base, forall ell, weak_lensing_kernel c pzs z ell = Ok (map (map (Rmult (spin2 ell))) base).
Proof. exact lensing_ell_factor. Qed.
Print Assumptions C79_enters_kernel.
Example C79_case : exists rows, weak_lensing_kernel Planck15 [bin2; bin1] [0.5; 1.5] 100 = Ok rows /\
  nth 0 rows [] = map (lensing Planck15 (zmax_of [bin2; bin1]) bin2 100) [0.5; 1.5].
Proof. exact ex_C74. Qed.

(** C80 *)
Theorem C80_zmax : forall p,
  bins_of p <> [] -> exists zm, probe_zmax p = Ok zm /\
  (exists d, In d (bins_of p) /\ nz_zmax d = zm) /\ forall d, In d (bins_of p) -> nz_zmax d <= zm.
Proof. exact probe_zmax_spec. Qed.
Print Assumptions C80_zmax.
Theorem C80_empty : forall p,
  bins_of p = [] -> probe_zmax p = Err ValueError.
Proof. exact probe_zmax_empty. Qed.
Print Assumptions C80_empty.
Example C80_case : probe_zmax wl_ex = Ok 3.
Proof. exact ex_C80. Qed.

(** C82 *)
Theorem C82_values : forall c z,
  (forall b, bias_at (constant_linear_bias b) c z = b) /\
  (forall b, D c (1 / (1 + z)) <> 0 -> bias_at (inverse_growth_linear_bias b) c z * D c (1 / (1 + z)) = b) /\
  (forall A eta z0, -1 < z -> -1 < z0 -> bias_at (des_y1_ia_bias A eta z0) c z = A * Rpower ((1 + z) / (1 + z0)) eta).
Proof. exact bias_values. Qed.
Print Assumptions C82_values.
Theorem C82_today : forall c,
  reachable c -> _gamma_growth c = true \/ physical c /\ moderate c ->
  forall b, bias_at (inverse_growth_linear_bias b) c 0 = b.
Proof. exact bias_today. Qed.
Print Assumptions C82_today.
Theorem C82_pivot : forall c A eta z0,
  -1 < z0 -> bias_at (des_y1_ia_bias A eta z0) c z0 = A.
Proof. exact ia_pivot. Qed.
Print Assumptions C82_pivot.
Example C82_case : D Planck15 (1 / (1 + 0)) <> 0 /\ reachable Planck15 /\ physical Planck15 /\ moderate Planck15.
Proof. exact ex_C82. Qed.
