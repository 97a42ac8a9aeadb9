(** * Property theorems C66-C70 (power.py, transfer.py) *)
From Coquelicot Require Import Coquelicot.
From Verif Require Import Np IntegrateSpec Core Background BgSpec BgPositive BgGrowth BgFinal2 BgFinal4 Transfer Power PowerSpec PowerProofs TransferProofs PowerFinal ExPower ContFinal.

(** C66: [code_variance] is the variance functional of the specification, the one sigmasqr evaluates *)
Theorem C66_sigma8 : forall c T, reachable c -> _gamma_growth c = true \/ physical c /\ moderate c -> sigmasqr_default c 8.0 T <> 0 ->
  code_variance (fun k => linear_matter_power c k 1 T) 8 0.0001 1000 = _sigma8 c ^ 2 /\
  forall a, code_variance (fun k => linear_matter_power c k a T) 8 0.0001 1000 = _sigma8 c ^ 2 * D c a ^ 2.
Proof. exact sigma8_normalised. Qed.
Print Assumptions C66_sigma8.
Theorem C66_sigma_positive : forall c T, T c (exp (-4)) <> 0 -> 0 < sigmasqr_default c 8.0 T.
Proof. exact sigma8_positive. Qed.
Print Assumptions C66_sigma_positive.
Example C66_case : reachable Planck15 /\ physical Planck15 /\ moderate Planck15 /\ sigmasqr_default Planck15 8.0 eisenhu <> 0.
Proof. exact ex_power_planck. Qed.

(** C67: false.  The integral runs over ln k in [log10 kmin, log10 kmax] *)
Theorem C67_range_refuted : exists c r T kmin kmax, 0 < kmin < kmax /\
  sigmasqr c r T kmin kmax <> RInt (variance_density (fun k => T c k ^ 2 * primordial_matter_power c k) r) (ln kmin) (ln kmax).
Proof. exact sigmasqr_wrong_range. Qed.
Print Assumptions C67_range_refuted.
Theorem C67_actual_range_partial : forall c r T T' kmin kmax, 0 < kmin <= kmax ->
  (forall k, exp (log10 kmin) <= k <= exp (log10 kmax) -> T c k = T' c k) ->
  sigmasqr c r T kmin kmax = sigmasqr c r T' kmin kmax.
Proof. exact sigmasqr_range. Qed.
Print Assumptions C67_actual_range_partial.
Theorem C67_default_range_partial : forall c r T T', (forall k, exp (-4) <= k <= exp 3 -> T c k = T' c k) ->
  sigmasqr_default c r T = sigmasqr_default c r T'.
Proof. exact default_range. Qed.
Print Assumptions C67_default_range_partial.
Theorem C67_value_partial : forall c r T kmin kmax,
  sigmasqr c r T kmin kmax = code_variance (fun k => T c k ^ 2 * primordial_matter_power c k) r kmin kmax.
Proof. exact sigmasqr_variance. Qed.
Print Assumptions C67_value_partial.
Example C67_case : exists T T' : transfer, T Planck15 (1/1000) <> T' Planck15 (1/1000) /\ (forall k, exp (-4) <= k <= exp 3 -> T Planck15 k = T' Planck15 k).
Proof. exact ex_outside. Qed.

(** C68 *)
Theorem C68_scaling : forall c T, reachable c -> _gamma_growth c = true \/ physical c /\ moderate c -> sigmasqr_default c 8.0 T <> 0 ->
  (forall k a, linear_matter_power c k a T = linear_matter_power c k 1 T * D c a ^ 2) /\
  (forall k a, 0 <= linear_matter_power c k a T) /\
  (forall k a, 0 < k -> T c k <> 0 -> D c a <> 0 -> _sigma8 c <> 0 -> 0 < linear_matter_power c k a T) /\
  (forall k a s, s <> 0 -> linear_matter_power c k a (fun c k => s * T c k) = linear_matter_power c k a T).
Proof. exact linear_scaling. Qed.
Print Assumptions C68_scaling.
Theorem C68_shape : forall c T k1 k2 a, 0 < k1 -> 0 < k2 -> sigmasqr_default c 8.0 T <> 0 ->
  linear_matter_power c k1 a T * (Rpower k2 (_n_s c) * T c k2 ^ 2) = linear_matter_power c k2 a T * (Rpower k1 (_n_s c) * T c k1 ^ 2).
Proof. exact linear_tilt. Qed.
Print Assumptions C68_shape.
Theorem C68_no_wiggle_positive : forall c k a, reachable c -> _gamma_growth c = true \/ physical c /\ moderate c -> dense c ->
  0 <= eh_alpha_gamma c -> _sigma8 c <> 0 -> 0 < k -> 0 < D c a -> 0 < linear_matter_power c k a eisenhu.
Proof. exact no_wiggle_power. Qed.
Print Assumptions C68_no_wiggle_positive.
Example C68_case : forall k, 0 < k -> 0 < linear_matter_power Planck15 k 1 eisenhu.
Proof. exact ex_planck_linear. Qed.

(** C69 *)
Theorem C69_takahashi : forall c k a T, 0 < k -> 0 <= linear_matter_power c k a T -> 0 < Omega_m_a c a ->
  exists p, halofit c k a T "takahashi2012" = Ok p /\ 0 < p.
Proof. exact takahashi_dom. Qed.
Print Assumptions C69_takahashi.
Theorem C69_smith : forall c k a T, 0 < k -> 0 <= linear_matter_power c k a T -> 0 < Omega_m_a c a < 1 -> 0 <= Omega_de_a c a <= 1 - Omega_m_a c a ->
  (let n := snd (fst (halofit_parameters c a T)) in
   -1 < (1.3884 + 0.3700 * n - 0.1452 * n ^ 2) * (k ^ 3 * linear_matter_power c k a T / (2 * PI ^ 2))) ->
  exists p, halofit c k a T "smith2003" = Ok p /\ 0 < p.
Proof. exact smith_dom. Qed.
Print Assumptions C69_smith.
Theorem C69_unknown : forall c k a T p, p <> "smith2003"%string -> p <> "takahashi2012"%string -> halofit c k a T p = Err NotImplementedError.
Proof. exact halofit_unknown. Qed.
Print Assumptions C69_unknown.
Example C69_case : forall k, 0 < k -> exists p, halofit Planck15 k 1 eisenhu "takahashi2012" = Ok p /\ 0 < p.
Proof. exact ex_planck_halofit. Qed.
Example C69_case2 : forall k, 0 < k -> (0 <= linear_matter_power Planck15 k 1 eisenhu /\ 0 < Omega_m_a Planck15 1) /\
  exists s, 0 < s /\ 0 <= linear_matter_power (planck_s s) k 1 eisenhu /\ 0 < Omega_m_a (planck_s s) 1 < 1 /\
  0 <= Omega_de_a (planck_s s) 1 <= 1 - Omega_m_a (planck_s s) 1 /\
  (let n := snd (fst (halofit_parameters (planck_s s) 1 eisenhu)) in
   -1 < (1.3884 + 0.3700 * n - 0.1452 * n ^ 2) * (k ^ 3 * linear_matter_power (planck_s s) k 1 eisenhu / (2 * PI ^ 2))).
Proof. exact ex_C112. Qed.

(** C70 *)
Theorem C70_limit : forall c, dense c ->
  filterlim (fun k => match Eisenstein_Hu c k "eisenhu" with Ok t => t | Err _ => 0 end) (at_right 0) (locally 1) /\
  filterlim (fun k => match Eisenstein_Hu c k "eisenhu_osc" with Ok t => t | Err _ => 0 end) (at_right 0) (locally 1).
Proof. exact transfer_limits. Qed.
Print Assumptions C70_limit.
Theorem C70_range : forall c k, dense c -> 0 <= eh_alpha_gamma c -> 0 <= k ->
  exists t, Eisenstein_Hu c k "eisenhu" = Ok t /\ 0 < t <= 1.
Proof. exact transfer_range. Qed.
Print Assumptions C70_range.
Theorem C70_alpha : forall c, dense c -> 1 <= 22.3 * (Omega_m c * _h c ^ 2) -> Omega_m c * _h c ^ 2 <= 0.37 -> 2 * Omega_b c <= Omega_m c ->
  0 <= eh_alpha_gamma c.
Proof. exact alpha_gamma_realistic. Qed.
Print Assumptions C70_alpha.
Theorem C70_unknown : forall c k s, s <> "eisenhu"%string -> s <> "eisenhu_osc"%string -> Eisenstein_Hu c k s = Err NotImplementedError.
Proof. exact transfer_unknown. Qed.
Print Assumptions C70_unknown.
Example C70_case : dense Planck15 /\ 0 <= eh_alpha_gamma Planck15.
Proof. exact ex_planck_alpha. Qed.
