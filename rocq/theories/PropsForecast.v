(** * Property theorems C91-C98: surveys, likelihoods, scalings and limits (angular_cl.py, likelihood.py, sparse.py, power.py, probes.py, background.py) *)
From Coquelicot Require Import Coquelicot.
From Verif Require Import Np NpLemmas Core Interp Background BgSpec DependsSpec BgDepends Transfer Power Redshift Bias Probes ProbesSpec Sparse SparseSpec SparseProofs MxBridge SparseXProofs DetSpec Likelihood LikelihoodSpec
  LikelihoodProofs ExLikelihood AngularCl CovSpec CovPsd CovFinal AclSpec AclFinal ExCov ExPower ExProbes Forecast Forecast2 ExForecast SparseLaws AmpScale HalofitLimit SourceOrder ExScaling.


(** C91  further probes leave the numbers of the tracers already there alone *)
Theorem C91_added_probes : forall c ells ps qs T nl f_sky mean s3 mean' s3' N N',
  reachable c -> _gamma_growth c = false -> probes_ok ps -> noise_total ps ->
  (forall q, In q qs -> probe_ok q) -> noise_total qs -> (forall q, In q qs -> zmax_of (bins_of q) <= survey_zmax ps) ->
  (2 <= length ells)%nat -> (forall l, (l < length ells)%nat -> knox_norm ells f_sky l <> 0) ->
  gaussian_cl_covariance_and_mean c (Array1 ells) ps T nl f_sky true = Ok (mean, A3 N N (length ells) s3) ->
  gaussian_cl_covariance_and_mean c (Array1 ells) (ps ++ qs) T nl f_sky true = Ok (mean', A3 N' N' (length ells) s3') ->
  forall s t i j m k s' t' l, nth_error (get_cl_ordering ps) s = Some (i, j) -> nth_error (get_cl_ordering ps) t = Some (m, k) ->
    nth_error (get_cl_ordering (ps ++ qs)) s' = Some (i, j) -> nth_error (get_cl_ordering (ps ++ qs)) t' = Some (m, k) -> (l < length ells)%nat ->
    el mean' (s' * length ells + l) = el mean (s * length ells + l) /\ el3 s3' s' t' l = el3 s3 s t l.
Proof. exact added_probes. Qed.
Print Assumptions C91_added_probes.
Theorem C91_pairs_kept : forall ps qs s i j,
  nth_error (get_cl_ordering ps) s = Some (i, j) -> exists s', nth_error (get_cl_ordering (ps ++ qs)) s' = Some (i, j).
Proof. exact pair_kept. Qed.
Print Assumptions C91_pairs_kept.
Example C91_case : (exists mean s3 mean' s3',
    gaussian_cl_covariance_and_mean Planck15 (Array1 ell3) probes2 eisenhu halofit_default 0.25 true = Ok (mean, A3 3 3 3 s3) /\
    gaussian_cl_covariance_and_mean Planck15 (Array1 ell3) (probes2 ++ [nc_ex]) eisenhu halofit_default 0.25 true = Ok (mean', A3 6 6 3 s3')) /\
  probes_ok probes2 /\ noise_total probes2 /\ probe_ok nc_ex /\ noise_total [nc_ex] /\ zmax_of (bins_of nc_ex) <= survey_zmax probes2 /\
  nth_error (get_cl_ordering probes2) 2 = Some (1, 1)%nat /\ nth_error (get_cl_ordering (probes2 ++ [nc_ex])) 3 = Some (1, 1)%nat.
Proof. exact ex_C91. Qed.


(** C92  amplitudes: power spectrum, galaxy bias, shear calibration, sigma8 *)
Theorem C92_power : forall c ells probes T nl nl' s rows rows',
  reachable c -> _gamma_growth c = false -> probes_ok probes ->
  (forall k a, nl' c k a T = s * nl c k a T) ->
  angular_cl c (Array1 ells) probes T nl = Ok rows -> angular_cl c (Array1 ells) probes T nl' = Ok rows' ->
  forall r l, (r < length (get_cl_ordering probes))%nat -> (l < length ells)%nat -> el2 rows' r l = s * el2 rows r l.
Proof. exact power_scaling. Qed.
Print Assumptions C92_power.
Theorem C92_galaxy_bias : forall c ells ps qs bins b s T nl rows rows',
  reachable c -> _gamma_growth c = false ->
  probes_ok (ps ++ PNC (NC bins (OneBias (constant_linear_bias b))) :: qs) ->
  angular_cl c (Array1 ells) (ps ++ PNC (NC bins (OneBias (constant_linear_bias b))) :: qs) T nl = Ok rows ->
  angular_cl c (Array1 ells) (ps ++ PNC (NC bins (OneBias (constant_linear_bias (s * b)))) :: qs) T nl = Ok rows' ->
  forall r i j l, nth_error (get_cl_ordering (ps ++ PNC (NC bins (OneBias (constant_linear_bias b))) :: qs)) r = Some (i, j) -> (l < length ells)%nat ->
    el2 rows' r l = bin_factor ps (length bins) s i * bin_factor ps (length bins) s j * el2 rows r l.
Proof. exact bias_scaling. Qed.
Print Assumptions C92_galaxy_bias.
Theorem C92_shear_calibration : forall c ells ps qs bins m m' ia se s T nl rows rows',
  reachable c -> _gamma_growth c = false -> 1 + m' = s * (1 + m) ->
  probes_ok (ps ++ PWL (WL bins (MScalar m) ia se) :: qs) ->
  angular_cl c (Array1 ells) (ps ++ PWL (WL bins (MScalar m) ia se) :: qs) T nl = Ok rows ->
  angular_cl c (Array1 ells) (ps ++ PWL (WL bins (MScalar m') ia se) :: qs) T nl = Ok rows' ->
  forall r i j l, nth_error (get_cl_ordering (ps ++ PWL (WL bins (MScalar m) ia se) :: qs)) r = Some (i, j) -> (l < length ells)%nat ->
    el2 rows' r l = bin_factor ps (length bins) s i * bin_factor ps (length bins) s j * el2 rows r l.
Proof. exact shear_scaling. Qed.
Print Assumptions C92_shear_calibration.
Theorem C92_sigma8_power : forall c d T k a,
  reachable c -> reachable d -> same_but_sigma8 c d -> (forall k, T c k = T d k) ->
  linear_matter_power d k a T * _sigma8 c ^ 2 = linear_matter_power c k a T * _sigma8 d ^ 2.
Proof. exact sigma8_linear. Qed.
Print Assumptions C92_sigma8_power.
Theorem C92_sigma8 : forall c d ells probes T rows rows',
  reachable c -> reachable d -> same_but_sigma8 c d -> (forall k, T c k = T d k) ->
  _gamma_growth c = false -> probes_ok probes ->
  angular_cl c (Array1 ells) probes T linear = Ok rows -> angular_cl d (Array1 ells) probes T linear = Ok rows' ->
  forall r l, (r < length (get_cl_ordering probes))%nat -> (l < length ells)%nat -> el2 rows' r l * _sigma8 c ^ 2 = el2 rows r l * _sigma8 d ^ 2.
Proof. exact sigma8_scaling. Qed.
Print Assumptions C92_sigma8.
Example C92_case_power : exists rows rows', angular_cl Planck15 (Array1 ell3) probes3 eisenhu halofit_default = Ok rows /\
  angular_cl Planck15 (Array1 ell3) probes3 eisenhu (fun c k a T => 2 * halofit_default c k a T) = Ok rows' /\ el2 rows' 4 2 = 2 * el2 rows 4 2.
Proof. exact ex_C92_power. Qed.
Example C92_case_bias : exists rows rows', angular_cl Planck15 (Array1 ell3) [wl_ex; PNC (NC [bin1] (OneBias (constant_linear_bias 1.5)))] eisenhu halofit_default = Ok rows /\
  angular_cl Planck15 (Array1 ell3) [wl_ex; PNC (NC [bin1] (OneBias (constant_linear_bias (2 * 1.5))))] eisenhu halofit_default = Ok rows' /\
  el2 rows' 5 0 = 4 * el2 rows 5 0 /\ el2 rows' 4 0 = 2 * el2 rows 4 0 /\ el2 rows' 3 0 = el2 rows 3 0.
Proof. exact ex_C92_bias. Qed.
Example C92_case_sigma8 : reachable Planck15 /\ reachable planck_s8 /\ same_but_sigma8 Planck15 planck_s8 /\ _sigma8 Planck15 <> _sigma8 planck_s8 /\
  (forall k, eisenhu Planck15 k = eisenhu planck_s8 k) /\ exists rows', angular_cl planck_s8 (Array1 ell3) probes3 eisenhu linear = Ok rows'.
Proof. exact ex_C92_sigma8. Qed.


(** C93  more noise: larger covariance, smaller chi^2; [tracer_noise ps i] is what noise() returns for tracer i *)
Theorem C93_covariance : forall ell ps qs sig noi noi' f_sky S,
  n_bins qs = n_bins ps -> noise_total ps -> noise_total qs -> (forall i, (i < n_bins ps)%nat -> 0 <= tracer_noise ps i <= tracer_noise qs i) ->
  (2 <= length ell)%nat -> wf2 (length (get_cl_ordering ps)) (length ell) sig -> spectra_of (get_cl_ordering ps) sig S ->
  (forall l, (l < length ell)%nat -> psdf (n_bins ps) (fun i j => S i j l)) ->
  (forall l, (l < length ell)%nat -> 0 < knox_norm ell f_sky l) ->
  noise_cl (length ell) ps = Ok noi -> noise_cl (length ell) qs = Ok noi' ->
  exists d m m', gaussian_cl_covariance (Array1 ell) ps sig noi f_sky false = Ok (A2 d d m) /\
    gaussian_cl_covariance (Array1 ell) qs sig noi' f_sky false = Ok (A2 d d m') /\ forall x, quad d m x <= quad d m' x.
Proof. exact more_noise. Qed.
Print Assumptions C93_covariance.
Theorem C93_likelihood : forall la ell ps qs sig noi noi' f_sky S data mu,
  linalg_ok la ->
  n_bins qs = n_bins ps -> noise_total ps -> noise_total qs -> (forall i, (i < n_bins ps)%nat -> 0 < tracer_noise ps i <= tracer_noise qs i) ->
  (2 <= length ell)%nat -> wf2 (length (get_cl_ordering ps)) (length ell) sig -> spectra_of (get_cl_ordering ps) sig S ->
  (forall l, (l < length ell)%nat -> psdf (n_bins ps) (fun i j => S i j l)) ->
  (forall l, (l < length ell)%nat -> 0 < knox_norm ell f_sky l) ->
  noise_cl (length ell) ps = Ok noi -> noise_cl (length ell) qs = Ok noi' ->
  length data = (length ell * length (get_cl_ordering ps))%nat -> length mu = length data ->
  exists C C' v v', gaussian_cl_covariance (Array1 ell) ps sig noi f_sky false = Ok C /\ gaussian_cl_covariance (Array1 ell) qs sig noi' f_sky false = Ok C' /\
    gaussian_log_likelihood la data mu C false "inverse" = Ok v /\ gaussian_log_likelihood la data mu C' false "inverse" = Ok v' /\ v <= v'.
Proof. exact more_noise_likelihood. Qed.
Print Assumptions C93_likelihood.
Example C93_case : n_bins [wl_thin] = n_bins probes2 /\ noise_total probes2 /\ noise_total [wl_thin] /\
  (forall i, (i < n_bins probes2)%nat -> 0 < tracer_noise probes2 i <= tracer_noise [wl_thin] i) /\
  wf2 (length (get_cl_ordering probes2)) (length ell3) sig3 /\ spectra_of (get_cl_ordering probes2) sig3 sig_pair /\
  (forall l, (l < length ell3)%nat -> psdf (n_bins probes2) (fun i j => sig_pair i j l)) /\
  (forall l, (l < length ell3)%nat -> 0 < knox_norm ell3 0.25 l) /\
  (exists noi noi', noise_cl (length ell3) probes2 = Ok noi /\ noise_cl (length ell3) [wl_thin] = Ok noi') /\ linalg_ok la_mx.
Proof. exact ex_C93. Qed.


(** C94  covariance_and_mean fed into the likelihood *)
Theorem C94_forecast : forall la c ells probes T nl f_sky,
  linalg_ok la ->
  reachable c -> _gamma_growth c = false -> probes_ok probes -> noise_positive probes ->
  (forall p d, In p probes -> In d (bins_of p) -> 0 <= nz_zmax d) ->
  (forall l a, (l < length ells)%nat -> 1 / (1 + survey_zmax probes) <= a <= 1 -> 0 <= nl c ((el ells l + 1 / 2) / Rmax (chi c a) 1) a T) ->
  (2 <= length ells)%nat -> (forall l, (l < length ells)%nat -> 0 < knox_norm ells f_sky l) ->
  exists mean sp de,
    gaussian_cl_covariance_and_mean c (Array1 ells) probes T nl f_sky true = Ok (mean, sp) /\
    gaussian_cl_covariance_and_mean c (Array1 ells) probes T nl f_sky false = Ok (mean, de) /\
    forall data include_logdet method, length data = length mean -> exists v,
      gaussian_log_likelihood la data mean sp include_logdet method = Ok v /\
      gaussian_log_likelihood la data mean de include_logdet "inverse" = Ok v /\
      gaussian_log_likelihood la data mean de include_logdet "cholesky" = Ok v /\
      (include_logdet = false -> v <= 0 /\ (v = 0 <-> data = mean)).
Proof. exact forecast_likelihood. Qed.
Print Assumptions C94_forecast.
Example C94_case : exists mean sp, gaussian_cl_covariance_and_mean Planck15 (Array1 ell3) probes3 eisenhu halofit_default 0.25 true = Ok (mean, sp) /\
  gaussian_log_likelihood la_mx mean mean sp false "inverse" = Ok 0.
Proof. exact ex_C94. Qed.


(** C95  algebra of sparse products and inverses *)
Theorem C95_involution : forall linv a n s,
  linv_ok linv -> wf3 a a n s -> slices_invertible a n s ->
  exists t, inv linv (A3 a a n s) = Ok t /\ inv linv t = Ok (A3 a a n s).
Proof. exact inv_involutive. Qed.
Print Assumptions C95_involution.
Theorem C95_associative : forall a b d e n s1 s2 s3,
  wf3 a b n s1 -> wf3 b d n s2 -> wf3 d e n s3 ->
  exists p q r, dot [A3 a b n s1; A3 b d n s2] = Ok p /\ dot [A3 b d n s2; A3 d e n s3] = Ok q /\ dot [p; A3 d e n s3] = Ok r /\ dot [A3 a b n s1; q] = Ok r.
Proof. exact dot_assoc. Qed.
Print Assumptions C95_associative.
Theorem C95_product : forall linv a n s1 s2,
  linv_ok linv -> wf3 a a n s1 -> wf3 a a n s2 -> slices_invertible a n s1 -> slices_invertible a n s2 ->
  exists p i1 i2 t, dot [A3 a a n s1; A3 a a n s2] = Ok p /\ inv linv (A3 a a n s1) = Ok i1 /\ inv linv (A3 a a n s2) = Ok i2 /\
    inv linv p = Ok t /\ dot [i2; i1] = Ok t.
Proof. exact inv_product. Qed.
Print Assumptions C95_product.
Theorem C95_solve : forall linv a n s v,
  linv_ok linv -> wf3 a a n s -> slices_invertible a n s -> wf1 (a * n) v ->
  exists t w, inv linv (A3 a a n s) = Ok t /\ dot [t; A1 (a * n) v] = Ok w /\ dot [A3 a a n s; w] = Ok (A1 (a * n) v).
Proof. exact inv_solves. Qed.
Print Assumptions C95_solve.
Example C95_case : linv_ok linv_mx /\ wf3 2 2 1 swapmat /\ slices_invertible 2 1 swapmat /\ wf3 2 2 1 [[[2]; [1]]; [[1]; [3]]] /\ slices_invertible 2 1 [[[2]; [1]]; [[1]; [3]]] /\ wf1 (2 * 1) [7; 8].
Proof. exact ex_C95. Qed.


(** C96  halofit on large scales *)
Theorem C96_large_scales : forall c a T,
  0 < Omega_m_a c a <= 1 -> -3 < _n_s c < 1 -> D c a <> 0 -> _sigma8 c <> 0 -> 0 < sigmasqr_default c 8.0 T ->
  (forall k, 0 < k -> T c k <> 0) -> filterlim (T c) (at_right 0) (locally 1) ->
  filterlim (fun k => halofit_default c k a T / linear_matter_power c k a T) (at_right 0) (locally 1) /\
  (Omega_m_a c a < 1 -> 0 <= Omega_de_a c a / (1 - Omega_m_a c a) <= 1 ->
   filterlim (fun k => match halofit c k a T "smith2003" with Ok p => p | Err _ => 0 end / linear_matter_power c k a T) (at_right 0) (locally 1)).
Proof. exact halofit_large_scales. Qed.
Print Assumptions C96_large_scales.
Example C96_case : 0 < Omega_m_a Planck15 1 <= 1 /\ -3 < _n_s Planck15 < 1 /\ D Planck15 1 <> 0 /\ _sigma8 Planck15 <> 0 /\ 0 < sigmasqr_default Planck15 8.0 eisenhu /\
  (forall k, 0 < k -> eisenhu Planck15 k <> 0) /\ filterlim (eisenhu Planck15) (at_right 0) (locally 1) /\
  filterlim (fun k => halofit_default Planck15 k 1 eisenhu / linear_matter_power Planck15 k 1 eisenhu) (at_right 0) (locally 1).
Proof. exact ex_C96. Qed.


(** C97  sources farther away are lensed more *)
Theorem C97_kernel : forall c pzs z ell rows,
  reachable c -> expanding c -> _gamma_growth c = false -> 0 <= Omega_m c -> 1 <= ell ->
  (forall q, In q z -> -1 < q) -> weak_lensing_kernel c pzs z ell = Ok rows ->
  forall k k' i z1 z2, (k < length pzs)%nat -> (k' < length pzs)%nat -> (i < length z)%nat ->
    nz_fam (nth_nz pzs k) = Delta z1 -> nz_fam (nth_nz pzs k') = Delta z2 -> -1 < z1 -> z1 <= z2 -> 0 <= el2 rows k i <= el2 rows k' i.
Proof. exact kernel_source_order. Qed.
Print Assumptions C97_kernel.
Theorem C97_spectrum : forall c ells bins m se T nl rows,
  reachable c -> expanding c -> _gamma_growth c = false -> 0 <= Omega_m c ->
  bins <> [] -> (forall d, In d bins -> exists z0, nz_fam d = Delta z0 /\ -1 < z0) -> (forall d, In d bins -> 0 <= nz_zmax d) ->
  (forall l, (l < length ells)%nat -> 1 <= el ells l) ->
  (forall l a, (l < length ells)%nat -> 1 / (1 + zmax_of bins) <= a <= 1 -> 0 <= nl c ((el ells l + 1 / 2) / Rmax (chi c a) 1) a T) ->
  angular_cl c (Array1 ells) [PWL (WL bins (MScalar m) None se)] T nl = Ok rows ->
  forall r r' i j i' j' zi zj zi' zj' l, nth_error (get_cl_ordering [PWL (WL bins (MScalar m) None se)]) r = Some (i, j) ->
    nth_error (get_cl_ordering [PWL (WL bins (MScalar m) None se)]) r' = Some (i', j') -> (l < length ells)%nat ->
    nz_fam (nth_nz bins i) = Delta zi -> nz_fam (nth_nz bins j) = Delta zj -> nz_fam (nth_nz bins i') = Delta zi' -> nz_fam (nth_nz bins j') = Delta zj' ->
    zi <= zi' -> zj <= zj' -> 0 <= el2 rows r l <= el2 rows r' l.
Proof. exact spectrum_source_order. Qed.
Print Assumptions C97_spectrum.
Example C97_case : exists rows, angular_cl Planck15 (Array1 ell3) [PWL (WL [near; far] (MScalar 0.1) None (SScalar 0.26))] eisenhu halofit_default = Ok rows /\
  0 <= el2 rows 0 1 <= el2 rows 1 1 /\ el2 rows 1 1 <= el2 rows 2 1.
Proof. exact ex_C97. Qed.


(** C98  what the background and the transfer functions depend on *)
Theorem C98_background : forall c d,
  reachable c -> reachable d -> same_background c d ->
  (forall k, fst (run1 k c) = fst (run1 k d)) /\
  forall a, w c a = w d a /\ f_de c a = f_de d a /\ Esqr c a = Esqr d a /\ H c a = H d a /\ Omega_m_a c a = Omega_m_a d a /\ Omega_de_a c a = Omega_de_a d a /\ dchioverda c a = dchioverda d a.
Proof. exact background_depends. Qed.
Print Assumptions C98_background.
Theorem C98_transfer : forall c d k,
  _Omega_c c = _Omega_c d -> _Omega_b c = _Omega_b d -> _h c = _h d -> eisenhu c k = eisenhu d k.
Proof. exact eisenhu_depends. Qed.
Print Assumptions C98_transfer.
Theorem C98_transfer_osc : forall c d k,
  _Omega_c c = _Omega_c d -> _Omega_b c = _Omega_b d -> _h c = _h d -> eisenhu_osc c k = eisenhu_osc d k.
Proof. exact eisenhu_osc_depends. Qed.
Print Assumptions C98_transfer_osc.
Example C98_case : reachable Planck15 /\ reachable planck_other /\ same_background Planck15 planck_other /\
  _h Planck15 <> _h planck_other /\ _n_s Planck15 <> _n_s planck_other /\ _sigma8 Planck15 <> _sigma8 planck_other /\ _Omega_b Planck15 <> _Omega_b planck_other.
Proof. exact ex_C98. Qed.
