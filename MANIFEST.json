{
 "claims": [
  {
   "property": "C01",
   "status": "proved",
   "theorems": [
    "C01_to_dense",
    "C01_not_sparse"
   ],
   "note": ""
  },
  {
   "property": "C02",
   "status": "proved",
   "theorems": [
    "C02_sparse_dot_vec",
    "C02_vec_dot_sparse"
   ],
   "note": ""
  },
  {
   "property": "C03",
   "status": "proved",
   "theorems": [
    "C03_sparse_dot_dense",
    "C03_dense_dot_sparse"
   ],
   "note": ""
  },
  {
   "property": "C04",
   "status": "proved",
   "theorems": [
    "C04_sparse_dot_sparse"
   ],
   "note": ""
  },
  {
   "property": "C05",
   "status": "partial",
   "theorems": [
    "C05_dot_never_wrong_refuted",
    "C05_right_iff_same_block_size"
   ],
   "note": "False as stated: two sparse operands with different block sizes can pass the size check and broadcast silently; refuted with a witness. For equal block sizes C04 holds."
  },
  {
   "property": "C06",
   "status": "proved",
   "theorems": [
    "C06_bilinear"
   ],
   "note": ""
  },
  {
   "property": "C07",
   "status": "proved",
   "theorems": [
    "C07_argument_count",
    "C07_rank",
    "C07_inner_mismatch",
    "C07_three_rank",
    "C07_three_mismatch",
    "C07_accepts"
   ],
   "note": ""
  },
  {
   "property": "C08",
   "status": "proved",
   "theorems": [
    "C08_inv",
    "C08_inv_not_square",
    "C08_inv_not_sparse"
   ],
   "note": "np.linalg.inv is an oracle assumed to return the inverse of every invertible matrix (linv_ok); existence of such an oracle is proved (linv_mx_ok)."
  },
  {
   "property": "C09",
   "status": "proved",
   "theorems": [
    "C09_slogdet",
    "C09_positive_definite"
   ],
   "note": "Same oracle as C08. Determinant is mathcomp's \\det."
  },
  {
   "property": "C10",
   "status": "partial",
   "theorems": [
    "C10_det_refuted",
    "C10_zero_pivot"
   ],
   "note": "False as stated: a zero trailing pivot makes det 0 or NaN; refuted on the 2x2 exchange matrix for every np.linalg.inv. C09 gives the true statement (all trailing blocks invertible, e.g. every positive definite matrix)."
  },
  {
   "property": "C11",
   "status": "proved",
   "theorems": [
    "C11_representation_independent"
   ],
   "note": "np.linalg.inv, np.linalg.slogdet and cho_solve are oracles assumed to meet their documented specification (linalg_ok); existence of such a library is proved (la_mx_ok)."
  },
  {
   "property": "C12",
   "status": "proved",
   "theorems": [
    "C12_cholesky_eq_inverse",
    "C12_unknown_method_rejected",
    "C12_method_ignored_sparse"
   ],
   "note": "np.linalg.inv, np.linalg.slogdet and cho_solve are oracles assumed to meet their documented specification (linalg_ok); existence of such a library is proved (la_mx_ok)."
  },
  {
   "property": "C13",
   "status": "proved",
   "theorems": [
    "C13_value",
    "C13_value_sparse",
    "C13_symmetric",
    "C13_maximum_at_mean"
   ],
   "note": "np.linalg.inv, np.linalg.slogdet and cho_solve are oracles assumed to meet their documented specification (linalg_ok); existence of such a library is proved (la_mx_ok)."
  },
  {
   "property": "C14",
   "status": "partial",
   "theorems": [
    "C14_log_density_refuted",
    "C14_error_is_logdet",
    "C14_actual_value"
   ],
   "note": "False as stated: likelihood.py 61 subtracts the log-determinant inside -1/2(...), so it enters with the wrong sign. Refuted with a witness; C14_actual_value and C14_error_is_logdet give the exact value and the exact error for every positive definite covariance. np.linalg.inv, np.linalg.slogdet and cho_solve are oracles assumed to meet their documented specification (linalg_ok); existence of such a library is proved (la_mx_ok)."
  },
  {
   "property": "C15",
   "status": "proved",
   "theorems": [
    "C15_ordering"
   ],
   "note": ""
  },
  {
   "property": "C16",
   "status": "proved",
   "theorems": [
    "C16_blocks"
   ],
   "note": ""
  },
  {
   "property": "C17",
   "status": "proved",
   "theorems": [
    "C17_noise"
   ],
   "note": ""
  },
  {
   "property": "C18",
   "status": "proved",
   "theorems": [
    "C18_knox"
   ],
   "note": "Normalisation assumed non-zero (division by zero is not modelled)."
  },
  {
   "property": "C19",
   "status": "proved",
   "theorems": [
    "C19_sparse_is_dense"
   ],
   "note": ""
  },
  {
   "property": "C20",
   "status": "proved",
   "theorems": [
    "C20_symmetric"
   ],
   "note": ""
  },
  {
   "property": "C21",
   "status": "proved",
   "theorems": [
    "C21_psd",
    "C21_pd"
   ],
   "note": ""
  },
  {
   "property": "C22",
   "status": "partial",
   "theorems": [
    "C22_single_multipole_refuted",
    "C22_always_rejected"
   ],
   "note": "False as stated: np.gradient raises ValueError on a single sample, so every scalar or length-one ell is rejected; refuted with a witness and C22_always_rejected shows it fails for all such inputs."
  },
  {
   "property": "C23",
   "status": "proved",
   "theorems": [
    "C23_f_sky"
   ],
   "note": ""
  },
  {
   "property": "C24",
   "status": "proved",
   "theorems": [
    "C24_pairs",
    "C24_reorder"
   ],
   "note": "The spec uses 512-panel Simpson over the scale factor, which is what the code computes."
  },
  {
   "property": "C25",
   "status": "proved",
   "theorems": [
    "C25_psd",
    "C25_default_power"
   ],
   "note": ""
  },
  {
   "property": "C26",
   "status": "proved",
   "theorems": [
    "C26_layout",
    "C26_mean_lacks_noise"
   ],
   "note": "The mean is the noiseless signal although the docstring announces signal + noise; C26_mean_lacks_noise states the strict difference in every auto-spectrum."
  },
  {
   "property": "C27",
   "status": "proved",
   "theorems": [
    "C27_roundtrip",
    "C27_idempotent"
   ],
   "note": ""
  },
  {
   "property": "C28",
   "status": "partial",
   "theorems": [
    "C28_gamma_refuted",
    "C28_gamma_always_raises"
   ],
   "note": "False of the code: tree_unflatten of a cosmology carrying gamma always raises AttributeError (list.reverse() returns None).  Refuted with a witness; C28_gamma_always_raises characterises every case."
  },
  {
   "property": "C29",
   "status": "proved",
   "theorems": [
    "C29_roundtrip",
    "C29_fields",
    "C29_distributions",
    "C29_biases",
    "C29_flatten_unflatten"
   ],
   "note": "Covers every object any sequence of constructor calls (and evaluations of redshift distributions) can produce, nested arbitrarily; only the cached normalisation is reset. Also shows the nz_jit used in the probe model is exactly this round trip."
  },
  {
   "property": "C30",
   "status": "partial",
   "theorems": [
    "C30_weak_lensing_refuted",
    "C30_multiplicative_bias_lost",
    "C30_biases_exchanged",
    "C30_even_trips",
    "C30_bins_and_config_partial"
   ],
   "note": "False: WeakLensing.__init__(redshift_bins, ia_bias, multiplicative_bias) stores params (bins, m[, ia]) and tree_unflatten passes them back positionally, so m is read as ia_bias. Proved for all bins and biases: m becomes 0 (or the two biases are exchanged); class, configuration and bins survive."
  },
  {
   "property": "C31",
   "status": "proved",
   "theorems": [
    "C31_spline_pytree"
   ],
   "note": "Proved for every spline any constructor call returns (computed or supplied coefficients); the unflattening side's solver is arbitrary, so coefficients are not recomputed."
  },
  {
   "property": "C32",
   "status": "partial",
   "theorems": [
    "C32_gamma_kernel_refuted",
    "C32_gamma_always_raises",
    "C32_without_gamma_partial"
   ],
   "note": "False as stated: @jit kernels rebuild the cosmology with tree_unflatten, which raises AttributeError for every cosmology with gamma. Proved: it always raises; without gamma each usable probe returns its documented rows."
  },
  {
   "property": "C33",
   "status": "proved",
   "theorems": [
    "C33_history_independent"
   ],
   "note": "All six background calls, any history."
  },
  {
   "property": "C34",
   "status": "partial",
   "theorems": [
    "C34_requested_table_partial",
    "C34_table_parameters_refuted"
   ],
   "note": "False in general: the cached first table is reused (refuted with a witness). Proved: with no earlier distance call the requested table is used."
  },
  {
   "property": "C35",
   "status": "proved",
   "theorems": [
    "C35_history",
    "C35_densities"
   ],
   "note": ""
  },
  {
   "property": "C36",
   "status": "proved",
   "theorems": [
    "C36_fractions"
   ],
   "note": ""
  },
  {
   "property": "C37",
   "status": "proved",
   "theorems": [
    "C37_today"
   ],
   "note": ""
  },
  {
   "property": "C38",
   "status": "proved",
   "theorems": [
    "C38_dark_energy"
   ],
   "note": ""
  },
  {
   "property": "C39",
   "status": "proved",
   "theorems": [
    "C39_positivity"
   ],
   "note": ""
  },
  {
   "property": "C40",
   "status": "proved",
   "theorems": [
    "C40_distance",
    "C40_simpson",
    "C40_hubble"
   ],
   "note": "Includes the Simpson formula for node differences."
  },
  {
   "property": "C41",
   "status": "proved",
   "theorems": [
    "C41_transverse"
   ],
   "note": ""
  },
  {
   "property": "C42",
   "status": "proved",
   "theorems": [
    "C42_normalised",
    "C42_at_one"
   ],
   "note": "growth_nonzero is discharged for gamma growth and for physical, moderate cosmologies (C42_at_one)."
  },
  {
   "property": "C43",
   "status": "proved",
   "theorems": [
    "C43_eds"
   ],
   "note": ""
  },
  {
   "property": "C44",
   "status": "proved",
   "theorems": [
    "C44_gamma"
   ],
   "note": ""
  },
  {
   "property": "C45",
   "status": "partial",
   "theorems": [
    "C45_scalar_partial",
    "C45_growth_raises",
    "C45_rate_raises",
    "C45_scalar_refuted"
   ],
   "note": "False: growth_factor always, and growth_rate with the ODE growth, raise ValueError on a scalar (interp indexes its argument). Proved: the distances and the gamma growth_rate accept a scalar and return a one-element array."
  },
  {
   "property": "C46",
   "status": "proved",
   "theorems": [
    "C46_inverse"
   ],
   "note": ""
  },
  {
   "property": "C47",
   "status": "partial",
   "theorems": [
    "C47_nodes_partial",
    "C47_error_partial",
    "C47_interpolant_refuted"
   ],
   "note": "False: between nodes a_of_chi may use the line of an adjacent cell (witness: Milne cosmology). Proved: exact at table nodes; error bound between nodes."
  },
  {
   "property": "C48",
   "status": "partial",
   "theorems": [
    "C48_increasing_partial",
    "C48_first_cell_refuted"
   ],
   "note": "False on the first cell, where the line of the second cell is used (witness). Proved: right on all other cells and stated extrapolation."
  },
  {
   "property": "C49",
   "status": "partial",
   "theorems": [
    "C49_decreasing_partial",
    "C49_interpolant_refuted"
   ],
   "note": "False: for decreasing grids a neighbouring cell's line may be used (witness). Proved: exact at nodes and error bound inside cells."
  },
  {
   "property": "C50",
   "status": "proved",
   "theorems": [
    "C50_affine"
   ],
   "note": ""
  },
  {
   "property": "C51",
   "status": "proved",
   "theorems": [
    "C51_simpson_sum",
    "C51_cubic_exact"
   ],
   "note": ""
  },
  {
   "property": "C52",
   "status": "proved",
   "theorems": [
    "C52_algebra",
    "C52_odd_rejected"
   ],
   "note": ""
  },
  {
   "property": "C53",
   "status": "proved",
   "theorems": [
    "C53_error"
   ],
   "note": ""
  },
  {
   "property": "C54",
   "status": "proved",
   "theorems": [
    "C54_romberg",
    "C54_divmax_zero"
   ],
   "note": ""
  },
  {
   "property": "C55",
   "status": "proved",
   "theorems": [
    "C55_exact"
   ],
   "note": ""
  },
  {
   "property": "C56",
   "status": "proved",
   "theorems": [
    "C56_rk4",
    "C56_rk4_pair",
    "C56_quadrature",
    "C56_cubic",
    "C56_linear"
   ],
   "note": ""
  },
  {
   "property": "C57",
   "status": "proved",
   "theorems": [
    "C57_through_data"
   ],
   "note": "For every solver meeting solve_ok; strictly increasing x is the only other hypothesis, the rest follows from successful construction."
  },
  {
   "property": "C58",
   "status": "proved",
   "theorems": [
    "C58_smooth"
   ],
   "note": "smooth(k-1): derivatives up to order k-1 exist and are continuous at every real point."
  },
  {
   "property": "C59",
   "status": "proved",
   "theorems": [
    "C59_not_a_knot"
   ],
   "note": "Stated both for the true k-th derivative of the spline and for what derivative(x, k) returns."
  },
  {
   "property": "C60",
   "status": "partial",
   "theorems": [
    "C60_natural_refuted",
    "C60_natural_left_partial"
   ],
   "note": "False: the last row of the natural system reads c_N - c_{N-1} = 0 instead of c_N = 0. Witness x=0,1,2,3, y=0,0,0,1 gives curvature 24/19 at the right end for every correct solver. The left end and the condition actually imposed are proved."
  },
  {
   "property": "C61",
   "status": "proved",
   "theorems": [
    "C61_cubic_system",
    "C61_quadratic_system",
    "C61_any_solver"
   ],
   "note": "Existence and uniqueness by diagonal dominance after eliminating the end unknowns; also any two correct solvers give the same spline."
  },
  {
   "property": "C62",
   "status": "proved",
   "theorems": [
    "C62_polynomials",
    "C62_lines_any_endpoints"
   ],
   "note": "Not-a-knot reproduces degree <= k everywhere; lines are reproduced under every endpoint setting."
  },
  {
   "property": "C63",
   "status": "proved",
   "theorems": [
    "C63_derivative",
    "C63_orders"
   ],
   "note": "Includes the exact set of accepted orders."
  },
  {
   "property": "C64",
   "status": "proved",
   "theorems": [
    "C64_antiderivative",
    "C64_integral"
   ],
   "note": "Derivative of antiderivative holds at every real point, including knots and outside the data; integral equals the Riemann integral."
  },
  {
   "property": "C65",
   "status": "proved",
   "theorems": [
    "C65_validation",
    "C65_unknown_endpoint"
   ],
   "note": "Full characterisation of success and failure, including 0-d inputs; inputs with two or more dimensions are not modelled."
  },
  {
   "property": "C66",
   "status": "proved",
   "theorems": [
    "C66_sigma8",
    "C66_sigma_positive"
   ],
   "note": ""
  },
  {
   "property": "C67",
   "status": "partial",
   "theorems": [
    "C67_range_refuted",
    "C67_actual_range_partial",
    "C67_default_range_partial",
    "C67_value_partial"
   ],
   "note": "False of the code: the integration variable is ln k but the bounds are log10 kmin and log10 kmax, so the range is exp(log10 kmin)..exp(log10 kmax).  Refuted by a flat-density witness; proved is the exact value and that only that narrower range matters."
  },
  {
   "property": "C68",
   "status": "proved",
   "theorems": [
    "C68_scaling",
    "C68_shape",
    "C68_no_wiggle_positive"
   ],
   "note": ""
  },
  {
   "property": "C69",
   "status": "proved",
   "theorems": [
    "C69_takahashi",
    "C69_smith",
    "C69_unknown"
   ],
   "note": "Restated with the positive-fraction hypotheses so that no power of a non-positive number or division by zero is evaluated; the extended-number version is C112."
  },
  {
   "property": "C70",
   "status": "proved",
   "theorems": [
    "C70_limit",
    "C70_range",
    "C70_alpha",
    "C70_unknown"
   ],
   "note": "The range claim (0,1] needs alpha_gamma >= 0, which C70_alpha derives for 1/22.3 <= Omega_m h^2 <= 0.37 and Omega_b <= Omega_m/2; limits hold for all positive densities."
  },
  {
   "property": "C71",
   "status": "proved",
   "theorems": [
    "C71_normalised"
   ],
   "note": "Delta distributions excluded: their norm is the constant 1."
  },
  {
   "property": "C72",
   "status": "proved",
   "theorems": [
    "C72_positive",
    "C72_mean",
    "C72_scale"
   ],
   "note": ""
  },
  {
   "property": "C73",
   "status": "proved",
   "theorems": [
    "C73_shift"
   ],
   "note": ""
  },
  {
   "property": "C74",
   "status": "proved",
   "theorems": [
    "C74_bin_order",
    "C74_empty"
   ],
   "note": ""
  },
  {
   "property": "C75",
   "status": "proved",
   "theorems": [
    "C75_signs"
   ],
   "note": ""
  },
  {
   "property": "C76",
   "status": "proved",
   "theorems": [
    "C76_shear_bias",
    "C76_formula"
   ],
   "note": ""
  },
  {
   "property": "C77",
   "status": "proved",
   "theorems": [
    "C77_noise"
   ],
   "note": ""
  },
  {
   "property": "C78",
   "status": "proved",
   "theorems": [
    "C78_delta_rejected"
   ],
   "note": ""
  },
  {
   "property": "C79",
   "status": "proved",
   "theorems": [
    "C79_bounds",
    "C79_limit",
    "C79_enters_kernel"
   ],
   "note": ""
  },
  {
   "property": "C80",
   "status": "proved",
   "theorems": [
    "C80_zmax",
    "C80_empty"
   ],
   "note": ""
  },
  {
   "property": "C81",
   "status": "proved",
   "theorems": [
    "C81_ode_growth"
   ],
   "note": ""
  },
  {
   "property": "C82",
   "status": "proved",
   "theorems": [
    "C82_values",
    "C82_today",
    "C82_pivot"
   ],
   "note": ""
  },
  {
   "property": "C83",
   "status": "proved",
   "theorems": [
    "C83_positive_definite",
    "C83_noise"
   ],
   "note": "Covers WeakLensing and NumberCounts probes with any number of bins and scalar or per-bin sigma_e."
  },
  {
   "property": "C84",
   "status": "proved",
   "theorems": [
    "C84_the_spline"
   ],
   "note": "Existence and uniqueness at function level."
  },
  {
   "property": "C85",
   "status": "proved",
   "theorems": [
    "C85_bounds",
    "C85_monotone",
    "C85_vs_trapezoid",
    "C85_near_best"
   ],
   "note": "Weights of the general Romberg table shown positive; proved for every divmax >= 1."
  },
  {
   "property": "C86",
   "status": "proved",
   "theorems": [
    "C86_simps",
    "C86_romb"
   ],
   "note": "Proved by uniform continuity; no smoothness assumed."
  },
  {
   "property": "C87",
   "status": "proved",
   "theorems": [
    "C87_hubble_decreasing",
    "C87_matter_fraction",
    "C87_distance_order",
    "C87_more_matter_closer"
   ],
   "note": "reachable = any object obtained from a fresh one by any sequence of cached calls; the distance theorem compares two such objects"
  },
  {
   "property": "C88",
   "status": "proved",
   "theorems": [
    "C88_accuracy",
    "C88_accuracy_lambda",
    "C88_accuracy_node"
   ],
   "note": "RInt is Coquelicot's integral; the first table cell (a below about 1.03e-3) is excluded because the interpolation there extrapolates differently (see C48)"
  },
  {
   "property": "C89",
   "status": "proved",
   "theorems": [
    "C89_differentiable"
   ],
   "note": "derivatives are Coquelicot's is_derive of the modelled functions along straight lines in parameter space"
  },
  {
   "property": "C90",
   "status": "partial",
   "theorems": [
    "C90_curved_partial",
    "C90_flat_refuted",
    "C90_flat_value_partial"
   ],
   "note": "the automatic-differentiation rule modelled is the one for lax.switch only (branch index held fixed, selected branch differentiated exactly). Refuted at Omega_k = 0; C90_flat_value_partial gives the exact missing term chi^3/(6 R_H^2) dOmega_k"
  },
  {
   "property": "C91",
   "status": "proved",
   "theorems": [
    "C91_added_probes",
    "C91_pairs_kept"
   ],
   "note": "Index pairs (i,j) are the tracer pairs of _get_cl_ordering; the theorem covers the sparse covariance, whose dense form is the same matrix by C26."
  },
  {
   "property": "C92",
   "status": "proved",
   "theorems": [
    "C92_power",
    "C92_galaxy_bias",
    "C92_shear_calibration",
    "C92_sigma8_power",
    "C92_sigma8"
   ],
   "note": "bin_factor ps n s i is s for the n tracers that follow those of ps and 1 for the others. The sigma8 law is for nonlinear_fn=linear; halofit is not homogeneous in the power."
  },
  {
   "property": "C93",
   "status": "proved",
   "theorems": [
    "C93_covariance",
    "C93_likelihood"
   ],
   "note": "tracer_noise is the value noise() returns for the tracer (its formula is C77); the likelihood statement leaves out the determinant term, whose sign is wrong in the code (C14)."
  },
  {
   "property": "C94",
   "status": "proved",
   "theorems": [
    "C94_forecast"
   ],
   "note": "Positive noise, non-negative power at the Limber wavenumbers and positive Knox weights are the hypotheses; they hold for the default power spectrum (C25, C83)."
  },
  {
   "property": "C95",
   "status": "proved",
   "theorems": [
    "C95_involution",
    "C95_associative",
    "C95_product",
    "C95_solve"
   ],
   "note": "Inverses of slices come from an oracle for np.linalg.inv specified by linv_ok, which exists (linv_mx)."
  },
  {
   "property": "C96",
   "status": "proved",
   "theorems": [
    "C96_large_scales"
   ],
   "note": "For n_s at or above 3*Omega_m(a)^(-0.0307) - 1 the halo term does not vanish relative to the linear power and the limit is not claimed."
  },
  {
   "property": "C97",
   "status": "proved",
   "theorems": [
    "C97_kernel",
    "C97_spectrum"
   ],
   "note": "Source planes are delta_nz bins; one lensing probe with a common shear calibration and no intrinsic alignments."
  },
  {
   "property": "C98",
   "status": "proved",
   "theorems": [
    "C98_background",
    "C98_transfer",
    "C98_transfer_osc"
   ],
   "note": "run1 ranges over radial_comoving_distance, a_of_chi, transverse and angular diameter distance, growth factor and growth rate with default tables."
  },
  {
   "property": "C99",
   "status": "proved",
   "theorems": [
    "C99_linear_change",
    "C99_reorder"
   ],
   "note": "For inverse_method \"inverse\" and a dense covariance. With the determinant the constant is + ln|det A| because of the sign of the determinant term (see C14); a density would give - ln|det A|."
  },
  {
   "property": "C100",
   "status": "proved",
   "theorems": [
    "C100_multipoles"
   ],
   "note": "trailing_invertible: the recursive Schur complements used by sparse.inv exist (true for every positive definite matrix, C09)."
  },
  {
   "property": "C101",
   "status": "proved",
   "theorems": [
    "C101_precision"
   ],
   "note": ""
  },
  {
   "property": "C102",
   "status": "proved",
   "theorems": [
    "C102_density",
    "C102_peak",
    "C102_shifted_peak"
   ],
   "note": "Values of rpow outside z >= 0 are not claimed."
  },
  {
   "property": "C103",
   "status": "partial",
   "theorems": [
    "C103_shift_compose_partial",
    "C103_shift_refuted"
   ],
   "note": "Refuted for a negative inner shift (Smail(1,2,1), b1 = -1/2, b2 = 1/2, z = 0): redshift.py clips z - bias at zero before calling the parent, so the part moved below zero is replaced by the value at zero. Proved for inner shift >= 0."
  },
  {
   "property": "C104",
   "status": "partial",
   "theorems": [
    "C104_normalisation_refuted",
    "C104_lost_partial"
   ],
   "note": "Refuted for the plane z = 1, shift 1/10, zmax = 10: the un-normalised density of the shifted plane vanishes on all 257 nodes, so its normalisation is 0 and calls divide by zero. Proved for every plane and shift with z0 + b off the nodes."
  },
  {
   "property": "C105",
   "status": "proved",
   "theorems": [
    "C105_linear",
    "C105_halofit",
    "C105_linear_mismatch",
    "C105_halofit_mismatch",
    "C105_unknown_prescription"
   ],
   "note": "Arrays of dimension 0 and 1. Empty arrays and higher dimensions are not modelled. The exception class on a shape mismatch is the model's reading of jax.numpy broadcasting."
  },
  {
   "property": "C106",
   "status": "proved",
   "theorems": [
    "C106_converges",
    "C106_converges_pair",
    "C106_rate"
   ],
   "note": "Convergence with a modulus and a first-order bound; the fourth order of the scheme for smooth right-hand sides is not claimed here (C56 has the scheme itself, C88 the quadrature error)."
  },
  {
   "property": "C107",
   "status": "proved",
   "theorems": [
    "C107_unique_solution",
    "C107_converges",
    "C107_heath"
   ],
   "note": "Existence by Picard iteration, uniqueness by an energy estimate. The limit is in the number of steps with the lower end of the table fixed; no bound is claimed for the default 128 steps. The growth rate is read from the cache the growth factor call left behind, as the code does."
  },
  {
   "property": "C108",
   "status": "proved",
   "theorems": [
    "C108_distance",
    "C108_gamma_growth"
   ],
   "note": "For a cosmology whose cache is empty (C34 describes the effect of a filled cache)."
  },
  {
   "property": "C109",
   "status": "proved",
   "theorems": [
    "C109_lipschitz",
    "C109_background"
   ],
   "note": ""
  },
  {
   "property": "C110",
   "status": "partial",
   "theorems": [
    "C110_continuous_partial",
    "C110_jumps",
    "C110_continuity_refuted"
   ],
   "note": "False as stated: at the midpoint between consecutive table distances the formula switches cell, and the value is continuous there exactly when the two cells have the same slope (C110_jumps). C110_continuity_refuted gives a Milne universe where it jumps. The partial theorem gives continuity everywhere away from the midpoints."
  },
  {
   "property": "C111",
   "status": "partial",
   "theorems": [
    "C111_jumps",
    "C111_cutoff",
    "C111_continuity_refuted"
   ],
   "note": "False as stated: the search interpolates a decreasing variance table at the value one, so the result jumps when the table value half way between two radii crosses one, unless neighbouring cells have equal slope (C111_jumps, an equivalence). C111_continuity_refuted gives Planck parameters and a transfer function cut off at k = 5000."
  },
  {
   "property": "C112",
   "status": "partial",
   "theorems": [
    "C112_takahashi",
    "C112_smith_partial",
    "C112_matter_only",
    "C112_finite_refuted"
   ],
   "note": "takahashi2012 is finite and positive whenever the matter fraction is positive. smith2003 divides zero by zero where the matter fraction is exactly one (Einstein-de Sitter at every a): C112_finite_refuted. The partial theorem covers matter fraction strictly between zero and one with 0 <= Omega_de(a) <= 1 - Omega_m(a), and requires the denominator 1 + alpha_n Delta^2 of the quasi-linear term to be positive."
  },
  {
   "property": "C113",
   "status": "partial",
   "theorems": [
    "C113_transparent_partial",
    "C113_leak",
    "C113_transparency_refuted"
   ],
   "note": "False as stated: the tables are stored on the object while it is being traced, so a table first computed inside a jitted function that captures the object holds tracers and any later use raises UnexpectedTracerError; C113_leak says exactly when, for one such function followed by one call, eager or jitted. The partial theorem: every program in which the tables used by capturing jitted functions were computed before them gives the eager result. The rules for tracers are JAX's and are trusted (Trace.v header)."
  },
  {
   "property": "C114",
   "status": "partial",
   "theorems": [
    "C114_flat_partial",
    "C114_angular",
    "C114_kernel_refuted"
   ],
   "note": "False in curved universes: the kernel is built from radial distances (probes.py 41-49), so it is strictly too large in every open and strictly too small in every closed universe (within the first half turn), and right in flat ones; C114_flat_partial states all three signs. C114_angular ties the distance of the specification to transverse_comoving_distance."
  },
  {
   "property": "C115",
   "status": "proved",
   "theorems": [
    "C115_score",
    "C115_fisher",
    "C115_information"
   ],
   "note": "The parameters enter through the mean; the covariance is fixed. The linear-algebra library is trusted as in C11-C14."
  },
  {
   "property": "C116",
   "status": "proved",
   "theorems": [
    "C116_decreasing",
    "C116_small_scales",
    "C116_power",
    "C116_realistic"
   ],
   "note": "The decrease needs alpha_Gamma <= 1, which holds for every realistic baryon fraction (C116_realistic gives the range) and is exhibited for Planck15."
  },
  {
   "property": "C117",
   "status": "proved",
   "theorems": [
    "C117_wiggles",
    "C117_no_wiggles",
    "C117_physical_densities"
   ],
   "note": "Published formulae are written in EhSpec.v in physical units from the paper's equations; the code works in h units, so the theorem checks every power of h and every coefficient."
  },
  {
   "property": "C118",
   "status": "proved",
   "theorems": [
    "C118_derivatives"
   ],
   "note": "Smoothed variance = the Simpson sum the code uses; derivative statements are exact for that sum."
  },
  {
   "property": "C119",
   "status": "partial",
   "theorems": [
    "C119_takahashi",
    "C119_smith_partial",
    "C119_smith_above",
    "C119_smith_refuted"
   ],
   "note": "takahashi2012 is proved. smith2003 is refuted: power.py:199 uses 0.9585 for the constant of log10 nu_n where Smith et al. (2003) have 0.9589 (coefficients quoted from the paper from memory, there is no network); with that one constant replaced the identity holds (C119_smith_partial) and the code's value exceeds the published one for every k (C119_smith_above)."
  },
  {
   "property": "C120",
   "status": "partial",
   "theorems": [
    "C120_programs",
    "C120_rates",
    "C120_distances_partial",
    "C120_growth_partial",
    "C120_today",
    "C120_today_refuted"
   ],
   "note": "The programs of background.py are transcribed once more over an arbitrary type of numbers (Ad.v); at the reals they are the existing model (C120_programs), at dual numbers they are what jax.jvp runs. Proved for the rates without exception; for distances and growth when the scale factor is not an inner table node or is not varied, below a = 1, and with Omega_k either nonzero or not varied (C90 has the flat case). False at a = 1: the tie of clip(., 0) halves the derivative with respect to a, and it is then the derivative from neither side (C120_today, C120_today_refuted). Tangents of gamma are taken to be zero."
  },
  {
   "property": "C121",
   "status": "proved",
   "theorems": [
    "C121_programs",
    "C121_eisenhu",
    "C121_eisenhu_osc",
    "C121_sigma",
    "C121_linear_power",
    "C121_growth_inside"
   ],
   "note": "Proved for both Eisenstein & Hu forms (the no-wiggle form with a non-negative shape correction, the oscillating form with cold dark matter), for romb and sigmasqr, and for the linear spectrum of any transfer function with a right derivative. The growth factor at fixed a = 1 has the right (zero) derivative although the clip is at its edge there."
  },
  {
   "property": "C122",
   "status": "proved",
   "theorems": [
    "C122_programs",
    "C122_kernel",
    "C122_spectra",
    "C122_linear_spectra",
    "C122_distance_strict"
   ],
   "note": "proved; the dual-number programs are AdProbes.v, shown equal to Probes.v and AngularCl.v at exact reals (C122_programs); redshift distributions, biases and multipoles are constants; with gamma set the kernels raise (C28)"
  },
  {
   "property": "C123",
   "status": "proved",
   "theorems": [
    "C123_programs",
    "C123_scale",
    "C123_halofit",
    "C123_default_model",
    "C123_default_spectra",
    "C123_generic_amplitude"
   ],
   "note": "proved; the dual-number program is AdHalofit.v, shown equal to Power.v at exact reals (C123_programs); C123_case meets every hypothesis of C123_default_spectra with Planck parameters, the Eisenstein-Hu transfer function and a small sigma8 (search answered at the floor), C123_case_inside meets those of C123_default_model with the scale found inside the table"
  },
  {
   "property": "C124",
   "status": "proved",
   "theorems": [
    "C124_programs",
    "C124_dense",
    "C124_sparse",
    "C124_survey",
    "C124_default_survey"
   ],
   "note": "Model: AdLike.v (the programs of likelihood.py, sparse.py and angular_cl.py over a generic number type; C124_programs shows that at exact reals they are the programs of Likelihood.v, Sparse.v and AngularCl.v). The rules jax applies to inv, slogdet and cho_solve are stated in linalg_dual and trusted as the description of jax; that they return derivatives is proved (OracleDeriv.v) from the algebraic specification linalg_ok. C124_dense and C124_sparse give the derivative in closed form (score in AdLikeSpec.v, written with sums only); C124_survey and C124_default_survey go from the eight parameters to the number, for all three routes. linalg_shaped asks that inv and cho_solve return arrays of the right shape on singular matrices too (they do: NaN-filled). Not covered: reverse mode as a program (same derivative mathematically), scale dependence of data or ell."
  },
  {
   "property": "C125",
   "status": "partial",
   "theorems": [
    "C125_gap_partial",
    "C125_density_refuted"
   ],
   "note": "Refuted: likelihood.py 61 subtracts the log-determinant from chi^2 instead of adding it (finding of C14), so the trace term of the gradient has the wrong sign: C125_density_refuted exhibits a variance 1 + t for which the returned gradient is +1/2 and the score of the density is -1/2. C125_gap_partial: for all inputs the returned gradient minus tr(C^-1 C') is the derivative of the log density."
  },
  {
   "property": "C126",
   "status": "proved",
   "theorems": [
    "C126_background",
    "C126_power",
    "C126_spectra",
    "C126_survey",
    "C126_default"
   ],
   "note": "Relational proof over the generic programs of Ad*.v: the value component of the dual run is the run at R. Hypotheses: built c (no cached table); for spectra gamma=None and D<>0 at the Limber epochs, which is where the program equality of C122 holds; linalg_sized for the library oracles."
  },
  {
   "property": "C127",
   "status": "proved",
   "theorems": [
    "C127_background",
    "C127_power",
    "C127_spectra",
    "C127_survey"
   ],
   "note": "No smoothness hypothesis. Proof: one run over values carrying ten tangents, related to every dual run by the linear combination of its tangents. The likelihood needs cho_solve to be linear in its right-hand side (solve_linear); the JVP rules of the linear-algebra library are those of AdLike.v."
  },
  {
   "property": "C128",
   "status": "proved",
   "theorems": [
    "C128_background",
    "C128_power",
    "C128_spectra",
    "C128_survey",
    "C128_grad"
   ],
   "note": "Reverse mode is modelled by numbers that carry a backward pass (AdBack.v); the transposed rule of each primitive, and of inv, slogdet and cho_solve, is trusted as JAX's. C128_grad composes the transposition with C124: the vector jax.grad returns, contracted with any direction, is the derivative of the log-likelihood along it."
  },
  {
   "property": "C129",
   "status": "proved",
   "theorems": [
    "C129_program",
    "C129_modes",
    "C129_routes",
    "C129_survey",
    "C129_curvature"
   ],
   "note": "The likelihood cell and the Fisher cells of docs/notebooks/jax-cosmo-intro.ipynb, over the functions of the package. Second-order rules of the primitives (derivatives of the first-order rules) are trusted, see DESIGN.md. With the log-determinant of the README the statement is false, see C130."
  },
  {
   "property": "C130",
   "status": "partial",
   "theorems": [
    "C130_amplitude_partial",
    "C130_fisher_refuted"
   ],
   "note": "False. For one tracer and linear theory, along sigma8, minus the second derivative of the likelihood with its default include_logdet=True is computed exactly: it misses 4x^2+2x (over sigma8^2, x the signal fraction) per multipole of the information, and it is negative for a noisy survey (refutation), although an information is positive. Without the log-determinant it is exactly the information in the mean (any survey: C129_curvature)."
  },
  {
   "property": "C131",
   "status": "proved",
   "theorems": [
    "C131_redshift",
    "C131_kernel",
    "C131_spectra",
    "C131_linear_spectra",
    "C131_default_spectra",
    "C131_programs"
   ],
   "note": "Every parameter, direction and survey meeting survey_smooth; C131_programs ties the differentiated programs to the model."
  },
  {
   "property": "C132",
   "status": "partial",
   "theorems": [
    "C132_finite_partial",
    "C132_smail",
    "C132_shift",
    "C132_spectra",
    "C132_smail_refuted",
    "C132_shift_refuted"
   ],
   "note": "False for 0 < b < 1: C132_smail and C132_shift show NaN for all such distributions although they are differentiable, C132_spectra every clustering spectrum of such bins. True for exponents of at least 1 (C132_finite_partial). Redshift.py 78, 31-32."
  },
  {
   "property": "C133",
   "status": "proved",
   "theorems": [
    "C133_noise",
    "C133_survey",
    "C133_default_survey",
    "C133_programs",
    "C133_transpose",
    "C133_grad"
   ],
   "note": "Forward and reverse mode over one program; noise moves with the galaxy densities. Oracles as in C128 (solve linear in its right-hand side). Probes are built inside the differentiated function: passing a WeakLensing object with alignments through jax.grad exchanges its arguments (C30)."
  },
  {
   "property": "C134",
   "status": "partial",
   "theorems": [
    "C134_passed",
    "C134_careful_partial",
    "C134_leak",
    "C134_transparency_refuted"
   ],
   "note": "Each jitted function is traced once; vmap and grad are not represented (they leave arrays that do not depend on their inputs concrete). The partial theorem asks for the discipline; C134_leak says exactly when the simplest violation raises."
  },
  {
   "property": "C135",
   "status": "proved",
   "theorems": [
    "C135_background",
    "C135_distances",
    "C135_growth",
    "C135_transfers",
    "C135_linear",
    "C135_halofit",
    "C135_kernel",
    "C135_spectra",
    "C135_default_spectra"
   ],
   "note": "Forward mode over values and tangents that may be infinite or NaN (num_x, jax's rules); dense cosmology (Omega_b > 0), table queries off the nodes or at rest, survey conditions of C131. Reverse mode and the likelihood are not run over these numbers."
  },
  {
   "property": "C136",
   "status": "partial",
   "theorems": [
    "C136_with_baryons_partial",
    "C136_no_baryons",
    "C136_no_baryons_power",
    "C136_refuted"
   ],
   "note": "Full statement false: at Omega_b = 0 transfer.py 70-77 computes sqrt(6 / 0) * log(1) = inf * 0; witness Planck15 with all its matter cold."
  },
  {
   "property": "C137",
   "status": "proved",
   "theorems": [
    "C137_background",
    "C137_distances",
    "C137_growth",
    "C137_transfers",
    "C137_linear",
    "C137_halofit",
    "C137_kernel",
    "C137_spectra",
    "C137_default_spectra"
   ],
   "note": "Model: XBack.v, numbers with infinities and NaN that carry a backward pass (every rule the transpose of the forward rule of AdNan.v). The proofs are those of C135, made generic over any arithmetic that is exact on finite numbers (FinRules.v, FinBg.v, FinGrowth.v, FinTransfer.v, FinPower.v, FinHalofit.v, FinNz.v, FinSurvey.v, FinGeneric.v)."
  },
  {
   "property": "C138",
   "status": "partial",
   "theorems": [
    "C138_finite_partial",
    "C138_smail",
    "C138_spectra",
    "C138_refuted"
   ],
   "note": "The full statement is false: C138_refuted (Smail exponent 0.68 of the LSST DESC requirements). What holds: distributions that are smooth with exponents of at least 1 where they are evaluated (C138_finite_partial); for exponents below 1 the gradient is NaN (C138_smail, C138_spectra)."
  },
  {
   "property": "C139",
   "status": "proved",
   "theorems": [
    "C139_jvp",
    "C139_grad"
   ],
   "note": ""
  },
  {
   "property": "C140",
   "status": "partial",
   "theorems": [
    "C140_differentiable",
    "C140_finite_partial",
    "C140_jvp_nan",
    "C140_grad_nan",
    "C140_jvp_refuted",
    "C140_grad_refuted"
   ],
   "note": "Differentiability proved for all surveys with differentiable densities; finiteness proved with exponents of at least 1 (C140_finite_partial); the full statement is refuted: jax_cosmo/redshift.py smail_nz with 0 < b < 1 gives a NaN gradient of the whole likelihood"
  },
  {
   "property": "C141",
   "status": "proved",
   "theorems": [
    "C141_sum",
    "C141_simps",
    "C141_density"
   ],
   "note": ""
  },
  {
   "property": "C142",
   "status": "proved",
   "theorems": [
    "C142_Esqr",
    "C142_H",
    "C142_table",
    "C142_planck",
    "C142_integral"
   ],
   "note": "table entries only; the lookup by interpolation is not rounded in the model"
  },
  {
   "property": "C143",
   "status": "proved",
   "theorems": [
    "C143_lookup",
    "C143_table",
    "C143_distance",
    "C143_integral",
    "C143_planck"
   ],
   "note": "Queries below node 1 of the table are excluded (the code extrapolates there). Comparisons, sign, clip and indexing are exact; overflow and underflow are not modelled. The computed grid of scale factors and its logarithms enter through a bound on their error."
  },
  {
   "property": "C144",
   "status": "partial",
   "theorems": [
    "C144_parameters_partial",
    "C144_no_gamma_partial",
    "C144_gamma_refuted",
    "C144_containers_partial",
    "C144_containers_refuted"
   ],
   "note": "False in general: Cosmology.__str__ (core.py 67-93) never prints gamma and container.__repr__ (jax_utils.py 20-21) prints only the tuple of parameters. True for the eight listed parameters and for numeric container parameters, for every way of printing numbers that separates the numbers in use and prints no blank, comma or bracket."
  },
  {
   "property": "C145",
   "status": "partial",
   "theorems": [
    "C145_ksteps_refuted",
    "C145_accuracy_partial"
   ],
   "note": "False: ksteps (power.py 57) is never read; with the transfer function sin(128 pi ln k) on 1 <= k <= 10 the 129 nodes of romb all fall on zeros. The accuracy of the fixed rule is proved for every ksteps (relative to the range the code integrates over, see C67)."
  },
  {
   "property": "C146",
   "status": "proved",
   "theorems": [
    "C146_background",
    "C146_distances",
    "C146_growth",
    "C146_power",
    "C146_spectra",
    "C146_hessian",
    "C146_mixed",
    "C146_program"
   ],
   "note": "Second order along every line of cosmological parameters, including a moving scale factor or wavenumber for the functions that take one. In exact arithmetic. Probe parameters (redshift distributions, biases) are fixed here. At the knots of a table the derivative itself jumps, hence the condition that a moving epoch is off the nodes."
  },
  {
   "property": "C147",
   "status": "partial",
   "theorems": [
    "C147_vectors_partial",
    "C147_shapes_partial",
    "C147_planes_partial",
    "C147_plane_refuted",
    "C147_number_partial",
    "C147_number_refuted",
    "C147_matrix_refuted",
    "C147_weight"
   ],
   "note": "Partial because the code is false of the full statement: source planes at a python float, catalogues at a number and on matrices (three refutations). What comparing a jax array with a tuple does depends on the release of jax and is a parameter (J) of every theorem. Catalogues and weights are numbers or vectors."
  },
  {
   "property": "C148",
   "status": "partial",
   "theorems": [
    "C148_distances_partial",
    "C148_number_partial",
    "C148_growth_partial",
    "C148_rejects_partial",
    "C148_matrix_refuted"
   ],
   "note": "Partial because the code is false of the full statement (C148_matrix_refuted, a Milne universe). Growth covers both the ODE and the gamma table."
  },
  {
   "property": "C149",
   "status": "partial",
   "theorems": [
    "C149_redshift_partial",
    "C149_kernel_partial",
    "C149_spectra_partial",
    "C149_shift_refuted",
    "C149_cutoff",
    "C149_cutoff_spectra",
    "C149_cutoff_refuted"
   ],
   "note": "Partial because the code is false of the full statement: shifts of 0 (C149_shift_refuted) and Smail cut-offs with 1 < b < 2 (C149_cutoff, C149_cutoff_spectra, C149_cutoff_refuted; redshift.py 28-32, 76-78). An alignment exponent eta of exactly 0 is left out, where the result depends on the release of jax. Floating point is modelled up to rounding."
  },
  {
   "property": "C150",
   "status": "partial",
   "theorems": [
    "C150_hessian_partial",
    "C150_fisher",
    "C150_modes",
    "C150_program",
    "C150_program_here",
    "C150_cutoff",
    "C150_cutoff_refuted"
   ],
   "note": "Partial because the code is false of the full statement: Smail cut-offs with 1 < b < 2 (C150_cutoff, C150_cutoff_refuted; redshift.py 28-32, 76-78), shifts of 0 (C149). la is any linear algebra oracle. Symmetry of the mixed entries is proved at data equal to the mean (C150_fisher), and for cosmological parameters at any data (C146_mixed). Floating point is modelled up to rounding."
  },
  {
   "property": "C151",
   "status": "partial",
   "theorems": [
    "C151_linear",
    "C151_halofit_partial",
    "C151_grid",
    "C151_mismatch",
    "C151_unknown",
    "C151_column",
    "C151_column_refuted"
   ],
   "note": "Linear power: any shape of k against a number or vector a. halofit: where axes of length 1 come first (C151_halofit_partial) and for the table k[:, None] against a vector (C151_grid); false in general, because line 253 multiplies the unsqueezed k by the squeezed linear power (C151_column gives the n x n result, C151_column_refuted the counterexample). Not covered: a of rank above one."
  },
  {
   "property": "C152",
   "status": "partial",
   "theorems": [
    "C152_linear_partial",
    "C152_table",
    "C152_rows",
    "C152_halofit_raises",
    "C152_halofit_refuted"
   ],
   "note": "Linear power on vectors and columns of scale factors, against k of any shape (C152_linear_partial, C152_table); rows raise (C152_rows). halofit on columns raises for all inputs (C152_halofit_raises), so the nonlinear half of the statement is false (C152_halofit_refuted). The lines of halofit after the integrand of its second step are a parameter: not modelled for columns of length 1 or 257."
  },
  {
   "property": "C153",
   "status": "partial",
   "theorems": [
    "C153_romb_partial",
    "C153_simps",
    "C153_simps_constant",
    "C153_romb_constant",
    "C153_constant_refuted"
   ],
   "note": "Partial because the code is false of the full statement: constant python functions (C153_constant_refuted; C153_romb_constant bounds the result for all of them, integrate.py 52-56). Functions are assumed to return a number on a number; integrands of higher rank in simps are modelled by simps_rows."
  },
  {
   "property": "C154",
   "status": "partial",
   "theorems": [
    "C154_call",
    "C154_derivative",
    "C154_orders",
    "C154_antiderivative",
    "C154_integral",
    "C154_integral_arrays",
    "C154_integral_one",
    "C154_integral_refuted",
    "C154_data_vectors",
    "C154_data_rank",
    "C154_data_numbers"
   ],
   "note": "Evaluation, derivatives and antiderivatives hold for every shape. The definite integral holds for numbers (C154_integral); for one-entry arrays of rank 1 or more the claim is false (C154_integral_one, C154_integral_refuted): np.diff runs along the last axis of the stacked bounds, which has length 1, so the result is empty. Bounds with more than one entry raise (C154_integral_arrays)."
  },
  {
   "property": "C155",
   "status": "partial",
   "theorems": [
    "C155_simps",
    "C155_simps_exact",
    "C155_romb_raises",
    "C155_romb_refuted"
   ],
   "note": "simps is proved for every shape. romb is false: integrate.py 152 concatenates the new first entry, of the rank of the bounds, with the scanned rows, whose rank is one higher. The first pass of the loop of romb is modelled; the later ones (rest) are never reached for arrays of bounds. Functions are assumed to act entry by entry; bounds that do not broadcast raise and are not part of the theorems."
  },
  {
   "property": "C156",
   "status": "partial",
   "theorems": [
    "C156_columns",
    "C156_densities",
    "C156_shift",
    "C156_matrix_weights",
    "C156_weights_refuted",
    "C156_single"
   ],
   "note": "Columns of the catalogue with a weight vector are proved independent normalised densities. C156_weights_refuted: weights of the catalogue's own shape give a rank 3 result; C156_matrix_weights says exactly what comes out. Catalogues and weights of rank above two are not modelled."
  }
 ]
}