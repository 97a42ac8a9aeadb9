{"id": "C01", "title": "to_dense is the block-diagonal expansion", "statement": "to_dense of an (a,b,n) sparse array is the (a*n, b*n) matrix whose entry (r,c) is sparse[r//n, c//n, r%n] when r%n == c%n and 0 otherwise.", "quantifier": "all block counts a,b >= 1, all n >= 1, all entries and all row/column indices", "why_tests_cant": "Tests compare one 2x3x3 literal; the index arithmetic of hstack/vstack/diag must be right for every shape.", "anchors": ["jax_cosmo/sparse.py:to_dense", "jax_cosmo/sparse.py:check_sparse"]}
{"id": "C02", "title": "sparse-vector products equal the dense products", "statement": "dot(S, v) equals to_dense(S) @ v and dot(v, S) equals v @ to_dense(S), with result lengths a*n and b*n.", "quantifier": "all shapes (a,b,n), all entries, all vectors of the compatible length", "why_tests_cant": "Two small literals are tested; the reshape/vmap axis bookkeeping must be right for all shapes, in particular when a != b != n.", "anchors": ["jax_cosmo/sparse.py:sparse_dot_vec", "jax_cosmo/sparse.py:vec_dot_sparse", "jax_cosmo/sparse.py:dot"]}
{"id": "C03", "title": "sparse-dense matrix products equal the dense products", "statement": "dot(S, D) equals to_dense(S) @ D and dot(D, S) equals D @ to_dense(S) for every dense D of compatible shape.", "quantifier": "all shapes and entries", "why_tests_cant": "Only one shape pair is tested; output axis placement (out_axes) can be wrong only for non-square shapes.", "anchors": ["jax_cosmo/sparse.py:sparse_dot_dense", "jax_cosmo/sparse.py:dense_dot_sparse", "jax_cosmo/sparse.py:dot"]}
{"id": "C04", "title": "sparse-sparse products stay sparse and equal the dense product", "statement": "For S1 of shape (a,b,n) and S2 of shape (b,c,n), dot(S1,S2) has shape (a,c,n) and to_dense(dot(S1,S2)) = to_dense(S1) @ to_dense(S2).", "quantifier": "all a,b,c,n and entries", "why_tests_cant": "Tests cover two literals.", "anchors": ["jax_cosmo/sparse.py:sparse_dot_sparse", "jax_cosmo/sparse.py:dot"]}
{"id": "C05", "title": "dot never returns a wrong product", "statement": "Whenever dot(A,B) on two sparse matrices returns a value, that value represents the matrix product of the dense expansions of A and B.", "quantifier": "all pairs of sparse arrays accepted by the shape check, including different block sizes", "why_tests_cant": "The shape check only compares total column/row counts; counterexamples need different ndiag and broadcasting coincidences that tests do not sample.", "anchors": ["jax_cosmo/sparse.py:dot", "jax_cosmo/sparse.py:sparse_dot_sparse"]}
{"id": "C06", "title": "the bilinear form equals the dense triple product", "statement": "dot(X, Y, Z) equals X @ to_dense(Y) @ Z for dense X, Z and sparse Y.", "quantifier": "all compatible shapes and entries", "why_tests_cant": "Only two literals are tested.", "anchors": ["jax_cosmo/sparse.py:dense_dot_sparse_dot_dense", "jax_cosmo/sparse.py:dot"]}
{"id": "C07", "title": "dot rejects every incompatible call with ValueError", "statement": "dot raises ValueError when given a number of arrays other than 2 or 3, an operand of dimension 0 or > 3, or operands whose inner sizes differ (two- and three-operand forms); it accepts every compatible pair with at least one sparse operand.", "quantifier": "all argument counts, dimensions and shapes", "why_tests_cant": "Rejection must cover every wrong shape; tests sample none for dot.", "anchors": ["jax_cosmo/sparse.py:dot"]}
{"id": "C08", "title": "inv returns the matrix inverse in sparse form", "statement": "For an (n,n,p) sparse array all of whose p diagonal slices are invertible, inv returns an (n,n,p) array with to_dense(inv(S)) the two-sided inverse of to_dense(S); a non-square block layout raises ValueError.", "quantifier": "all n, p, and entries with invertible slices", "why_tests_cant": "One 2x2x2 literal is tested.", "anchors": ["jax_cosmo/sparse.py:inv", "jax_cosmo/sparse.py:check_sparse"]}
{"id": "C09", "title": "slogdet/det give the determinant when trailing blocks are invertible", "statement": "If every trailing principal sub-block of S (including S itself) is invertible in each diagonal slice, then slogdet(S)=(s,l) with s*exp(l) = det(to_dense(S)), s in {-1,1}, and det(S) = det(to_dense(S)).", "quantifier": "all n, p, entries satisfying the hypothesis", "why_tests_cant": "One literal is tested; the Schur-complement recursion must be right for every size.", "anchors": ["jax_cosmo/sparse.py:slogdet", "jax_cosmo/sparse.py:_block_det", "jax_cosmo/sparse.py:det"]}
{"id": "C10", "title": "det is right for every invertible sparse matrix", "statement": "For every invertible sparse matrix, det(S) equals the determinant of to_dense(S).", "quantifier": "all invertible sparse matrices, including ones with a singular trailing block", "why_tests_cant": "Documentation only excludes the zero matrix; singular trailing blocks of an invertible matrix are a measure-zero set that sampling misses.", "anchors": ["jax_cosmo/sparse.py:slogdet", "jax_cosmo/sparse.py:det"]}
{"id": "C11", "title": "likelihood does not depend on covariance representation", "statement": "gaussian_log_likelihood(data, mu, S) with sparse S equals gaussian_log_likelihood(data, mu, to_dense(S)), with and without the log-determinant.", "quantifier": "all data, mu, all sparse covariances whose trailing blocks are invertible, both include_logdet flags", "why_tests_cant": "One covariance is tested to 1e-6.", "anchors": ["jax_cosmo/likelihood.py:gaussian_log_likelihood"]}
{"id": "C12", "title": "the precision method does not change the likelihood", "statement": "For a symmetric positive definite dense covariance inverse_method='inverse' and 'cholesky' give the same value; any other name raises NotImplementedError for dense covariances and is ignored for sparse ones.", "quantifier": "all SPD covariances, all data, all method names", "why_tests_cant": "Tests check one covariance.", "anchors": ["jax_cosmo/likelihood.py:gaussian_log_likelihood"]}
{"id": "C13", "title": "without logdet the likelihood is -chi2/2", "statement": "With include_logdet=False the result is -1/2 (mu-data)^T C^-1 (mu-data); it is symmetric in data and mu, and for SPD C it is <= 0 with equality iff data = mu.", "quantifier": "all data, mu, invertible (resp. SPD) C", "why_tests_cant": "Needs all vectors and matrices.", "anchors": ["jax_cosmo/likelihood.py:gaussian_log_likelihood"]}
{"id": "C14", "title": "with logdet the likelihood is the Gaussian log density", "statement": "With include_logdet=True the result equals -1/2 (r^T C^-1 r + log det C), the multivariate normal log density up to the data-independent constant -N/2 log(2 pi).", "quantifier": "all data, mu, SPD covariances", "why_tests_cant": "The test suite only compares the sparse and dense paths with each other, never with the density itself.", "anchors": ["jax_cosmo/likelihood.py:gaussian_log_likelihood"]}
{"id": "C15", "title": "the spectra ordering enumerates every unordered tracer pair once", "statement": "For probes with a total of n tracers the ordering lists each pair (i,j), i<=j<n, exactly once, in lexicographic order, n(n+1)/2 in all.", "quantifier": "all probe lists and tracer counts", "why_tests_cant": "Tests use 2 or 3 tracers.", "anchors": ["jax_cosmo/angular_cl.py:_get_cl_ordering"]}
{"id": "C16", "title": "covariance blocks pick the right four spectra", "statement": "For rows (i,j) and columns (m,n) the block indices never fail to resolve and name the spectra of the unordered pairs {i,m},{j,n},{i,n},{j,m}.", "quantifier": "all tracer counts and all pairs", "why_tests_cant": "Tests compare sparse and dense built from the same ordering, so a wrong ordering is invisible.", "anchors": ["jax_cosmo/angular_cl.py:_get_cov_blocks_ordering"]}
{"id": "C17", "title": "noise enters auto-spectra only", "statement": "noise_cl has one row per spectrum; the row of (i,i) is the noise power of tracer i at every multipole and every cross row is 0, whatever the mix of probes.", "quantifier": "all probe lists, tracers, multipole counts", "why_tests_cant": "Tests use all-ones noise.", "anchors": ["jax_cosmo/angular_cl.py:noise_cl", "jax_cosmo/probes.py:noise"]}
{"id": "C18", "title": "the covariance is the Gaussian (Knox) formula", "statement": "The covariance between C_ij(l) and C_mn(l') is delta_ll' (C^obs_im C^obs_jn + C^obs_in C^obs_jm) / ((2l+1) dl f_sky), where dl is the np.gradient spacing and C^obs = signal + noise.", "quantifier": "all tracer counts, spectra, multipole grids with at least two entries and non-zero normalisation", "why_tests_cant": "No test compares the covariance with the formula.", "anchors": ["jax_cosmo/angular_cl.py:gaussian_cl_covariance"]}
{"id": "C19", "title": "sparse and dense covariances are the same matrix", "statement": "to_dense of gaussian_cl_covariance(..., sparse=True) equals gaussian_cl_covariance(..., sparse=False).", "quantifier": "all n_ell, tracer counts, signals and noises", "why_tests_cant": "Tested with constant all-ones spectra only, for which many index errors are invisible.", "anchors": ["jax_cosmo/angular_cl.py:gaussian_cl_covariance", "jax_cosmo/sparse.py:to_dense"]}
{"id": "C20", "title": "the covariance is symmetric", "statement": "Both representations of the covariance are symmetric matrices.", "quantifier": "all inputs", "why_tests_cant": "Needs every pair of block indices.", "anchors": ["jax_cosmo/angular_cl.py:gaussian_cl_covariance"]}
{"id": "C21", "title": "the covariance is positive semi-definite", "statement": "If at each multipole the observed spectra form a PSD tracer-by-tracer matrix and the normalisation is positive, the covariance is PSD.", "quantifier": "all tracer counts, spectra, multipole grids", "why_tests_cant": "Universally quantified over test vectors.", "anchors": ["jax_cosmo/angular_cl.py:gaussian_cl_covariance"]}
{"id": "C22", "title": "the covariance works for a single multipole", "statement": "gaussian_cl_covariance accepts a scalar or length-one ell.", "quantifier": "all length-one multipole inputs", "why_tests_cant": "ell is passed through np.atleast_1d as if scalars were supported, but np.gradient needs two samples.", "anchors": ["jax_cosmo/angular_cl.py:gaussian_cl_covariance"]}
{"id": "C23", "title": "f_sky rescales the covariance", "statement": "Multiplying f_sky by t>0 divides every covariance entry by t.", "quantifier": "all f_sky != 0, t != 0", "why_tests_cant": "Needs all inputs.", "anchors": ["jax_cosmo/angular_cl.py:gaussian_cl_covariance"]}
{"id": "C24", "title": "angular_cl rows are the right tracer pairs", "statement": "Row (i,j) of angular_cl at multipole l is the Limber integral of P * K_i * K_j where K_i is the kernel of the i-th tracer in the concatenation of all probes' bins; the value does not depend on the order of the pair and reordering the probes only permutes rows.", "quantifier": "all probe lists, multipoles, cosmologies", "why_tests_cant": "Tests look at single-tracer spectra or the last row only.", "anchors": ["jax_cosmo/angular_cl.py:angular_cl"]}
{"id": "C25", "title": "angular_cl spectra form a PSD matrix at each multipole", "statement": "When the matter power and dchi/da are non-negative on the integration nodes, the matrix (C_ij(l)) is PSD; in particular auto-spectra are >= 0 and C_ij^2 <= C_ii C_jj.", "quantifier": "all probe lists, kernels (any sign), multipoles", "why_tests_cant": "Universally quantified over kernels and vectors.", "anchors": ["jax_cosmo/angular_cl.py:angular_cl", "jax_cosmo/scipy/integrate.py:simps"]}
{"id": "C26", "title": "mean and covariance agree on layout, and the mean is the noiseless signal", "statement": "gaussian_cl_covariance_and_mean returns the flattened signal whose entry s*n_ell+l is the spectrum s at multipole l, matching the row order of the dense covariance and of to_dense of the sparse one; its docstring announces signal + noise.", "quantifier": "all probe lists and multipole grids", "why_tests_cant": "Layout agreement matters for every (spectrum, multipole) index.", "anchors": ["jax_cosmo/angular_cl.py:gaussian_cl_covariance_and_mean"]}
{"id": "C27", "title": "a Cosmology without gamma survives flatten/unflatten", "statement": "tree_unflatten(tree_flatten(c)) has the same eight parameters, no gamma, and an empty workspace.", "quantifier": "all parameter values and workspace contents", "why_tests_cant": "Every transformation boundary (jit, grad, vmap) goes through this.", "anchors": ["jax_cosmo/core.py:Cosmology.tree_flatten", "jax_cosmo/core.py:Cosmology.tree_unflatten"]}
{"id": "C28", "title": "a Cosmology with gamma survives flatten/unflatten", "statement": "tree_unflatten(tree_flatten(c)) has the same nine parameters when gamma is given.", "quantifier": "all parameter values with gamma set", "why_tests_cant": "No test builds a gamma cosmology inside a transformation.", "anchors": ["jax_cosmo/core.py:Cosmology.tree_unflatten"]}
{"id": "C29", "title": "containers survive flatten/unflatten", "statement": "bias models, redshift distributions and NumberCounts probes have the same parameters, configuration and galaxy density after flatten/unflatten, any number of times.", "quantifier": "all parameters and configuration", "why_tests_cant": "All values and any number of repetitions.", "anchors": ["jax_cosmo/jax_utils.py:container", "jax_cosmo/redshift.py:redshift_distribution.tree_flatten", "jax_cosmo/probes.py:NumberCounts"]}
{"id": "C30", "title": "WeakLensing survives flatten/unflatten", "statement": "A WeakLensing probe has the same redshift bins, multiplicative bias and intrinsic-alignment bias after flatten/unflatten.", "quantifier": "all bins, m, IA bias", "why_tests_cant": "WeakLensing.__init__ takes (bins, ia_bias, m) but stores (bins, m[, ia_bias]); no test passes a probe through a transformation.", "anchors": ["jax_cosmo/probes.py:WeakLensing.__init__", "jax_cosmo/jax_utils.py:container.tree_unflatten"]}
{"id": "C31", "title": "splines survive flatten/unflatten", "statement": "A spline evaluates identically after flatten/unflatten, without recomputing its coefficients.", "quantifier": "all splines and query points", "why_tests_cant": "All data and all x.", "anchors": ["jax_cosmo/scipy/interpolate.py:InterpolatedUnivariateSpline.tree_unflatten"]}
{"id": "C32", "title": "kernels of gamma cosmologies can be computed", "statement": "WeakLensing.kernel and NumberCounts.kernel return a kernel for cosmologies that define gamma.", "quantifier": "all cosmologies with gamma, all bins and redshifts", "why_tests_cant": "The jit boundary of the kernel functions reconstructs the cosmology; no test uses gamma with probes.", "anchors": ["jax_cosmo/probes.py:weak_lensing_kernel", "jax_cosmo/probes.py:density_kernel", "jax_cosmo/core.py:Cosmology.tree_unflatten"]}
{"id": "C33", "title": "background results do not depend on call history", "statement": "With default table parameters, the value returned by radial_comoving_distance, a_of_chi, growth_factor, growth_rate, transverse_comoving_distance, angular_diameter_distance on a Cosmology is the same after any sequence of earlier calls as on a fresh object.", "quantifier": "all finite call histories over the background API", "why_tests_cant": "The workspace cache makes results history-dependent in principle; histories are unbounded.", "anchors": ["jax_cosmo/background.py:radial_comoving_distance", "jax_cosmo/background.py:a_of_chi", "jax_cosmo/background.py:_growth_factor_ODE", "jax_cosmo/background.py:_growth_rate_ODE", "jax_cosmo/background.py:_growth_factor_gamma"]}
{"id": "C34", "title": "table parameters are honoured", "statement": "radial_comoving_distance(cosmo, a, log10_amin, steps) uses the requested table whatever was called before.", "quantifier": "all call histories with user-supplied table parameters", "why_tests_cant": "The cache key ignores the table parameters; only the second call with different parameters shows it.", "anchors": ["jax_cosmo/background.py:radial_comoving_distance"]}
{"id": "C35", "title": "n(z) values do not depend on call history", "statement": "Calling a redshift distribution any number of times, in any order, always returns pz_fn(z) divided by its Simpson norm over [0,zmax].", "quantifier": "all call sequences", "why_tests_cant": "Norm is cached on first call.", "anchors": ["jax_cosmo/redshift.py:redshift_distribution.__call__"]}
{"id": "C36", "title": "density fractions sum to one", "statement": "Omega_m + Omega_de + Omega_k = 1 for every cosmology, and at every a with E^2(a) != 0, Omega_m(a) + Omega_de(a) + Omega_k a^-2 / E^2(a) = 1.", "quantifier": "all cosmologies, all a > 0 with E^2(a) != 0", "why_tests_cant": "Sampled only through comparison with CCL.", "anchors": ["jax_cosmo/core.py:Omega_de", "jax_cosmo/background.py:Omega_m_a", "jax_cosmo/background.py:Omega_de_a", "jax_cosmo/background.py:Esqr"]}
{"id": "C37", "title": "today E = 1 and H = 100", "statement": "Esqr(1) = 1 and H(1) = 100 for every cosmology, including curved and w0/wa ones; Omega_m_a(1) = Omega_m.", "quantifier": "all cosmologies", "why_tests_cant": "All parameters.", "anchors": ["jax_cosmo/background.py:Esqr", "jax_cosmo/background.py:H"]}
{"id": "C38", "title": "f_de solves the dark energy continuity equation", "statement": "f_de(1) = 0 and d f_de / d ln a = -3 (1 + w(a)); hence f_de(a) = -3 int_0^{ln a} (1 + w(e^t)) dt as documented, and f_de = 0 for w0=-1, wa=0.", "quantifier": "all w0, wa and a > 0", "why_tests_cant": "A differential identity over a continuum.", "anchors": ["jax_cosmo/background.py:f_de", "jax_cosmo/background.py:w"]}
{"id": "C39", "title": "E^2 is positive for physical cosmologies", "statement": "If Omega_m > 0, Omega_k >= 0, Omega_de >= 0 then E^2(a) > 0, H(a) > 0, dchi/da > 0, and 0 < Omega_m(a) <= 1, 0 <= Omega_de(a) < 1 for every a > 0.", "quantifier": "all such cosmologies and all a > 0", "why_tests_cant": "Continuum of inputs.", "anchors": ["jax_cosmo/background.py:Esqr", "jax_cosmo/background.py:dchioverda", "jax_cosmo/background.py:Omega_m_a"]}
{"id": "C40", "title": "distances vanish today, are non-negative and decrease with a", "statement": "radial_comoving_distance(1) = 0, the result is >= 0 for every a, and a1 <= a2 implies chi(a1) >= chi(a2).", "quantifier": "all cosmologies with E^2 > 0, all a", "why_tests_cant": "Monotonicity over all pairs.", "anchors": ["jax_cosmo/background.py:radial_comoving_distance", "jax_cosmo/scipy/interpolate.py:interp", "jax_cosmo/scipy/ode.py:odeint"]}
{"id": "C41", "title": "transverse distance follows the sign of the curvature", "statement": "f_k = chi for Omega_k = 0, (R_H/sqrt|Ok|) sinh(sqrt|Ok| chi/R_H) for Omega_k > 0, sin for Omega_k < 0; so f_k >= chi when open, <= chi when closed; d_A = a f_k, and f_k(1) = 0.", "quantifier": "all curvatures and a", "why_tests_cant": "Branch selection by an integer index computed from the sign; tests use flat and a few curved values.", "anchors": ["jax_cosmo/background.py:transverse_comoving_distance", "jax_cosmo/background.py:angular_diameter_distance", "jax_cosmo/core.py:k", "jax_cosmo/core.py:sqrtk"]}
{"id": "C42", "title": "the growth factor is normalised and bounded", "statement": "growth_factor(1) = 1 and 0 <= growth_factor(a) <= 1 for every a, in both growth parametrisations.", "quantifier": "all cosmologies whose final table value is non-zero, all a", "why_tests_cant": "All a.", "anchors": ["jax_cosmo/background.py:growth_factor", "jax_cosmo/background.py:_growth_factor_ODE", "jax_cosmo/background.py:_growth_factor_gamma"]}
{"id": "C43", "title": "Einstein-de Sitter growth is exact", "statement": "For Omega_m = 1 and no curvature or dark energy, growth_factor(a) = a for all 0 <= a <= 1 and growth_rate(a) = 1, in both the ODE and the gamma parametrisation.", "quantifier": "all a in [0,1], all gamma", "why_tests_cant": "Requires exactness of every RK4 step and of the interpolation.", "anchors": ["jax_cosmo/background.py:_growth_factor_ODE", "jax_cosmo/scipy/ode.py:odeint"]}
{"id": "C44", "title": "gamma growth is increasing and consistent with its rate", "statement": "With gamma set and a physical cosmology, growth_rate(a) = Omega_m(a)^gamma, and growth_factor is non-decreasing in a on (0,1], strictly positive at table nodes.", "quantifier": "all physical cosmologies, gamma, a", "why_tests_cant": "Monotonicity over all pairs.", "anchors": ["jax_cosmo/background.py:_growth_rate_gamma", "jax_cosmo/background.py:_growth_factor_gamma"]}
{"id": "C45", "title": "background functions accept scalar scale factors", "statement": "growth_factor, growth_rate and radial_comoving_distance return a float for a scalar a, as their docstrings say.", "quantifier": "all scalar inputs", "why_tests_cant": "Shape behaviour of vmap on rank-0 input.", "anchors": ["jax_cosmo/background.py:growth_factor", "jax_cosmo/background.py:growth_rate", "jax_cosmo/scipy/interpolate.py:interp"]}
{"id": "C46", "title": "z2a and a2z are inverse", "statement": "a2z(z2a(z)) = z for z != -1 and z2a(a2z(a)) = a for a != 0; z2a is decreasing on z > -1, z2a(0) = 1.", "quantifier": "all reals in range", "why_tests_cant": "Continuum.", "anchors": ["jax_cosmo/utils.py:z2a", "jax_cosmo/utils.py:a2z"]}
{"id": "C47", "title": "a_of_chi inverts radial_comoving_distance", "statement": "a_of_chi(radial_comoving_distance(a)) = a within the accuracy of linear interpolation, i.e. a_of_chi(chi) is the linear interpolant of the (chi,a) table.", "quantifier": "all chi in the table range", "why_tests_cant": "Inputs between table nodes on the far side of the nearest node.", "anchors": ["jax_cosmo/background.py:a_of_chi", "jax_cosmo/scipy/interpolate.py:interp"]}
{"id": "C48", "title": "interp is linear interpolation for increasing grids", "statement": "For a strictly increasing grid of at least three points and x in [xp[0], xp[-1]], interp(x, xp, fp) is the linear interpolant between the two neighbouring nodes.", "quantifier": "all grids, values, query points", "why_tests_cant": "Continuum; the boundary cells behave differently from interior ones.", "anchors": ["jax_cosmo/scipy/interpolate.py:interp"]}
{"id": "C49", "title": "interp is linear interpolation for decreasing grids", "statement": "Same as C48 for strictly decreasing grids (used by a_of_chi and by the non-linear scale search).", "quantifier": "all decreasing grids and query points", "why_tests_cant": "Clip bounds are reversed for a decreasing grid.", "anchors": ["jax_cosmo/scipy/interpolate.py:interp", "jax_cosmo/power.py:_halofit_parameters"]}
{"id": "C50", "title": "interp reproduces affine data everywhere", "statement": "If fp = alpha*xp + beta, interp(x) = alpha*x + beta for every x, inside or outside the grid, for any grid with distinct neighbours.", "quantifier": "all grids, slopes, x", "why_tests_cant": "Continuum.", "anchors": ["jax_cosmo/scipy/interpolate.py:interp"]}
{"id": "C51", "title": "simps is Simpson's rule and exact on cubics", "statement": "simps(f,a,b,N) equals the documented composite sum and equals the exact integral for every polynomial of degree <= 3, for every even N >= 2.", "quantifier": "all even N, all a, b, all cubics", "why_tests_cant": "All N and polynomials.", "anchors": ["jax_cosmo/scipy/integrate.py:simps"]}
{"id": "C52", "title": "simps is linear, reversible, positive; odd N is rejected", "statement": "simps is linear in f, changes sign when a and b are swapped, is >= 0 for f >= 0 and a <= b, and raises ValueError for every odd N.", "quantifier": "all f, a, b, N", "why_tests_cant": "All N and f.", "anchors": ["jax_cosmo/scipy/integrate.py:simps"]}
{"id": "C53", "title": "simps error bound", "statement": "If f is four times differentiable with |f''''| <= M on [a,b], |simps(f,a,b,N) - int_a^b f| <= M (b-a)^5 / (180 N^4).", "quantifier": "all such f, a<b, even N", "why_tests_cant": "Analytic statement over function space.", "anchors": ["jax_cosmo/scipy/integrate.py:simps"]}
{"id": "C54", "title": "romb returns the Romberg diagonal", "statement": "romb(f,a,b,divmax=d) equals the Romberg extrapolation R(d,d) built from trapezoid sums with 1,2,...,2^d panels; padding entries of its work array never influence the result; return_error returns |R(d-1,d-1) - R(d,d)|; divmax = 0 raises.", "quantifier": "all f, a, b, d", "why_tests_cant": "The work array is padded with garbage; independence must hold for every d.", "anchors": ["jax_cosmo/scipy/integrate.py:romb", "jax_cosmo/scipy/integrate.py:_romberg_diff", "jax_cosmo/scipy/integrate.py:_difftrapn"]}
{"id": "C55", "title": "romb is exact on polynomials of degree <= 2*divmax+1", "statement": "For every polynomial of degree at most 2*divmax+1, romb returns the exact integral.", "quantifier": "all divmax >= 1, polynomials, intervals", "why_tests_cant": "All orders.", "anchors": ["jax_cosmo/scipy/integrate.py:romb"]}
{"id": "C56", "title": "odeint returns the initial value first and applies RK4 between nodes", "statement": "The result has one entry per time, the first is y0, each next entry is one classical RK4 step; for right-hand sides that do not depend on y it is composite Simpson, exact for cubics; for y' = lambda*y each step multiplies by 1+z+z^2/2+z^3/6+z^4/24.", "quantifier": "all right-hand sides, grids, initial values", "why_tests_cant": "All grids.", "anchors": ["jax_cosmo/scipy/ode.py:odeint"]}
{"id": "C57", "title": "splines pass through their data", "statement": "For k in {1,2,3} and strictly increasing x, spl(x[i]) = y[i] for every i.", "quantifier": "all data sets of sufficient length, both endpoint conditions", "why_tests_cant": "All data.", "anchors": ["jax_cosmo/scipy/interpolate.py:InterpolatedUnivariateSpline.__call__"]}
{"id": "C58", "title": "splines are k-1 times continuously differentiable", "statement": "At every interior knot the neighbouring pieces agree in value and in derivatives up to order k-1.", "quantifier": "all data sets, k in {1,2,3}", "why_tests_cant": "All data and knots.", "anchors": ["jax_cosmo/scipy/interpolate.py:InterpolatedUnivariateSpline"]}
{"id": "C59", "title": "not-a-knot conditions hold", "statement": "With endpoints='not-a-knot' the highest derivative agrees across the first and last interior knots.", "quantifier": "all data sets with k=2,3", "why_tests_cant": "All data.", "anchors": ["jax_cosmo/scipy/interpolate.py:InterpolatedUnivariateSpline.__init__"]}
{"id": "C60", "title": "natural splines have vanishing end curvature", "statement": "With endpoints='natural' and k=3 the second derivative vanishes at both endpoints.", "quantifier": "all data sets", "why_tests_cant": "Only not-a-knot is compared with scipy.", "anchors": ["jax_cosmo/scipy/interpolate.py:InterpolatedUnivariateSpline.__init__"]}
{"id": "C61", "title": "the spline linear systems are uniquely solvable", "statement": "For strictly increasing x the systems solved for k=2 and k=3 have exactly one solution, so the coefficients are well defined.", "quantifier": "all strictly increasing grids of sufficient length, both endpoint conditions", "why_tests_cant": "All grids.", "anchors": ["jax_cosmo/scipy/interpolate.py:InterpolatedUnivariateSpline.__init__"]}
{"id": "C62", "title": "splines reproduce polynomials of degree <= k", "statement": "If the data come from a polynomial of degree <= k (not-a-knot), spl(x) equals that polynomial for every x, extrapolation included.", "quantifier": "all grids, polynomials, x", "why_tests_cant": "All.", "anchors": ["jax_cosmo/scipy/interpolate.py:InterpolatedUnivariateSpline"]}
{"id": "C63", "title": "derivative is the derivative of the spline", "statement": "derivative(x,n) is the n-th derivative of __call__ at every x that is not a knot (and at knots up to order k-1); n outside 0..k is rejected.", "quantifier": "all splines, x, n", "why_tests_cant": "Continuum.", "anchors": ["jax_cosmo/scipy/interpolate.py:InterpolatedUnivariateSpline.derivative"]}
{"id": "C64", "title": "antiderivative and integral are exact", "statement": "The derivative of antiderivative is the spline, antiderivative vanishes at the first knot, integral(a,b) = int_a^b spl and integral(b,a) = -integral(a,b).", "quantifier": "all splines (k=1,2,3) and bounds, including outside the data range", "why_tests_cant": "Continuum.", "anchors": ["jax_cosmo/scipy/interpolate.py:InterpolatedUnivariateSpline.antiderivative", "jax_cosmo/scipy/interpolate.py:InterpolatedUnivariateSpline.integral"]}
{"id": "C65", "title": "spline construction validates its input", "statement": "Construction fails for k not in {1,2,3}, for arrays of different length, for too few points (n<=k), and for k=2 with endpoints other than not-a-knot; an unknown endpoint name with k=3 means natural.", "quantifier": "all inputs", "why_tests_cant": "All inputs.", "anchors": ["jax_cosmo/scipy/interpolate.py:InterpolatedUnivariateSpline.__init__"]}
{"id": "C66", "title": "the linear power spectrum is normalised to sigma8", "statement": "Applying the code's own sigma^2(R=8) functional to linear_matter_power(k, a=1) gives sigma8^2, for every transfer function with non-zero sigma^2.", "quantifier": "all cosmologies, transfer functions", "why_tests_cant": "All transfer functions.", "anchors": ["jax_cosmo/power.py:linear_matter_power", "jax_cosmo/power.py:sigmasqr"]}
{"id": "C67", "title": "sigmasqr integrates over [kmin, kmax]", "statement": "sigmasqr integrates k^3 P W^2/(2 pi^2) over ln k for k from kmin to kmax.", "quantifier": "all kmin, kmax", "why_tests_cant": "The tolerance of the tests hides the truncated range.", "anchors": ["jax_cosmo/power.py:sigmasqr"]}
{"id": "C68", "title": "linear power scales as growth squared and ignores transfer amplitude", "statement": "P(k,a) = P(k,1) * growth_factor(a)^2 >= 0; rescaling the transfer function by a non-zero constant does not change P.", "quantifier": "all k, a, transfer functions", "why_tests_cant": "All.", "anchors": ["jax_cosmo/power.py:linear_matter_power"]}
{"id": "C69", "title": "halofit is positive and rejects unknown prescriptions", "statement": "With takahashi2012, halofit(k,a) > 0 for k > 0, non-negative linear power and a positive matter fraction at a; with smith2003 the same where in addition the matter fraction is below one, the dark-energy fraction lies between zero and one minus it, and the denominator 1 + alpha_n Delta^2 of the quasi-linear term is positive; an unknown prescription raises NotImplementedError.", "quantifier": "all k > 0, parameters", "why_tests_cant": "Holds for every k, scale factor, transfer function and set of parameters; tests compare a handful of wavenumbers.", "anchors": ["jax_cosmo/power.py:halofit"]}
{"id": "C70", "title": "the transfer function tends to 1 on large scales", "statement": "Eisenstein_Hu(k) -> 1 as k -> 0+ for both types, no-wiggle values lie in (0,1]; an unknown type raises NotImplementedError.", "quantifier": "all cosmologies with positive densities", "why_tests_cant": "Limit statement.", "anchors": ["jax_cosmo/transfer.py:Eisenstein_Hu"]}
{"id": "C71", "title": "n(z) is normalised", "statement": "The 256-panel Simpson integral of nz over [0, zmax] equals 1 for every extended redshift distribution with non-zero norm (the single-redshift delta distribution fixes its norm to 1 and is excluded).", "quantifier": "all distributions, zmax", "why_tests_cant": "All.", "anchors": ["jax_cosmo/redshift.py:redshift_distribution.__call__"]}
{"id": "C72", "title": "KDE distributions are positive and weight-scale invariant", "statement": "With positive weights kde_nz is positive, its un-normalised pdf integrates to 1 over the real line in the sense of being a weighted mean of Gaussians, and multiplying all weights by a constant leaves n(z) unchanged.", "quantifier": "all catalogs, weights, bandwidths", "why_tests_cant": "All.", "anchors": ["jax_cosmo/redshift.py:kde_nz"]}
{"id": "C73", "title": "a systematic shift translates the distribution", "statement": "systematic_shift(parent, b)(z) is parent's pz_fn at max(z-b,0) renormalised; with b=0 and the same zmax it equals the parent for z >= 0.", "quantifier": "all parents, shifts, z", "why_tests_cant": "All.", "anchors": ["jax_cosmo/redshift.py:systematic_shift"]}
{"id": "C74", "title": "lensing kernels come back in bin order", "statement": "For any mix of extended and delta redshift bins, row i of weak_lensing_kernel is the kernel of bin i.", "quantifier": "all bin lists and interleavings", "why_tests_cant": "Permutation/inverse permutation must be right for every interleaving.", "anchors": ["jax_cosmo/probes.py:weak_lensing_kernel"]}
{"id": "C75", "title": "lensing kernels are non-negative and vanish behind the source", "statement": "For Omega_m >= 0, ell >= 1 and non-negative n(z), kernels are >= 0; for a delta source at z0 the kernel is 0 for z >= z0.", "quantifier": "all cosmologies, bins, z, ell >= 1", "why_tests_cant": "Continuum.", "anchors": ["jax_cosmo/probes.py:weak_lensing_kernel"]}
{"id": "C76", "title": "multiplicative bias scales rows by 1+m", "statement": "A scalar m scales every row by 1+m; a list scales row i by 1+m_i; IA is added before scaling.", "quantifier": "all kernels, m", "why_tests_cant": "All.", "anchors": ["jax_cosmo/probes.py:WeakLensing.kernel"]}
{"id": "C77", "title": "shot and shape noise", "statement": "noise is sigma_e^2/n_gal (per-bin sigma_e lists allowed) for lensing and 1/n_gal for counts with n_gal in galaxies per steradian; positive for positive densities.", "quantifier": "all bins", "why_tests_cant": "All.", "anchors": ["jax_cosmo/probes.py:WeakLensing.noise", "jax_cosmo/probes.py:NumberCounts.noise", "jax_cosmo/redshift.py:gals_per_steradian"]}
{"id": "C78", "title": "unsupported delta bins are rejected", "statement": "density_kernel and nla_kernel raise NotImplementedError iff some bin is a delta distribution.", "quantifier": "all bin lists", "why_tests_cant": "All lists.", "anchors": ["jax_cosmo/probes.py:density_kernel", "jax_cosmo/probes.py:nla_kernel"]}
{"id": "C79", "title": "the spin-2 ell factor is a suppression tending to 1", "statement": "For ell >= 1, 0 <= sqrt((l-1)l(l+1)(l+2))/(l+1/2)^2 < 1, and it tends to 1 as l grows.", "quantifier": "all ell >= 1", "why_tests_cant": "Continuum.", "anchors": ["jax_cosmo/probes.py:weak_lensing_kernel", "jax_cosmo/probes.py:nla_kernel"]}
{"id": "C80", "title": "maximum redshift covers all bins", "statement": "zmax of a probe is an upper bound of, and attained by, the zmax of its bins; an empty bin list raises ValueError.", "quantifier": "all bin lists", "why_tests_cant": "All lists.", "anchors": ["jax_cosmo/probes.py:WeakLensing.zmax", "jax_cosmo/probes.py:NumberCounts.zmax"]}
{"id": "C81", "title": "ODE growth is positive and increasing", "statement": "With the ODE growth (gamma not set), for a physical cosmology with -7/3 <= w0, w0+wa <= 1, the growth table is never zero, growth_factor is non-decreasing in a, strictly increasing and positive at table nodes, and growth_rate is positive there.", "quantifier": "all such cosmologies, all a", "why_tests_cant": "The growth is the output of a 127-step RK4 integration; positivity must hold for a continuum of parameters.", "anchors": ["jax_cosmo/background.py:_growth_factor_ODE", "jax_cosmo/scipy/ode.py:odeint"]}
{"id": "C82", "title": "bias models have their documented redshift dependence", "statement": "constant_linear_bias returns b at every redshift; inverse_growth_linear_bias(b) times the growth factor is b, so it is b today; des_y1_ia_bias(A, eta, z0) is A ((1+z)/(1+z0))^eta and equals A at the pivot z0.", "quantifier": "all cosmologies, parameters and redshifts z > -1", "why_tests_cant": "a test evaluates a few redshifts of one cosmology; the law is a statement about every redshift and every cosmology", "anchors": ["jax_cosmo/bias.py:constant_linear_bias", "jax_cosmo/bias.py:inverse_growth_linear_bias", "jax_cosmo/bias.py:des_y1_ia_bias"]}
{"id": "C83", "title": "the forecast covariance is positive definite end to end", "statement": "For any probes with positive noise, multipoles with a positive number of modes, and a matter power that is non-negative on the integration nodes, the dense matrix returned by gaussian_cl_covariance_and_mean is symmetric and positive definite, so Cholesky in the likelihood cannot fail and chi-squared is a norm.", "quantifier": "all cosmologies without gamma, usable probe lists, multipole grids of length >= 2, f_sky, matter power models", "why_tests_cant": "tests check one survey; indefiniteness would appear only for particular kernels, spectra and numbers of bins", "anchors": ["jax_cosmo/angular_cl.py:gaussian_cl_covariance_and_mean", "jax_cosmo/angular_cl.py:gaussian_cl_covariance"]}
{"id": "C84", "title": "the constructed function is the interpolating spline", "statement": "With endpoints='not-a-knot' spl is piecewise polynomial of degree k, k-1 times continuously differentiable, interpolates the data and satisfies the not-a-knot conditions; any function with these four properties equals spl at every x, extrapolation included.", "quantifier": "all strictly increasing grids of sufficient length, all data, k in {1,2,3}", "why_tests_cant": "Uniqueness quantifies over all functions; a test compares with one reference implementation on a few grids.", "anchors": ["jax_cosmo/scipy/interpolate.py:InterpolatedUnivariateSpline.__init__", "jax_cosmo/scipy/interpolate.py:InterpolatedUnivariateSpline.__call__"]}
{"id": "C85", "title": "Romberg integration is positive, order preserving and near-best", "statement": "romb(f, a, b, divmax=d) lies between (b-a) min f and (b-a) max f; f <= g implies romb f <= romb g; for f >= 0 it stays within a factor [2/5, 3/2] of the trapezoid rule on the same points; and if any polynomial of degree <= 2d+1 is within e of f on [a,b], the result is within 2(b-a)e of the integral.", "quantifier": "all integrands, all intervals a <= b, all divmax >= 1", "why_tests_cant": "Richardson extrapolation subtracts rows, so a negative weight could make the 'integral' of a positive function negative for some divmax; only a proof over all table sizes excludes it.", "anchors": ["jax_cosmo/scipy/integrate.py:romb", "jax_cosmo/scipy/integrate.py:_romberg_diff"]}
{"id": "C86", "title": "both quadrature rules converge for every continuous integrand", "statement": "For every continuous f and every tolerance, simps(f,a,b,N) for all sufficiently large even N and romb(f,a,b,divmax=d) for all sufficiently large d are within the tolerance of the integral.", "quantifier": "all integrands continuous on [a,b] (no smoothness), all a <= b, all tolerances > 0", "why_tests_cant": "Convergence is a statement about infinitely many refinements and all continuous functions; tests use a handful of smooth integrands.", "anchors": ["jax_cosmo/scipy/integrate.py:simps", "jax_cosmo/scipy/integrate.py:romb"]}
{"id": "C87", "title": "comparison principles for the expansion history and the distances", "statement": "For physical parameters with w(a) >= -1, H(a) strictly decreases with a and exceeds 100 h km/s/Mpc before today; with w(a) <= 0, Omega_m_a(a) never increases with a. If cosmology d expands no faster than c at every tabulated epoch (H_d <= H_c on [1/1000,1]) then every radial comoving distance in d is at least the one in c; in flat LambdaCDM more matter therefore gives smaller radial and transverse distances, at every scale factor and also outside the table.", "quantifier": "all pairs of cosmologies, all scale factors <= 1, any history of earlier calls on either object", "why_tests_cant": "The order has to survive the tabulation, Runge-Kutta accumulation, interpolation and clipping for every pair of parameter sets; a test compares finitely many pairs at finitely many redshifts.", "anchors": ["jax_cosmo/background.py:H", "jax_cosmo/background.py:Omega_m_a", "jax_cosmo/background.py:radial_comoving_distance", "jax_cosmo/background.py:transverse_comoving_distance"]}
{"id": "C88", "title": "absolute accuracy of the tabulated comoving distance", "statement": "For every scale factor between the second table node and 1, radial_comoving_distance differs from the exact integral of c/(a^2 H(a)) by at most 1.5/sqrt(Omega_m) Mpc/h for moderate dark energy, at most 0.6/sqrt(Omega_m) Mpc/h for a cosmological constant, and at most 0.01/sqrt(Omega_m) Mpc/h at the table nodes.", "quantifier": "all physical parameter sets (Omega_m > 0, Omega_k >= 0, Omega_de >= 0) with the stated dark energy, all scale factors in the tabulated range after the first cell, any call history", "why_tests_cant": "The test suite compares one cosmology with CCL at relative tolerance 1e-2 to 1e-3; an error bound uniform in the parameters and the redshift needs derivative bounds of the integrand over the whole parameter space.", "anchors": ["jax_cosmo/background.py:radial_comoving_distance", "jax_cosmo/background.py:dchioverda", "jax_cosmo/scipy/ode.py:odeint", "jax_cosmo/scipy/interpolate.py:interp"]}
{"id": "C89", "title": "distances are differentiable in every cosmological parameter", "statement": "For any direction in the eight-parameter space, H(a), radial_comoving_distance(a) and transverse_comoving_distance(a) are differentiable functions of the displacement at every expanding cosmology and every scale factor 0 < a < 1, including at zero curvature, and zero displacement reproduces the distance of the given object.", "quantifier": "all cosmologies with H^2 > 0, all directions, all scale factors in (0,1), any call history of the undisplaced object", "why_tests_cant": "The code clips, searches an interpolation cell, and switches on the sign of the curvature; whether any of these creates a kink has to be settled for all parameter values and redshifts.", "anchors": ["jax_cosmo/background.py:H", "jax_cosmo/background.py:radial_comoving_distance", "jax_cosmo/background.py:transverse_comoving_distance"]}
{"id": "C90", "title": "differentiating transverse_comoving_distance gives its derivative", "statement": "The tangent obtained by differentiating the branch that lax.switch selects equals the derivative of transverse_comoving_distance along any parameter direction. True whenever Omega_k is nonzero or not varied; false at Omega_k = 0 (the default Planck15), where the gradient with respect to Omega_k misses the term chi^3/(6 R_H^2).", "quantifier": "all expanding cosmologies, all parameter directions, all scale factors below 1", "why_tests_cant": "Gradient tests compare finite differences at one flat point and do not vary Omega_k; the discrepancy appears only at exact flatness and only in one direction.", "anchors": ["jax_cosmo/background.py:transverse_comoving_distance", "jax_cosmo/core.py:Cosmology.k", "jax_cosmo/core.py:Cosmology.sqrtk"]}
{"id": "C91", "title": "Adding probes does not change what was already there", "statement": "When further probes, none reaching beyond the largest zmax of the survey, are appended to a list of probes, gaussian_cl_covariance_and_mean returns for every pair of the old tracers the same mean values, and for every two pairs of old tracers the same covariance entries, as without them; every old pair still has a row.", "quantifier": "every list of usable probes, every appended list, every multipole grid of length >= 2, every power-spectrum model", "why_tests_cant": "Rows move when tracers are added, so a test fixes one pair of surveys; the claim is over all surveys and additions, and comparing two runs needs the index maps of both.", "anchors": ["jax_cosmo/angular_cl.py:gaussian_cl_covariance_and_mean", "jax_cosmo/angular_cl.py:angular_cl", "jax_cosmo/angular_cl.py:_get_cl_ordering"]}
{"id": "C92", "title": "Angular spectra scale with the amplitudes that enter them", "statement": "angular_cl is linear in the power spectrum; multiplying a constant galaxy bias by s multiplies each row by s once per tracer of that probe in the pair; a change of a common shear calibration from m to m' does the same with (1+m')/(1+m); with the linear power spectrum, changing only sigma8 multiplies the linear power and all rows by the square of the ratio.", "quantifier": "every cosmology, every list of probes containing the probe at any place, all factors, all multipoles", "why_tests_cant": "A test checks one factor for one survey to a tolerance; the exact law for every factor and survey includes the claim that sigma8 enters nowhere else.", "anchors": ["jax_cosmo/angular_cl.py:angular_cl", "jax_cosmo/power.py:linear_matter_power", "jax_cosmo/bias.py:constant_linear_bias", "jax_cosmo/probes.py:WeakLensing"]}
{"id": "C93", "title": "More noise never tightens a forecast", "statement": "If every tracer's noise is at least as large, the Gaussian covariance built from the same signal is at least as large as a quadratic form, and for the same data and mean the log-likelihood without the determinant term does not decrease.", "quantifier": "every signal with positive semidefinite spectra, every pair of surveys with the same tracers, every data and mean vector", "why_tests_cant": "The order of matrices is a statement about all directions at once; a test can only evaluate some of them.", "anchors": ["jax_cosmo/angular_cl.py:gaussian_cl_covariance", "jax_cosmo/angular_cl.py:noise_cl", "jax_cosmo/likelihood.py:gaussian_log_likelihood"]}
{"id": "C94", "title": "A forecast covariance can be fed straight into the likelihood", "statement": "For any survey with positive noise and a non-negative power spectrum, gaussian_log_likelihood accepts the output of gaussian_cl_covariance_and_mean, sparse or dense; the sparse call (with any method), the dense inverse call and the dense cholesky call return the same value; without the determinant term it is at most 0, and 0 exactly when the data equal the mean.", "quantifier": "every cosmology, survey, multipole grid, data vector, both settings of include_logdet", "why_tests_cant": "Tests use one survey and compare within tolerance; that no admissible survey yields a matrix one of the three paths cannot handle is a statement about all of them.", "anchors": ["jax_cosmo/angular_cl.py:gaussian_cl_covariance_and_mean", "jax_cosmo/likelihood.py:gaussian_log_likelihood", "jax_cosmo/sparse.py:slogdet"]}
{"id": "C95", "title": "Sparse products and inverses obey the laws of matrix algebra", "statement": "inv(inv(x)) = x, inv(dot(x, y)) = dot(inv(y), inv(x)), dot is associative on sparse matrices, and dot(x, dot(inv(x), v)) = v for every vector.", "quantifier": "every block number, block size and content with invertible slices; all vectors", "why_tests_cant": "Random tests cover a few sizes to a tolerance; the laws are identities for all sizes.", "anchors": ["jax_cosmo/sparse.py:dot", "jax_cosmo/sparse.py:inv"]}
{"id": "C96", "title": "Halofit returns to linear theory on large scales", "statement": "As k tends to 0 the ratio of the halofit power to the linear power tends to 1, for takahashi2012 and, where the dark-energy fraction interpolation is a true interpolation, for smith2003.", "quantifier": "every cosmology with -3 < n_s < 1 and 0 < Omega_m(a) <= 1, every scale factor with non-zero growth, every transfer function tending to 1", "why_tests_cant": "A limit concerns arbitrarily small k, below any tabulated comparison.", "anchors": ["jax_cosmo/power.py:halofit"]}
{"id": "C97", "title": "Sources farther away are lensed more", "statement": "For source planes at redshifts z1 <= z2 the lensing kernel of the first is non-negative and nowhere above that of the second, and every auto or cross shear spectrum grows when its sources are moved back.", "quantifier": "every expanding cosmology with non-negative matter, every lens redshift, every multipole >= 1, every set of source planes", "why_tests_cant": "An order between functions at all redshifts and all cosmologies, including lenses behind one of the planes and distances below the 1 Mpc/h floor.", "anchors": ["jax_cosmo/probes.py:weak_lensing_kernel", "jax_cosmo/angular_cl.py:angular_cl"]}
{"id": "C98", "title": "The background depends only on total matter, curvature, dark energy and the growth index", "statement": "Two cosmologies with the same Omega_c + Omega_b, Omega_k, w0, wa and gamma return identical expansion rates, distances (in Mpc/h), inverse distances, growth factors and growth rates, whatever h, n_s, sigma8 and the baryon fraction are and whatever was called before; the transfer functions depend on Omega_c, Omega_b and h only.", "quantifier": "every pair of cosmology objects in any cache state, every argument", "why_tests_cant": "Independence of a parameter is a statement about all values of it; tests vary it at a few points.", "anchors": ["jax_cosmo/background.py:Esqr", "jax_cosmo/background.py:radial_comoving_distance", "jax_cosmo/background.py:growth_factor", "jax_cosmo/transfer.py:Eisenstein_Hu"]}
{"id": "C99", "title": "The Gaussian likelihood does not depend on the basis or the order of the data", "statement": "Replacing data, mean and covariance by A data, A mean and A C A^T for an invertible A leaves the log likelihood without the determinant unchanged; with the determinant it changes by a constant that depends on A alone. Listing the same data in any other order (permuting data, mean and covariance alike) leaves both unchanged.", "quantifier": "every size, every invertible covariance, every invertible A or permutation, all data and means", "why_tests_cant": "An invariance under all linear maps; tests try a few matrices with a tolerance.", "anchors": ["jax_cosmo/likelihood.py:gaussian_log_likelihood"]}
{"id": "C100", "title": "With a sparse covariance the multipoles contribute independently", "statement": "The log likelihood of a block-diagonal (sparse) covariance, with or without determinant and for every inverse_method, is the sum over the multipoles of the dense log likelihood of the spectra at that multipole with the covariance of that multipole.", "quantifier": "every number of spectra and multipoles, every sparse covariance with invertible trailing blocks, all data and means, every method", "why_tests_cant": "Requires agreement of two different code paths (sparse and dense) on all inputs and all shapes.", "anchors": ["jax_cosmo/likelihood.py:gaussian_log_likelihood", "jax_cosmo/sparse.py:inv", "jax_cosmo/sparse.py:slogdet"]}
{"id": "C101", "title": "The precision matrix of a survey is a precision matrix", "statement": "The sparse inverse of a symmetric positive definite sparse covariance is again symmetric and positive definite, both have slogdet sign 1, and their log determinants are opposite.", "quantifier": "every block count and block size, every symmetric positive definite sparse matrix", "why_tests_cant": "Positive definiteness quantifies over all vectors; tests check a handful of random matrices.", "anchors": ["jax_cosmo/sparse.py:inv", "jax_cosmo/sparse.py:slogdet", "jax_cosmo/sparse.py:to_dense"]}
{"id": "C102", "title": "Shape of the Smail distribution", "statement": "smail_nz is non-negative, positive for z > 0, integrates to one with the quadrature used by the library, and has exactly one maximum, at z0 (alpha/beta)^(1/beta); a systematic_shift by b moves that maximum to z0 (alpha/beta)^(1/beta) + b.", "quantifier": "all alpha, beta, z0 > 0, every zmax, every shift below zmax, every redshift", "why_tests_cant": "A global maximum over a continuum of redshifts and parameters.", "anchors": ["jax_cosmo/redshift.py:smail_nz", "jax_cosmo/redshift.py:systematic_shift", "jax_cosmo/redshift.py:redshift_distribution"]}
{"id": "C103", "title": "Photometric shifts compose", "statement": "Shifting a distribution by b1 and then by b2 gives the distribution shifted by b1 + b2.", "quantifier": "every distribution, all shifts of either sign, every zmax, every redshift", "why_tests_cant": "Holds on most inputs and fails only where the clip at z = 0 of the inner shift has acted; a test with positive shifts passes.", "anchors": ["jax_cosmo/redshift.py:systematic_shift"]}
{"id": "C104", "title": "A shifted source plane keeps a unit normalisation", "statement": "systematic_shift applied to a delta_nz plane is a distribution with non-zero normalisation, located at the shifted redshift.", "quantifier": "every plane, every shift, every zmax", "why_tests_cant": "The result depends on whether the shifted redshift coincides with one of 257 quadrature nodes.", "anchors": ["jax_cosmo/redshift.py:systematic_shift", "jax_cosmo/redshift.py:delta_nz"]}
{"id": "C105", "title": "Power spectra on arrays are evaluated pointwise", "statement": "linear_matter_power and halofit called with numbers or one-dimensional arrays of wavenumbers and scale factors return, entry by entry, the value for that pair after broadcasting, a number when there is only one pair; arrays of incompatible lengths raise an error and so does an unknown halofit prescription.", "quantifier": "every cosmology in any cache state, every transfer function, all wavenumbers and scale factors, every pair of broadcastable lengths, both prescriptions", "why_tests_cant": "The code mixes outer products, expand_dims, vmap and squeeze; that no entry is mixed with another for every length and every value cannot be sampled.", "anchors": ["jax_cosmo/power.py:linear_matter_power", "jax_cosmo/power.py:halofit", "jax_cosmo/power.py:_halofit_parameters"]}
{"id": "C106", "title": "odeint converges to the solution of the differential equation", "statement": "For every right-hand side that is Lipschitz in y and every solution whose derivative is continuous, the values odeint returns (for a number or for a pair of numbers) come within any prescribed eps of the solution at every node, uniformly over all grids whose steps are small enough, equally spaced or not. When the derivative of the solution is itself Lipschitz with constant K, the error on a grid with steps at most h is bounded by 3 K h (b-a) exp(2 L (b-a)).", "quantifier": "for all right-hand sides, solutions, intervals, tolerances and all grids of any length with steps at most h", "why_tests_cant": "tests compare with one known solution on one grid; convergence quantifies over all equations, all tolerances and all refinements, and a scheme with a wrong weight can look accurate on one smooth example", "anchors": ["jax_cosmo/scipy/ode.py:odeint"]}
{"id": "C107", "title": "the growth factor and growth rate converge to the solution of the growth equation", "statement": "For every cosmology with E^2 > 0 the equation D'' + (3/a + E'/E) D' = 3/2 Omega_m(a) D/a^2 with D(a0) = a0, D'(a0) = 1 has exactly one solution on [a0, 1]. As the number of steps grows, the growth factor returned for an array of scale factors in [a0, 1] tends to D(a)/D(1) and the growth rate to a D'(a)/D(a), uniformly in the scale factors, for all dark energy parameters and curvatures; for a cosmological constant the limit is Heath's closed integral.", "quantifier": "for all cosmologies with positive E^2 and non-negative matter density, all a0 < 1, all tolerances, all arrays of scale factors in [a0, 1]", "why_tests_cant": "a test compares a few values with another code at a tolerance; it cannot tell a correct equation with a coarse table from a slightly wrong equation, which is what convergence to the solution decides", "anchors": ["jax_cosmo/background.py:_growth_factor_ODE", "jax_cosmo/background.py:_growth_rate_ODE", "jax_cosmo/scipy/ode.py:odeint", "jax_cosmo/scipy/interpolate.py:interp"]}
{"id": "C108", "title": "comoving distances and the gamma growth factor converge to their integrals", "statement": "As the number of steps grows, radial_comoving_distance tends to the integral of c/(x^2 H(x)) from a to 1, and the growth factor of a cosmology with a growth index tends to exp(-integral of Omega_m(x)^gamma/x from a to 1), uniformly for scale factors in [10^log10_amin, 1].", "quantifier": "for all cosmologies with positive E^2, all log10_amin < 0, all tolerances, all scalars or arrays of scale factors in the range of the table", "why_tests_cant": "the limit over table sizes and the uniformity over all scale factors and cosmologies are out of reach of sampled comparisons", "anchors": ["jax_cosmo/background.py:radial_comoving_distance", "jax_cosmo/background.py:_growth_factor_gamma", "jax_cosmo/background.py:_growth_rate_gamma"]}
{"id": "C109", "title": "Table lookups and the background functions are continuous", "statement": "interp on an increasing grid of at least three nodes is a Lipschitz function of the query point, with constant the largest slope used; consequently radial_comoving_distance, transverse_comoving_distance, angular_diameter_distance, growth_factor and growth_rate are continuous in the scale factor.", "quantifier": "all grids, values and query points; all cosmologies and scale factors", "why_tests_cant": "A jump has measure zero and no grid of test points excludes it; gradient-based samplers rely on its absence everywhere.", "anchors": ["jax_cosmo/scipy/interpolate.py:interp", "jax_cosmo/background.py:radial_comoving_distance", "jax_cosmo/background.py:transverse_comoving_distance", "jax_cosmo/background.py:growth_factor", "jax_cosmo/background.py:growth_rate"]}
{"id": "C110", "title": "The inverse distance a_of_chi is continuous", "statement": "a_of_chi(chi) is a continuous function of chi for every expanding cosmology.", "quantifier": "all expanding cosmologies, all distances", "why_tests_cant": "The jumps sit half way between consecutive table distances; round-trip tests at a few redshifts with a loose tolerance do not land on them.", "anchors": ["jax_cosmo/background.py:a_of_chi", "jax_cosmo/scipy/interpolate.py:interp"]}
{"id": "C111", "title": "The halofit non-linear scale varies continuously with sigma8", "statement": "The non-linear wavenumber selected by the halofit parameter search is a continuous function of the amplitude sigma8.", "quantifier": "all cosmologies, transfer functions and amplitudes", "why_tests_cant": "The discontinuities are isolated values of sigma8; comparison at one fiducial cosmology cannot meet them.", "anchors": ["jax_cosmo/power.py:_halofit_parameters", "jax_cosmo/scipy/interpolate.py:interp"]}
{"id": "C112", "title": "halofit returns a finite positive number", "statement": "For k > 0, non-negative linear power and matter fraction in (0,1], halofit returns a finite positive number, for both prescriptions; divisions by zero and invalid powers follow floating-point conventions (infinities and NaN propagate).", "quantifier": "all wavenumbers, scale factors, transfer functions, cosmologies", "why_tests_cant": "A NaN that appears only where a quantity equals exactly one is not met by generic parameters.", "anchors": ["jax_cosmo/power.py:halofit", "jax_cosmo/power.py:_halofit_parameters"]}
{"id": "C113", "title": "Compiling with jit does not change the outcome of a program", "statement": "A sequence of background calls on one Cosmology gives the same results whether or not parts of it are wrapped in jax.jit, with the object captured from the enclosing scope or passed as an argument.", "quantifier": "all programs built from background calls, sequencing and the two kinds of jit; all cosmologies without gamma", "why_tests_cant": "Whether it fails depends on which tables were computed before, inside and after the compiled function; only the order of calls in the test suite is ever exercised.", "anchors": ["jax_cosmo/background.py:radial_comoving_distance", "jax_cosmo/background.py:a_of_chi", "jax_cosmo/background.py:_growth_factor_ODE", "jax_cosmo/background.py:_growth_rate_ODE", "jax_cosmo/core.py:Cosmology"]}
{"id": "C114", "title": "The lensing kernel of a source plane uses angular-diameter distances", "statement": "For a source plane at z' the kernel of weak_lensing_kernel at z is 3/2 H0^2 Omega_m/c (1+z) f(chi) f(chi'-chi)/f(chi') times the spin factor, with f the comoving angular-diameter distance of the universe, as transverse_comoving_distance computes it.", "quantifier": "all cosmologies without gamma, all lens and source redshifts, all ell above 1, flat, open and closed", "why_tests_cant": "The tests use flat universes only, where the radial and the angular distance agree.", "anchors": ["jax_cosmo/probes.py:weak_lensing_kernel", "jax_cosmo/background.py:transverse_comoving_distance"]}
{"id": "C115", "title": "Gradient and Hessian of the log-likelihood are the score and the Fisher information", "statement": "For a mean depending smoothly on parameters, the derivative of gaussian_log_likelihood along a parameter is mu'^T P (data - mu); at data = mu the gradient vanishes and the mixed second derivative is minus the Fisher matrix mu_s^T P mu_t, non-negative and zero only along directions that leave the mean unchanged, with or without the log-determinant, for dense inverse, dense Cholesky and sparse covariances alike.", "quantifier": "all data vectors, all symmetric positive definite covariances in every accepted form, all differentiable families of means", "why_tests_cant": "Fisher forecasts differentiate the likelihood for arbitrary models; a finite-difference test checks one model at one point.", "anchors": ["jax_cosmo/likelihood.py:gaussian_log_likelihood"]}
{"id": "C116", "title": "The no-wiggle transfer function decreases with k and falls as ln k / k^2", "statement": "The Eisenstein-Hu transfer function without oscillations is strictly decreasing in k, lies in (0,1], and k^2 T(k)/ln k tends to the closed-form constant (Omega_m h alpha_Gamma (2.7/Tcmb)^2)^2/14.2 on small scales; hence the linear power grows with k strictly slower than k^n_s.", "quantifier": "all cosmologies with baryons and positive h whose alpha_Gamma lies in (0,1] (C116_realistic: all with 0.045 <= Omega_m h^2 <= 0.37 and at most half the matter in baryons), all wavenumbers", "why_tests_cant": "Monotonicity and a limit concern all wavenumbers; the tests compare a fixed grid with CCL.", "anchors": ["jax_cosmo/transfer.py:Eisenstein_Hu", "jax_cosmo/power.py:linear_matter_power"]}
{"id": "C117", "title": "The transfer functions are the published Eisenstein & Hu (1998) ones", "statement": "Eisenstein_Hu(cosmo, k, type='eisenhu_osc') equals the full baryon+CDM transfer function of Eisenstein & Hu (1998) and type='eisenhu' their no-wiggle shape, written in physical units (omega_m h^2, omega_b h^2, T_cmb/2.7 K, k in 1/Mpc), at k[h/Mpc] times h. In particular two cosmologies with equal physical densities give the same transfer function at equal physical wavenumber, whatever h, w0, wa, sigma8, n_s, Omega_k are.", "quantifier": "for all cosmologies with positive baryon and CDM densities and h, all k > 0, both types", "why_tests_cant": "a test compares a few k of one cosmology to another code within a tolerance; a wrong power of h or a digit in a coefficient that hardly matters there stays unseen", "anchors": ["jax_cosmo/transfer.py:Eisenstein_Hu"]}
{"id": "C118", "title": "halofit's effective index and curvature are derivatives of the smoothed variance", "statement": "With S(u) the Gaussian-smoothed variance of the linear power (as integrated by the library on its own grid) at radius e^u, the k_nl, n, C returned internally by halofit satisfy n + 3 = - S'(u) and C = S'(u)^2 - S''(u) at u = ln(1/k_nl). Where S = 1 these are the first and second logarithmic derivatives that Smith et al. (2003) define.", "quantifier": "for all cosmologies whose growth factor is normalised today, all scale factors and transfer functions", "why_tests_cant": "tests compare the final spectrum at percent level; the analytic derivatives coded by hand are never compared with derivatives", "anchors": ["jax_cosmo/power.py:_halofit_parameters", "jax_cosmo/power.py:halofit"]}
{"id": "C119", "title": "halofit evaluates the published fitting formula", "statement": "halofit(cosmo, k, a, transfer, prescription='takahashi2012') equals 2 pi^2/k^3 times the Takahashi et al. (2012) fit, and 'smith2003' equals 2 pi^2/k^3 times the Smith et al. (2003) fit, both evaluated at the linear dimensionless power, k/k_nl, n, C and the density fractions at a.", "quantifier": "for all cosmologies, all k > 0 and scale factors with non-negative linear power and admissible density fractions", "why_tests_cant": "a digit wrong in one of forty coefficients moves the spectrum by less than the test tolerance, in a range of k no test visits", "anchors": ["jax_cosmo/power.py:halofit"]}
{"id": "C120", "title": "Forward-mode derivatives of the background functions are right", "statement": "jax.jvp of H, Omega_m_a, Omega_de_a, dchioverda, radial_comoving_distance, transverse_comoving_distance, angular_diameter_distance, growth_factor and growth_rate with respect to the cosmological parameters and the scale factor together returns the value of the function and its derivative, everywhere the function is differentiable; away from the kinks of the linear interpolation this holds for every cosmology and direction.", "quantifier": "for all cosmologies with positive E^2, all directions in parameter space, all scale factors and tangents", "why_tests_cant": "gradient tests compare finite differences at one cosmology with loose tolerances; the kinks (tables, clipping, the curvature switch) are sets of measure zero that sampling misses although a = 1 is the most used scale factor", "anchors": ["jax_cosmo/background.py:radial_comoving_distance", "jax_cosmo/background.py:transverse_comoving_distance", "jax_cosmo/background.py:growth_factor", "jax_cosmo/background.py:growth_rate", "jax_cosmo/background.py:H", "jax_cosmo/scipy/interpolate.py:interp"]}
{"id": "C121", "title": "Forward-mode derivatives of the transfer functions and the linear power spectrum are right", "statement": "jax.jvp of Eisenstein_Hu (both types), of sigmasqr and of linear_matter_power with respect to the cosmological parameters, the wave number and the scale factor together returns the value and its derivative; at fixed a = 1 this includes every direction in parameter space.", "quantifier": "for all cosmologies with baryons, all k > 0, all scale factors where the growth factor is differentiable, all directions, all user transfer functions that are themselves differentiated correctly", "why_tests_cant": "the repository tests values only; a gradient test samples one cosmology and a few wave numbers, and cannot see points where the program is not differentiable", "anchors": ["jax_cosmo/power.py:linear_matter_power", "jax_cosmo/power.py:sigmasqr", "jax_cosmo/transfer.py:Eisenstein_Hu", "jax_cosmo/scipy/integrate.py:romb"]}
{"id": "C122", "title": "Derivatives of the kernels and angular power spectra returned by forward-mode differentiation are the derivatives", "statement": "Differentiating angular_cl or a probe kernel with jax.jvp along a direction in the cosmological parameters returns, entry by entry, the values and the derivatives of the array the code returns, for any list of lensing and number-counts probes (extended and delta bins, every bias model, intrinsic alignments, scalar or per-bin multiplicative bias), and raises the exception the code raises. This holds for newly built cosmologies with the default growth and a non-degenerate expansion, bins inside the growth table, multipoles above -0.5, and no visited epoch at exactly 1 Mpc/h, where the code clips the distance. The clips in the lensing efficiency are harmless: sources at the redshift of the lens give identical arguments and all others are strictly separated because the distance is strictly decreasing.", "quantifier": "All newly built cosmologies with physical and moderate parameters, all directions, all probe lists, all arrays of multipoles, all spectra that themselves follow curves (in particular the linear spectrum with either transfer function).", "why_tests_cant": "Tests compare a few derivatives with finite differences to a few digits; they cannot exclude parameter values, bins or multipoles where a clip or a table node makes the automatic derivative differ from the true one.", "anchors": ["jax_cosmo/angular_cl.py:angular_cl", "jax_cosmo/probes.py:weak_lensing_kernel", "jax_cosmo/probes.py:density_kernel", "jax_cosmo/probes.py:nla_kernel"]}
{"id": "C123", "title": "Derivatives of the non-linear power spectrum and of the default angular power spectra returned by forward-mode differentiation are the derivatives", "statement": "Differentiating halofit (either prescription) and angular_cl with its default non-linear model with jax.jvp along a direction in the cosmological parameters and in the wavenumber returns the value and the derivative of the number or array the code returns, including the derivative through the search of the non-linear scale, the slope and the curvature. This holds at every scale factor of the growth table at which exactly one entry of the search table is nearest to variance one, the radius found is not exactly the floor of 1e-6 Mpc/h, and the fitting formula has no kink (takahashi2012) or vanishing denominator (smith2003) there. For every cosmology only finitely many values of sigma8 violate the conditions on the search at a given scale factor.", "quantifier": "All newly built cosmologies with physical and moderate parameters and default growth, all directions, all wavenumbers, both prescriptions, all probe lists and multipoles; all sigma8 but finitely many for the search.", "why_tests_cant": "The search interpolates in a table that itself moves with the parameters; tests compare derivatives at a handful of points with finite differences and cannot show that the automatic derivative follows the moving table everywhere, nor count the exceptional amplitudes.", "anchors": ["jax_cosmo/power.py:halofit", "jax_cosmo/power.py:_halofit_parameters", "jax_cosmo/power.py:nonlinear_matter_power", "jax_cosmo/angular_cl.py:angular_cl"]}
{"id": "C124", "title": "Differentiating the whole pipeline returns the gradient of the log-likelihood", "statement": "Running gaussian_log_likelihood in forward mode (jax.jvp) on a mean and a covariance that depend on a parameter returns the value together with its derivative, mu'^T P r + r^T P C' P r / 2 (+ tr(P C') / 2 with include_logdet=True, with the sign the code uses), r = data - mu, P = C^-1; the dense route by inverse, the dense route by Cholesky and the block-sparse route (pivots of the block elimination included) return the same number. Composed with gaussian_cl_covariance_and_mean and angular_cl, the derivative with respect to the eight cosmological parameters of the log-likelihood of a lensing and clustering survey comes out exactly, also with the default non-linear model.", "quantifier": "all data, all smooth curves of means and of symmetric covariances that are positive definite at the point, every block count and block size, with or without the log-determinant, all three routes; all directions in parameter space, all surveys whose spectra meet the hypotheses of C122/C123, any number of multipoles >= 2", "why_tests_cant": "a finite-difference test sees one direction at one point with a tolerance and cannot separate a missing term (for example a covariance treated as constant) from truncation error; agreement of the three routes for all sizes is a statement about matrix calculus", "anchors": ["jax_cosmo/likelihood.py:gaussian_log_likelihood", "jax_cosmo/angular_cl.py:gaussian_cl_covariance", "jax_cosmo/angular_cl.py:gaussian_cl_covariance_and_mean", "jax_cosmo/sparse.py:inv", "jax_cosmo/sparse.py:slogdet", "jax_cosmo/sparse.py:sparse_dot_vec"]}
{"id": "C125", "title": "The gradient of the likelihood with include_logdet=True is the score of the normal density", "statement": "With include_logdet=True, differentiating gaussian_log_likelihood when the covariance depends on the parameters returns the derivative of the log density of the normal distribution N(mu, C) at the data.", "quantifier": "all data, all smooth curves of means and positive definite covariances", "why_tests_cant": "the sign of one term in a sum is invisible to a test with a fixed covariance, and a likelihood maximiser still converges, to the wrong place", "anchors": ["jax_cosmo/likelihood.py:gaussian_log_likelihood"]}
{"id": "C126", "title": "Asking for a derivative does not change the value", "statement": "For every cosmology, every direction in parameter space and every argument, the primal output of jax.jvp through the background functions, the transfer functions, the linear and non-linear power spectra, angular_cl and the likelihood of a survey equals what the plain call returns, including the exception it raises. This also holds where the function has no derivative: at a=1 and the table nodes, at exact flatness, at clips, at ties of argmin and at zero denominators.", "quantifier": "for all cosmologies without a cached table, all directions, arguments, probes, multipoles, data, both transfer functions and both power models", "why_tests_cant": "A test compares values and primal outputs at some generic points; the kinks where a differentiation-friendly rewrite (a double where, a custom rule) changes the value are a set of measure zero.", "anchors": ["jax_cosmo/background.py:radial_comoving_distance", "jax_cosmo/background.py:growth_factor", "jax_cosmo/power.py:halofit", "jax_cosmo/angular_cl.py:angular_cl", "jax_cosmo/likelihood.py:gaussian_log_likelihood"]}
{"id": "C127", "title": "Directional derivatives assemble into one gradient", "statement": "At every cosmology and every argument there is exactly one gradient vector such that jax.jvp along each direction returns its scalar product with that direction; for arrays there is one such vector for each entry, the shape does not depend on the direction, and if one direction raises an exception every direction raises the same one. So jax.jacfwd along the unit directions determines every directional derivative, also at points where the function is not differentiable.", "quantifier": "for all cosmologies, arguments, probes, multipoles, data and all directions, without smoothness or range hypotheses", "why_tests_cant": "Linearity of the tangent map in the direction is a statement about an eight-dimensional space at every point; tests check a few components at smooth points, while one-sided rules at kinks (abs, max, where) would break it only there.", "anchors": ["jax_cosmo/background.py:radial_comoving_distance", "jax_cosmo/background.py:growth_factor", "jax_cosmo/power.py:linear_matter_power", "jax_cosmo/power.py:halofit", "jax_cosmo/angular_cl.py:angular_cl", "jax_cosmo/likelihood.py:gaussian_log_likelihood"]}
{"id": "C128", "title": "jax.grad and jax.vjp return the gradient, the transpose of forward mode", "statement": "For every cosmology and every cotangent, the backward pass of the background functions, transfer functions, power spectra, angular_cl and the likelihood of a survey sends back to the eight parameters (and to the further arguments) exactly the transpose of what forward mode does: <u, jvp(d)> = <vjp(u), d> for all directions d; the primal value is the same and exceptions are the same. For a survey whose spectra are differentiable, jax.grad of the log-likelihood is the gradient of the log-likelihood.", "quantifier": "for all cosmologies, arguments, cotangents (arrays for array outputs), directions; last sentence under the smoothness conditions of C124", "why_tests_cant": "Agreement of the two modes is a bilinear identity at every point including kinks and ties; tests compare them at a few points for a few outputs.", "anchors": ["jax_cosmo/background.py:growth_factor", "jax_cosmo/power.py:halofit", "jax_cosmo/angular_cl.py:angular_cl", "jax_cosmo/likelihood.py:gaussian_log_likelihood", "jax_cosmo/core.py:Cosmology"]}
{"id": "C129", "title": "Three ways to a Fisher matrix agree: minus jax.hessian, dmu.T C^-1 dmu through jc.sparse, and the curvature of the likelihood", "statement": "For the likelihood of the introductory notebook (sparse Gaussian covariance held constant by stop_gradient, data equal to the mean), jax.hessian is the same by forward-over-reverse and by forward-over-forward differentiation; minus it equals sparse.dot(dmu.T, sparse.inv(cov), dmu) with dmu = jax.jacfwd of the flattened angular_cl, whatever the power spectrum model, also where the spectra have kinks; that matrix is symmetric and positive semi-definite and is the one the dense covariance gives. For surveys with differentiable spectra, minus it is also the curvature at the maximum of gaussian_log_likelihood without log-determinant as a function of the cosmology, although the covariance moves with it, for sparse and dense covariances and both methods.", "quantifier": "for all cosmologies (with all eight parameters free), probes, multipoles, sky fractions, sets of directions, power spectrum models; last sentence under the smoothness conditions of C124", "why_tests_cant": "The equality is between two different programs' derivatives at every parameter value; the notebook compares two pictures of one survey.", "anchors": ["jax_cosmo/sparse.py:dot", "jax_cosmo/sparse.py:inv", "jax_cosmo/angular_cl.py:gaussian_cl_covariance_and_mean", "jax_cosmo/angular_cl.py:angular_cl", "jax_cosmo/likelihood.py:gaussian_log_likelihood"]}
{"id": "C130", "title": "The Fisher matrix of README.md, minus the Hessian of the likelihood", "statement": "README.md computes \"the Fisher matrix of cosmological parameters\" as F = - jax.hessian(likelihood)(cosmo) with the likelihood gaussian_log_likelihood(data, mu, cov) of the mean and covariance of gaussian_cl_covariance_and_mean. With data equal to the mean, F is the Fisher information of the normal model mu, cov.", "quantifier": "for all surveys, cosmologies, parameters", "why_tests_cant": "Needs second derivatives of the whole chain compared with an information defined by an average over data; no test evaluates a Hessian of the likelihood.", "anchors": ["jax_cosmo/likelihood.py:gaussian_log_likelihood", "jax_cosmo/angular_cl.py:gaussian_cl_covariance_and_mean"]}
{"id": "C131", "title": "Derivatives with respect to redshift distributions, biases and shear calibrations are those of the spectra", "statement": "design.md promises jax.grad(likelihood)(nz). Differentiating (jvp) normalised redshift distributions, probe kernels and angular_cl in any joint direction of the cosmology and of the traceable parameters of the probes - Smail a, b, z0, KDE samples and weights, systematic shifts, source-plane redshifts, linear and intrinsic-alignment biases, multiplicative biases - returns the value of the undifferentiated program and the derivative of the function it computes, for the linear and for the default halofit spectrum; away from stated kinks (a shift at a node of a distribution that does not start flat, a moving source plane on a node of the distance table or of the Limber sum).", "quantifier": "for all surveys, parameters, directions, redshifts, multipoles and cosmologies away from the stated kinks", "why_tests_cant": "A finite-difference test checks one direction at one survey up to truncation error; the claim is exact and joint in all parameters, including at clip boundaries (a shift of zero, the usual fiducial value).", "anchors": ["jax_cosmo/redshift.py:smail_nz", "jax_cosmo/redshift.py:systematic_shift", "jax_cosmo/redshift.py:kde_nz", "jax_cosmo/redshift.py:redshift_distribution.__call__", "jax_cosmo/bias.py:des_y1_ia_bias", "jax_cosmo/probes.py:weak_lensing_kernel", "jax_cosmo/probes.py:density_kernel", "jax_cosmo/probes.py:WeakLensing.kernel", "jax_cosmo/angular_cl.py:angular_cl"]}
{"id": "C132", "title": "Gradients with respect to a differentiable redshift distribution are finite", "statement": "Where the normalised Smail or shifted distribution is a differentiable function of its parameters, jax.grad returns that derivative, a finite number. (True for exponents a, b of at least 1. False for a cut-off exponent 0 < b < 1, the parametrisation of the LSST requirements: (z / z0) ** b has an infinite slope at the first normalisation node z = 0, so the derivative with respect to z0, or to a non-negative systematic shift, is NaN at every redshift, and with it every clustering spectrum.)", "quantifier": "for all parameters, redshifts, cosmologies, biases and multipoles", "why_tests_cant": "Values are finite and gradients for b = 2 (the value in the tests and notebooks) are finite; whether 0 * inf occurs depends on the parameter range, which must be covered entirely.", "anchors": ["jax_cosmo/redshift.py:smail_nz.pz_fn", "jax_cosmo/redshift.py:systematic_shift.pz_fn", "jax_cosmo/redshift.py:redshift_distribution.__call__", "jax_cosmo/probes.py:density_kernel", "jax_cosmo/angular_cl.py:angular_cl"]}
{"id": "C133", "title": "jax.grad of the survey likelihood with respect to cosmology and nuisance parameters is its gradient", "statement": "design.md promises jax.grad(likelihood)(nz). For the Gaussian log likelihood of gaussian_cl_covariance_and_mean, dense or sparse, with the default halofit spectrum: forward and reverse mode with respect to the cosmology together with all traceable parameters of the probes (distribution parameters, galaxy densities - so the noise moves too -, biases, calibrations) agree as transposes, return the value of the undifferentiated program, and the result of jax.grad paired with any joint direction is the derivative of the likelihood in that direction; parameters may be shared between bins.", "quantifier": "for all surveys, cosmologies, data vectors, directions and sharings of parameters between bins, away from the stated kinks", "why_tests_cant": "A finite-difference test checks single directions at one survey up to truncation error; transposition and exactness are claimed for every parameter of every survey at once.", "anchors": ["jax_cosmo/likelihood.py:gaussian_log_likelihood", "jax_cosmo/angular_cl.py:gaussian_cl_covariance_and_mean", "jax_cosmo/angular_cl.py:noise_cl", "jax_cosmo/probes.py:WeakLensing.noise", "jax_cosmo/probes.py:NumberCounts.noise", "jax_cosmo/redshift.py:redshift_distribution.gals_per_steradian", "jax_cosmo/redshift.py:redshift_distribution.tree_flatten"]}
{"id": "C134", "title": "Compiling with jit does not change what redshift distributions return", "statement": "Evaluating redshift distributions gives the same values whether or not parts of the program are wrapped in jax.jit, with the distributions captured from the enclosing scope or passed as arguments. (True when distributions reach compiled functions as arguments, as in the kernels of angular_cl, so a captured survey is safe there; and when each was evaluated once outside before. False otherwise: nz(z) under jit on a captured distribution stores a tracer in nz._norm and every later evaluation of that object raises UnexpectedTracerError.)", "quantifier": "all programs built from evaluations, sequencing and the two kinds of jit; all lists of distributions", "why_tests_cant": "Whether it fails depends on the order of evaluations across compiled and uncompiled code on shared objects; tests build fresh objects and evaluate each once.", "anchors": ["jax_cosmo/redshift.py:redshift_distribution.__call__", "jax_cosmo/redshift.py:redshift_distribution.tree_flatten", "jax_cosmo/redshift.py:redshift_distribution.tree_unflatten", "jax_cosmo/probes.py:density_kernel", "jax_cosmo/probes.py:weak_lensing_kernel"]}
{"id": "C135", "title": "Gradients contain no infinities and no NaN", "statement": "A common failure of jax.grad is a NaN from an intermediate expression that is harmless to the value: 0 * inf in the derivative of a power, a root or a logarithm at an edge, or the branch of a where that is not taken. Run on values and tangents that may be infinite or NaN, with jax's own derivative rules, the background functions, comoving distances, growth factor and rate, both Eisenstein-Hu transfer functions, the linear and halofit spectra, the kernels of weak lensing and number counts and the Limber spectra keep every value and every tangent finite, and return the value of the function and its derivative along any motion of the cosmology, of the query and of the parameters of the probes.", "quantifier": "all cosmologies with baryons and positive expansion rate, all directions, all surveys away from the stated kinks; any parameter may be at rest or move", "why_tests_cant": "NaN gradients arise at isolated parameter values and in tangents nobody reads; tests evaluate gradients at one or two fiducial cosmologies.", "anchors": ["jax_cosmo/background.py:radial_comoving_distance", "jax_cosmo/background.py:growth_factor", "jax_cosmo/background.py:growth_rate", "jax_cosmo/transfer.py:Eisenstein_Hu", "jax_cosmo/power.py:linear_matter_power", "jax_cosmo/power.py:halofit", "jax_cosmo/probes.py:weak_lensing_kernel", "jax_cosmo/probes.py:density_kernel", "jax_cosmo/probes.py:nla_kernel", "jax_cosmo/angular_cl.py:angular_cl"]}
{"id": "C136", "title": "The transfer functions are defined for every cosmology with matter", "statement": "Both types of Eisenstein_Hu return ordinary numbers for every cosmology with matter, with or without baryons. (True when Omega_b > 0; false at Omega_b = 0: the sound horizon is sqrt(6 / R_eq) * log(...) with R_eq = 0, that is inf * 0, so both transfer functions, sigma8 normalisation and all power spectra are NaN for every wave number.)", "quantifier": "all cosmologies with Omega_c > 0, h > 0 and Omega_b >= 0, all wave numbers", "why_tests_cant": "The value fails at one point of the parameter space that no test visits, and fails silently.", "anchors": ["jax_cosmo/transfer.py:Eisenstein_Hu", "jax_cosmo/power.py:linear_matter_power"]}
{"id": "C137", "title": "jax.grad never meets an infinity or NaN on the way to the spectra", "statement": "Run in floating point, up to rounding, the backward pass of jax.grad through the background quantities, distances, growth, transfer functions, linear and halofit spectra, lensing and clustering kernels and angular power spectra of a regular cosmology and survey sends every finite cotangent to finite amounts on every differentiated parameter, the value returned is the value of the plain program, and the amounts are the gradient: their product with any tangent of the parameters is the directional derivative. A program that raises does so in every such run.", "quantifier": "all cosmologies with a positive expansion rate (and the conditions of C135 at each stage), all surveys whose bins, biases and calibrations are smooth where the kernels evaluate them, all assignments of parameters to slots (also shared ones), all tangents, all multipoles above -1/2", "why_tests_cant": "a NaN in a gradient can come from an intermediate number at one node of one table that is multiplied by zero in the value; tests run at a few cosmologies and compare values, and the property concerns every intermediate number of every backward pass", "anchors": ["jax_cosmo/background.py:radial_comoving_distance", "jax_cosmo/background.py:growth_factor", "jax_cosmo/transfer.py:Eisenstein_Hu", "jax_cosmo/power.py:linear_matter_power", "jax_cosmo/power.py:halofit", "jax_cosmo/probes.py:weak_lensing_kernel", "jax_cosmo/probes.py:density_kernel", "jax_cosmo/angular_cl.py:angular_cl"]}
{"id": "C138", "title": "jax.grad of a differentiable redshift distribution is finite", "statement": "Wherever the normalised density of a redshift distribution is a differentiable function of the parameters of the distribution, jax.grad returns in floating point, up to rounding, the finite gradient. (False of the code for Smail distributions whose cut-off exponent lies between 0 and 1: the first node of the normalisation is redshift 0, the backward pass multiplies the cotangent 0 by the infinite slope of z**b, and the gradient with respect to z0, or to the shift of a systematic_shift, is NaN at every redshift and in every clustering spectrum.)", "quantifier": "all nested redshift distributions, all redshifts, all assignments of parameters to slots; the NaN part for all Smail exponents 0 < b < 1", "why_tests_cant": "the value is right, only the gradient is NaN, and only for exponents below 1; the tests take gradients with respect to cosmological parameters", "anchors": ["jax_cosmo/redshift.py:smail_nz", "jax_cosmo/redshift.py:systematic_shift", "jax_cosmo/redshift.py:redshift_distribution", "jax_cosmo/angular_cl.py:angular_cl"]}
{"id": "C139", "title": "The gradient of the survey log-likelihood is finite", "statement": "Run in floating point, up to rounding, jax.jvp and jax.grad of the Gaussian log-likelihood of a survey (mean and covariance of the angular power spectra with shot and shape noise at the parameters, dense with either inverse method or sparse, with or without the log-determinant, linear or halofit spectra) return no infinity and no NaN: the value is the value of the plain program, the tangent is the directional derivative, and the backward pass sends every finite cotangent to the gradient with respect to all differentiated cosmological and nuisance parameters at once.", "quantifier": "all linear-algebra routines that are exact on finite invertible matrices; all cosmologies and surveys of C135/C137 with positive noise, at least two non-negative multipoles and a positive Knox factor; all data vectors of the right length; all assignments of parameters to slots; all tangents", "why_tests_cant": "a test evaluates the gradient at one cosmology and one survey and compares a few digits; the property concerns each intermediate number of each forward and backward pass, including the transposed rules of the matrix inverse, Cholesky solve and determinant, for all regular parameters", "anchors": ["jax_cosmo/likelihood.py:gaussian_log_likelihood", "jax_cosmo/angular_cl.py:gaussian_cl_covariance_and_mean", "jax_cosmo/angular_cl.py:noise_cl", "jax_cosmo/sparse.py:inv", "jax_cosmo/sparse.py:slogdet"]}
{"id": "C140", "title": "The gradient of the survey log-likelihood is finite wherever the log-likelihood is differentiable", "statement": "The log-likelihood of a survey (spectra, shot noise, Gaussian covariance, dense or sparse, any solver) is a differentiable function of the parameters of the redshift distributions as soon as their densities are, and wherever it is differentiable jax.grad and jax.jvp return in floating point, up to rounding, finite derivatives. (False of the code: one bin with a Smail cut-off exponent between 0 and 1, fitted for its scale or its shift, makes that component of the gradient NaN, for every other probe, data vector, power spectrum and linear algebra routine, although the log-likelihood is differentiable and its value is right. With exponents of at least 1 the statement holds.)", "quantifier": "all surveys, multipoles, data vectors, cosmologies in the stated range, spectra, oracles, both covariance layouts; the NaN part for all Smail exponents 0 < b < 1", "why_tests_cant": "the value is right, only the gradient is NaN, and only for exponents below 1 and fitted redshift distributions; no test takes the gradient of a likelihood", "anchors": ["jax_cosmo/likelihood.py:gaussian_log_likelihood", "jax_cosmo/angular_cl.py:gaussian_cl_covariance_and_mean", "jax_cosmo/angular_cl.py:angular_cl", "jax_cosmo/redshift.py:smail_nz", "jax_cosmo/redshift.py:systematic_shift"]}
{"id": "C141", "title": "Rounding errors of sums, Simpson integrals and redshift distributions", "statement": "In floating-point arithmetic with relative error u per operation, np.sum returns the exact sum up to ((1+u)^k - 1) times the sum of the absolute values, k being the depth of the tree of additions, whatever their order; simps returns the exact Simpson sum up to (g (1-u)^-(k+8) - 1) times the Simpson sum of the absolute values, g - 1 being the relative error of the samples; and a normalised n(z) of a non-negative density has a relative error of at most (1-r)^-2 (1-u)^-(k+9) - 1, r being that of the density.", "quantifier": "for all arithmetics with relative error u in [0,1), all lists, all orders of addition, all integrands, intervals, even N >= 2, all redshift distributions with non-negative density and positive integral", "why_tests_cant": "XLA chooses the order of additions and the precision; a test sees one order on one device for a few integrands.", "anchors": ["jax_cosmo/scipy/integrate.py:simps", "jax_cosmo/redshift.py:redshift_distribution.__call__"]}
{"id": "C142", "title": "Rounding errors of the expansion rate and of tabulated distances", "statement": "In floating-point arithmetic with relative error u per operation, E^2 and H have a relative error bounded explicitly by u, by how much of 1 is left for dark energy and by the exponent of the dark-energy density; the table of radial_comoving_distance differs from the exact-arithmetic table by at most an explicit multiple of the largest tabulated distance (4100 u times it for Planck15 and the default table if the times are correct to 20 u), hence from the distance integral by that and 0.01/sqrt(Omega_m) for a cosmological constant.", "quantifier": "for all arithmetics with relative error u, all cosmologies with Omega_m > 0, Omega_k >= 0, Omega_de > 0, any w0 and wa, all table ranges and sizes, all tabulated scale factors", "why_tests_cant": "The bound is over all parameters and over every way of rounding; tests compare with CCL at a few points on one machine and cannot separate rounding from the error of the method.", "anchors": ["jax_cosmo/background.py:Esqr", "jax_cosmo/background.py:H", "jax_cosmo/background.py:dchioverda", "jax_cosmo/background.py:radial_comoving_distance", "jax_cosmo/scipy/ode.py:odeint"]}
{"id": "C143", "title": "Rounding error of the table lookup and of radial_comoving_distance at any scale factor", "statement": "In any arithmetic whose operations are exact up to a relative error u <= 0.1, interp of a query between the second and the last node uses the two nodes enclosing it, although the nearest node is chosen by rounded squared distances, provided neighbouring gaps of the grid differ by at most a factor 2; its result differs from the exact interpolation by at most ((1+u)^5/(1-u) - 1)(2 rho + 1) F, where F bounds the entries and rho the ratio of a node to the gap below it. Changing the table entries by E and the nodes by a relative e changes the exact interpolation by at most E + M e/(1-e). Hence radial_comoving_distance computed wholly in rounded arithmetic (grid, Runge-Kutta table, lookup) differs from the exact program, and from the distance integral itself, by an explicit multiple of the largest tabulated distance; 5400 u times it for Planck15 and u <= 1e-6.", "quantifier": "all rounded arithmetics with error u, all tables with even grids, all queries between node 1 and the last node, all reachable physical cosmologies with positive dark energy, all computed grids within the stated tolerance", "why_tests_cant": "tests compare single-precision results with another code at 0.5 per cent for a few cosmologies; they cannot exclude a query for which rounding selects a wrong cell or amplifies the error of the table", "anchors": ["jax_cosmo/scipy/interpolate.py:interp", "jax_cosmo/background.py:radial_comoving_distance", "jax_cosmo/scipy/ode.py:odeint"]}
{"id": "C144", "title": "The printed form of an object identifies it", "statement": "Printing a Cosmology (str or repr) shows everything its predictions depend on: two cosmologies that print alike have the same parameters, including gamma. Printing a redshift distribution, bias or probe likewise tells different objects apart (class, parameters, configuration and galaxy density). False for gamma, which is never printed (two cosmologies print alike while their growth rates differ at every scale factor), and for containers, whose repr is the bare tuple of parameters: smail_nz(1, 2, 0.7) prints like smail_nz(1, 2, 0.7, zmax=2) and like smail_nz(1, 2, 0.7, gals_per_arcmin2=30), and delta_nz(1) like constant_linear_bias(1). True for the eight listed parameters, for cosmologies without gamma, and for the numeric parameters of containers.", "quantifier": "all cosmologies and containers, all ways of printing numbers that separate the numbers printed", "why_tests_cant": "a test prints a few objects; that no two different objects share a printed form concerns all pairs", "anchors": ["jax_cosmo/core.py:Cosmology.__str__", "jax_cosmo/core.py:Cosmology.__repr__", "jax_cosmo/jax_utils.py:container.__repr__"]}
{"id": "C145", "title": "More ksteps brings sigmasqr closer to its integral", "statement": "sigmasqr(cosmo, R, transfer_fn, kmin, kmax, ksteps) approximates the variance integral over its range of ln k to any accuracy when ksteps is large enough. False: ksteps is never read. There is a smooth transfer function and a range for which the integral is positive while sigmasqr returns 0 for every ksteps. What is true for every ksteps is the accuracy of the fixed 129-point rule: when the integrand is within e of some polynomial of degree at most 15, the result is within 2 e times the length of the range of the integral.", "quantifier": "all transfer functions, ranges and values of ksteps", "why_tests_cant": "a test compares one value of ksteps on the built-in transfer functions; convergence is a statement about all integrands and all ksteps", "anchors": ["jax_cosmo/power.py:sigmasqr", "jax_cosmo/scipy/integrate.py:romb"]}
{"id": "C146", "title": "Second derivatives and Hessians that jax computes through the library are true second derivatives", "statement": "jax.jacfwd(jax.jacfwd(f)), along any direction in the eight cosmological parameters, holds f, its derivative and its second derivative for the expansion rate, density parameters, w, dchi/da, the comoving and transverse distances, growth factor and growth rate, both transfer functions, the linear and halofit power spectra, and every entry of angular_cl. jax.hessian of the notebook's Gaussian likelihood (mean and sparse covariance from gaussian_cl_covariance_and_mean, covariance under stop_gradient), at any data vector, is the true second derivative of the likelihood with its covariance held fixed; it is a symmetric matrix and its off-diagonal entries are the mixed second derivatives.", "quantifier": "all expanding cosmologies with smooth fits, all directions, surveys, data vectors and linear-algebra back ends; scale factors off the nodes of the interpolation tables", "why_tests_cant": "a test compares one Hessian entry with a finite difference to a few digits at one cosmology; whether every rule composes to the second derivative, and whether the matrix is exactly symmetric, concerns all directions and surveys", "anchors": ["jax_cosmo/angular_cl.py:gaussian_cl_covariance_and_mean", "jax_cosmo/angular_cl.py:angular_cl", "jax_cosmo/background.py:radial_comoving_distance", "jax_cosmo/background.py:growth_factor", "jax_cosmo/power.py:linear_matter_power", "jax_cosmo/power.py:halofit", "jax_cosmo/transfer.py:Eisenstein_Hu", "jax_cosmo/scipy/interpolate.py:interp", "jax_cosmo/sparse.py:inv", "jax_cosmo/sparse.py:dot"]}
{"id": "C147", "title": "Redshift distributions act elementwise", "statement": "Calling a redshift distribution on an array returns an array of the same shape holding the normalised n(z) at every entry; on a number it returns a number. True for smail_nz and shifts of it on any shape, for catalogues (kde_nz) on vectors, for delta_nz on numpy arrays. False otherwise: delta_nz(z0)(z0) with a python float is 0, because pz_fn compares the float with the tuple self.params; kde_nz returns a vector of length one at a number; on a matrix with as many rows as the catalogue has entries it pairs row i with galaxy i and returns wrong values without an error. A single weight for a catalogue of more than one galaxy raises TypeError.", "quantifier": "all distributions, arguments (python float, numpy or jax array) and shapes", "why_tests_cant": "the test suite evaluates distributions on vectors; shapes and argument kinds form an unbounded family", "anchors": ["jax_cosmo/redshift.py:redshift_distribution.__call__", "jax_cosmo/redshift.py:smail_nz.pz_fn", "jax_cosmo/redshift.py:delta_nz.pz_fn", "jax_cosmo/redshift.py:kde_nz.pz_fn", "jax_cosmo/redshift.py:systematic_shift.pz_fn"]}
{"id": "C148", "title": "Tabulated background functions act elementwise on arrays", "statement": "radial_comoving_distance and growth_factor document their argument as array_like: on an array of any shape they return the array of the values at every entry, or raise. True for vectors and for matrices with one column; a number gives a distance vector of length one; other arrays of rank two or more raise unless their last axis is as long as the interpolation table. In that case (256 for distances, 128 for growth) interp takes one nearest node for the whole row and returns wrong values without an error: there is a cosmology and a 1 x 256 matrix of scale factors for which an entry of the result is 0 while the distance at that scale factor is positive.", "quantifier": "all cosmologies, all arrays of scale factors of any rank", "why_tests_cant": "tests use vectors; the failing shapes are those that coincide with an internal table size", "anchors": ["jax_cosmo/scipy/interpolate.py:interp", "jax_cosmo/background.py:radial_comoving_distance", "jax_cosmo/background.py:growth_factor", "jax_cosmo/background.py:_growth_factor_ODE"]}
{"id": "C149", "title": "Second derivatives with respect to survey parameters are right wherever they exist", "statement": "jax.jacfwd(jax.jacfwd(f)), along any direction in the cosmological parameters and in the parameters of the probes together (Smail parameters, shifts, catalogues, source planes, biases, multiplicative calibrations, alignments), holds the second derivative of normalised redshift distributions, of lensing and clustering kernels and of angular_cl (linear or default non-linear power) wherever the first derivatives are right (C131). True if no query redshift and no node of the normalisation is where a shifted distribution starts, and if Smail exponents that meet redshift 0 are 1 or at least 2. False at a shift of 0: z = 0 is a node of the normalisation, the distribution is differentiable there but has no second derivative, and a number is returned. False for smail_nz(a, b, z0) with 1 < b < 2: the second derivative with respect to z0 exists and jax returns NaN for every redshift and for every clustering spectrum.", "quantifier": "all cosmologies, surveys, multipoles and directions; all Smail distributions with 1 < b < 2", "why_tests_cant": "a test samples one survey and one direction, and finite differences of second order cannot tell a missing second derivative from rounding; the failures sit at one node of an internal quadrature", "anchors": ["jax_cosmo/redshift.py:redshift_distribution.__call__", "jax_cosmo/redshift.py:smail_nz.pz_fn", "jax_cosmo/redshift.py:systematic_shift.pz_fn", "jax_cosmo/probes.py:weak_lensing_kernel", "jax_cosmo/probes.py:density_kernel", "jax_cosmo/angular_cl.py:angular_cl", "jax_cosmo/bias.py:des_y1_ia_bias.__call__"]}
{"id": "C150", "title": "The Hessian of the survey likelihood with respect to cosmology and nuisance parameters together", "statement": "jax.hessian of the intro notebook's likelihood (covariance under jax.lax.stop_gradient), with respect to the cosmological parameters and the parameters of the probes at once, contracted with any direction gives the second derivative along that direction of the likelihood with its covariance held fixed; the same backward pass gives value and gradient; reverse over forward and forward over forward mode agree; on data equal to the mean, value and gradient are 0 and minus the Hessian is the Fisher matrix of all parameters, mixed cosmology-nuisance entries included. False when the redshift distributions are merely twice differentiable: one bin smail_nz(a, b, z0) with 1 < b < 2 whose z0 is differentiated makes the second derivative of the whole likelihood NaN.", "quantifier": "all cosmologies, surveys (any number of bins and probes), assignments of parameters to slots, multipoles, data vectors and directions", "why_tests_cant": "a test samples one survey and a few entries of the Hessian; finite differences of second order of a likelihood this long are dominated by rounding, and the NaN arises at the first node of an internal quadrature of one bin", "anchors": ["jax_cosmo/angular_cl.py:gaussian_cl_covariance_and_mean", "jax_cosmo/angular_cl.py:angular_cl", "jax_cosmo/sparse.py:inv", "jax_cosmo/sparse.py:sparse_dot_vec", "jax_cosmo/probes.py:weak_lensing_kernel", "jax_cosmo/probes.py:density_kernel", "jax_cosmo/redshift.py:smail_nz.pz_fn", "jax_cosmo/redshift.py:redshift_distribution.__call__"]}
{"id": "C151", "title": "Power spectra on arrays of wavenumbers of any shape", "statement": "linear_matter_power and nonlinear_matter_power (halofit) called with an array k of any shape and a number or vector a return, with axes of length 1 removed, the array of pointwise values P(k, a) over the broadcast shape; k[:, None] against a vector a gives the (len(k), len(a)) table with entry [i, j] = P(k[i], a[j]); shapes that do not broadcast raise. False for halofit when an axis of length 1 follows a longer one: k[:, None] at one scale factor returns an n x n matrix (off-diagonal entries combine k[i] with the linear power at k[j]) where the linear power spectrum returns n values.", "quantifier": "all cosmologies, transfer functions, shapes and entries of k, numbers and vectors a, both prescriptions", "why_tests_cant": "a test fixes a few shapes; the wrong result of the column at one scale factor is a well-formed array without an error, and whether it occurs depends on which axes have length 1", "anchors": ["jax_cosmo/power.py:linear_matter_power", "jax_cosmo/power.py:halofit", "jax_cosmo/power.py:_halofit_parameters", "jax_cosmo/power.py:nonlinear_matter_power"]}
{"id": "C152", "title": "Power spectra on rows and columns of scale factors", "statement": "linear_matter_power with k of any shape and a vector or column a (shape (m,) or (m, 1)) returns the pointwise values P(k, a) over the broadcast shape, so k against a[:, None] gives the (len(a), len(k)) table; a whose last axis is longer than 1 behind another axis (a[None, :]) raises a broadcasting error unless that axis has the 128 entries of the growth table. The nonlinear power spectrum, whose documentation also says array_like, should give the same table for a[:, None]: false, halofit raises a broadcasting error for every such column, because the growth factor gets its extra axis in front (shape (1, m, 1)) and meets the (257, m) integrand.", "quantifier": "all cosmologies, transfer functions, shapes of k, scale factors; lengths of the column other than 1 and 257", "why_tests_cant": "a test fixes one shape; whether a call raises depends on coincidences between the length of the column and the number of nodes of internal quadratures and tables", "anchors": ["jax_cosmo/power.py:linear_matter_power", "jax_cosmo/power.py:halofit", "jax_cosmo/power.py:_halofit_parameters", "jax_cosmo/background.py:_growth_factor_ODE", "jax_cosmo/scipy/interpolate.py:interp"]}
{"id": "C153", "title": "Quadratures of python functions", "statement": "romb(function, a, b, args, divmax) passes args to every evaluation and returns the Romberg diagonal (and its error estimate) of x -> function(x, *args); simps(f, a, b, N) returns the Simpson sum. True for functions that act entry by entry on the vectors of nodes they are handed. False for a function that ignores its argument and returns a number (lambda x: 1.0): simps raises, and romb silently returns a fraction w of the integral, 0 < w <= (4 + 2 divmax) / (3 * 2^divmax) for every divmax >= 2, because np.sum of one number is taken for the sum over all nodes.", "quantifier": "all functions, arguments, intervals, numbers of divisions", "why_tests_cant": "a test integrates a few formulas in x, all of which broadcast; the failing functions return a plausible finite number that gets worse with more divisions", "anchors": ["jax_cosmo/scipy/integrate.py:romb", "jax_cosmo/scipy/integrate.py:_difftrapn", "jax_cosmo/scipy/integrate.py:_difftrap1", "jax_cosmo/scipy/integrate.py:simps"]}
{"id": "C154", "title": "Splines on arrays of any shape", "statement": "A spline may be evaluated, differentiated and integrated at an array of query points of any shape: InterpolatedUnivariateSpline.__call__, derivative and antiderivative return an array of the same shape whose entries are the value, the n-th derivative and the integral from the first knot at the corresponding query point, and integral returns the definite integral between its bounds. False for integral when the bounds are one-entry arrays: the result then has no entries at all; bounds with more entries raise ValueError. Data of rank 2 or more are refused.", "quantifier": "for all data that the constructor accepts, all degrees and endpoint settings, all query arrays of any rank and shape, and all bounds", "why_tests_cant": "shapes, ranks, query values and data are unbounded; the tests evaluate splines on vectors only", "anchors": ["jax_cosmo/scipy/interpolate.py:InterpolatedUnivariateSpline.__call__", "jax_cosmo/scipy/interpolate.py:InterpolatedUnivariateSpline.derivative", "jax_cosmo/scipy/interpolate.py:InterpolatedUnivariateSpline.antiderivative", "jax_cosmo/scipy/interpolate.py:InterpolatedUnivariateSpline.integral", "jax_cosmo/scipy/interpolate.py:InterpolatedUnivariateSpline.__init__"]}
{"id": "C155", "title": "Quadratures between arrays of bounds", "statement": "simps and romb may be given arrays of any shape as bounds, which broadcast against each other: the result has the joint shape and each entry is the quadrature of the function between the two bounds met there. Holds for simps (so cubic polynomials are integrated exactly between all bounds at once). False for romb, which raises TypeError on every array of bounds of rank 1 or more, even with one entry.", "quantifier": "for all functions that act entry by entry, all bounds of any rank and shape that broadcast, all even numbers of intervals and all divmax", "why_tests_cant": "shapes, bounds and functions are unbounded; the tests integrate between numbers only", "anchors": ["jax_cosmo/scipy/integrate.py:simps", "jax_cosmo/scipy/integrate.py:romb", "jax_cosmo/scipy/integrate.py:_difftrapn"]}
{"id": "C156", "title": "Redshift catalogues with several columns", "statement": "kde_nz may be given a catalogue of n galaxies with m columns (m redshift estimates per galaxy) and one weight per galaxy: called on p redshifts it gives a p by m array, whose column l is the separately normalised density of column l of the catalogue. With positive weights these are positive densities. A systematic_shift of such a catalogue shifts and normalises each column. With weights of the shape of the catalogue each column is to be weighted by its own column of weights. All but the last holds. The last is false: a matrix of weights with c columns pairs every column of the catalogue with every column of weights, so the result is p by m by c, a cube of m by m densities instead of m.", "quantifier": "for all catalogues, weights, bandwidths and arrays of redshifts of any length", "why_tests_cant": "lengths, columns and values are unbounded; the tests give kde_nz a vector", "anchors": ["jax_cosmo/redshift.py:kde_nz", "jax_cosmo/redshift.py:redshift_distribution"]}
