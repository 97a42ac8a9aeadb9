# Formal model of jax_cosmo in Rocq/Coq 8.16.1

`properties.jsonl` lists the properties, `MANIFEST.json` says which theorems settle which property, `seeded/LOG.jsonl`
records the wrong programs the theorems were tested against. Build:

    cd rocq && coq_makefile -f _CoqProject -o Makefile && make -j4

## 1. Trusted base

1. The Coq 8.16.1 kernel (no check is switched off, no plugin is used beyond the ones Coq ships).
2. The axioms of the Coq standard library that `Print Assumptions` lists. The development states none of its own; there
   is no `Admitted`, no open obligation, no section-less `Variable`. Section 7 lists them theorem by theorem.
   MathComp and Coquelicot are used as libraries of proved facts and contribute no axiom.
3. The correspondence between the Python text and the model, i.e. sections 2 to 4 below. This is the part no proof
   checks; every model definition therefore carries a comment with the file and lines it transcribes.
4. The specifications (`*Spec.v` and the hypotheses in `Props*.v`).
5. The rules of JAX that C113 and C120-C138 rest on, since JAX itself is not part of the repository. `Trace.v`: a tracer is
   valid while its trace is running and using one afterwards raises `UnexpectedTracerError`. `Ad.v` (`num_dual`): the JVP
   rule of each primitive (product and quotient rules; `max`/`min`/`clip` take the mean of the two tangents at a tie;
   `where`, `switch`, `argmin`, comparisons carry no tangent; `sinc` has slope 0 at 0). `AdLike.v` (`linalg_dual`): the JVP rules of
   `inv` (-P M' P), `slogdet` (tr(P M')) and `cho_solve`. `AdBack.v` (`num_back`, `linalg_back`): reverse mode applies the
   transposes of these rules. `AdOver.v` (`num_over`, `num_back_over`): second derivatives come from differentiating the
   rules themselves as programs (C129). The rule of `x**y` is written there with the exponent `y - 1`; jax writes
   `where(y == 0, 1, y - 1)`, whose own derivative differs at an exponent of exactly 0. Second derivatives are therefore
   only meant where no moving exponent is exactly 0. C149 excludes `eta = 0`; C146 and C149 leave to the reader `n_s = 0` with a
   moving wavenumber, the halofit fits at `beta_n = 0` or `gamma_n = 3`, and a growth index of 0. `AdNanTwice.v` (`num_x2`) writes the rules, with that `where`, over
   infinities and NaN.

## 2. How the code is represented

The model is a shallow embedding: a Python function becomes a Gallina function that mirrors it branch by branch.

* **Numbers** are exact reals. Rounding, overflow, NaN and infinities do not exist in the model. The exceptions:
  `SparseX.v` (`sparse.det`, property C10) and `HalofitX.v` (`halofit`, property C112) are written over
  extended numbers (finite / infinite / NaN), because those properties are about what happens when `0 * inf` or `0 / 0`
  arises; and C132, C135-C140 run the generic programs of `Ad*.v` and `AdNuis*.v` over extended values and tangents (`num_x` in
  `AdNan.v`) or extended values and cotangents (`num_xb` in `XBack.v`). C135, C137 and C139 show that up to the likelihood no infinity or NaN arises, so the total operations of the real
  model hide nothing there. The linear algebra of that likelihood (`XLike.v`) is any function that agrees with the exact oracles on finite
  invertible (positive definite) matrices, differentiated by JAX's rules; this is trusted, and satisfiable (`C139_case_oracles`). Since division by zero is total in Coq, theorems whose formulas divide carry the
  hypothesis that the divisor is non-zero, or derive it.
* **Rounding** is treated separately, for the parts where it can be bounded without knowing more about the inputs: `Fp.v` writes
  sums, Simpson's rule, the distance table and the table lookup over an arithmetic in which every operation has a relative error of at most `u`
  (`rounding` in `FpSpec.v`; no underflow or overflow), grid arithmetic included. The nodes `np.logspace(...)` and
  times `np.log(np.logspace(...))` enter with a bound on their error; comparisons are exact; growth, power spectra and likelihood
  are exact reals only.
* **Arrays** are nested lists; shapes are explicit where the code inspects them (`sparse.py`, `interpolate.py`,
  background functions distinguish 0-d from 1-d arguments). Arrays of any rank are shapes with entries (`Nd.v`), used for redshift
  distributions and table lookups.
* **Exceptions** are values: `res A := Ok a | Err e`.
* **Mutable caches** (`cosmo._workspace`, `redshift_distribution._norm`) are state passed in and returned. C33-C35
  quantify over arbitrary sequences of earlier calls.
* **`jit`** is what it does to values: arguments are flattened and rebuilt through the pytree methods
  (`cosmo_jit`, `nz_jit`). This is why the broken `tree_unflatten` shows up in C32. What `jit` does to objects it captures
  rather than receives is modelled in `Trace.v` (C113).
* **`jax.jvp`** is a run of the program on dual numbers. `Ad.v`, `AdPower.v`, `AdProbes.v`, `AdHalofit.v`, `AdLike.v` transcribe the
  differentiable code once more over an arbitrary type of numbers; at exact reals these programs are proved equal to the
  main model (`C120_programs` to `C124_programs`), at dual numbers they are what JAX executes.
* **`jax.vjp`, `jax.grad`** are a run of the same programs on numbers that carry a backward pass (`AdBack.v`).
* **`jax.hessian`** is reverse mode run on dual numbers (`AdOver.v`); `jax.lax.stop_gradient` replaces a number by the
  constant of the same value. Reverse over forward mode is modelled for the likelihood of the introductory notebook and the
  survey likelihood; forward over forward mode for every generic program.
* **`vmap`** is `map`, **`lax.scan`/`odeint`** a fold over the time grid, **`lax.switch`** a match on the clipped index.
* **Library linear algebra** (`np.linalg.inv`, `solve`, `slogdet`, `cho_factor`/`cho_solve`) is a parameter: theorems hold
  for every function meeting the textbook specification, and the existence of such a function is proved
  (`linv_mx_ok`, `la_mx_ok`, `SplineSolve.v`), so the hypothesis is satisfiable.

## 3. Coverage, module by module

| source | model | modelled | not modelled |
|---|---|---|---|
| `sparse.py` | `Sparse.v`, `SparseX.v` | every function, including argument checks and error paths | dtype; integer arrays |
| `likelihood.py` | `Likelihood.v` | all four combinations of representation and method, with/without logdet, unknown methods | |
| `angular_cl.py` | `AngularCl.v` | orderings, `angular_cl`, `noise_cl`, covariance (both layouts), covariance-and-mean | |
| `probes.py` | `Probes.v` | kernels, `WeakLensing`, `NumberCounts`, noise, zmax, error paths | `has_rsd` (stored by the code, never read) |
| `redshift.py` | `Redshift.v` (one redshift; tracers in the cached norm: `NzTrace.v`), `NzArr.v` (arguments of any kind and shape), `KdeNd.v` (catalogues with columns) | all four distributions, normalisation cache, gals per arcmin/steradian | `delta_nz` on a jax array (what `array == tuple` does depends on the release of jax; a parameter of `NzArr.v`); catalogues and weights of rank above two |
| `bias.py` | `Bias.v` | all three classes | |
| `background.py` | `Background.v` | every function, both caches, scalar and array arguments |  (tracers in the caches: `Trace.v`) |
| `core.py`, `parameters.py`, `utils.py`, `constants.py` | `Core.v`, `Show.v` | constructor, properties, pytree methods, `__str__`, `__repr__`, Planck15, z2a/a2z | how python prints a number (a parameter of `Show.v`) |
| `transfer.py` | `Transfer.v` | both transfer types, error path | |
| `power.py` | `Power.v` (one (k, a) pair), `PowerArr.v` (arrays), `PowerNd.v` (k of any rank), `PowerCol.v` (a of rank two), `HalofitX.v` (extended numbers) | primordial, linear, sigmasqr, halofit parameters, both prescriptions, nonlinear; broadcasting of k against a, with its errors | halofit for a of rank above one, past the integrand of its second step (where columns raise) |
| `scipy/integrate.py` | `Integrate.v`, `RombFn.v` (integrands as python functions), `QuadNd.v` (bounds of any rank; of `romb` the first pass) | `simps`, `romb` with its scan, extra arguments, error estimate | `simps` with N = 0; `romb` of functions that return an array on a number |
| `scipy/ode.py` | `Ode.v` | RK4 scan | |
| `scipy/interpolate.py` | `Interp.v`, `Nd.v` (queries of any rank), `Spline.v`, `SplineNd.v` (data, queries and bounds of any rank) | `interp`; spline construction (all orders, both endpoint settings, supplied coefficients), evaluation, derivative, antiderivative, integral, error paths | integration bounds without entries |
| `jax_utils.py` and all pytree methods | `Pytree.v`, `Show.v` | `__repr__`; flatten/unflatten of containers, probes, distributions, splines, nested arbitrarily | hashability of the auxiliary data under `jit` |

Automatic differentiation is modelled in forward mode (`Ad*.v`), in the parameters, the wavenumber and the scale factor;
redshift distributions, biases and multipoles are constants there, and in reverse mode (`AdBack.v`) with the same inputs.
`AdNuis*.v` repeats both modes with moving distributions, galaxy densities, biases and calibrations, up to the likelihood
(`sigma_e`, the bandwidth of a catalogue and `zmax` are constants). These numbers are exact and total; `AdNan*.v` runs the same programs on numbers with infinities, NaN
and symbolic zero tangents, without rounding or signed zeros, `XBack.v` does so in
reverse mode, and `Fin*.v`, `XBack*.v`, `XLike*.v` prove both finite up to the likelihood.
Checkpointing, the order of accumulation and memory are not modelled. `GradSpec.v` states what
differentiating a `lax.switch` produces (the derivative of the selected branch, index held fixed), for C90. C89, C115
concern the mathematical derivative of the modelled function.

`Np.v` holds the numpy primitives (`clip`, `argmin`, `digitize`, `linspace`, `logspace`, `gradient`, python indexing and
slicing, `isign`, ...) from their documented meaning.

## 4. Specifications

`*Spec.v` files state the claims without using the model's helpers: finite sums over index ranges for sparse products
(`SparseSpec.v`), MathComp determinants (`DetSpec.v`), the Knox formula on tracer pairs (`CovSpec.v`), Simpson sums and
polynomial exactness (`IntegrateSpec.v`), one RK4 step (`OdeSpec.v`), the Limber integrand (`AclSpec.v`), piecewise
polynomials with continuity (`SplineSpec.v`), physical parameter ranges and table nodes (`BgSpec.v`), Gaussian densities
(`LikelihoodSpec.v`), kernels (`ProbesSpec.v`, `RedshiftSpec.v`, `PowerSpec.v`), pytree histories (`PytreeSpec.v`), which parameters a quantity
may depend on (`DependsSpec.v`), changes of the data vector (`LawsSpec.v`), broadcasting (`PowerArrSpec.v`), solutions of
differential equations and convergence (`OdeConvSpec.v`, `GrowthConvSpec.v`), the smoothed variance and the search for the
non-linear scale (`HalofitScaleSpec.v`), programs that mix jitted and eager calls (`TraceSpec.v`, `NzTraceSpec.v`), distances in curved
universes (`CurvedSpec.v`), score and Fisher information (`FisherSpec.v`), the published fitting formulae (`EhSpec.v`,
`HfSpec.v`, coefficients quoted from the papers from memory), derivative-carrying numbers and arrays (`AdSpec.v`,
`AdArrSpec.v`, `AdHalofitSpec.v`, `AdLikeSpec.v`), moving surveys (`AdNuisSpec.v`, `AdNuisBackSpec.v`, `AdNanSpec.v`, `FinSpec.v`, `XBackSpec.v`), gradients (`AdJacSpec.v`), transposes (`AdBackSpec.v`), Hessians and
Jacobians (`AdOverSpec.v`), second derivatives (`JetSpec.v`, `JetNuisSpec.v`, `JetLikeSpec.v`), elementwise functions on arrays (`NdSpec.v`, `NzArrSpec.v`, `PowerNdSpec.v`, `RombFnSpec.v`, `KdeNdSpec.v`), the information of a normal model (`ReadmeSpec.v`).

## 5. Files in rocq/theories

| files | contents |
|---|---|
| models and `*Spec.v` | as above |
| `NpLemmas.v`, `Rfield.v`, `MxBridge.v`, `Gram.v` | shared facts: lists, R as a MathComp field, nested lists as MathComp matrices, Gram matrices |
| `*Proofs*.v`, `*Final*.v`, `Bg*.v`, `Det*.v`, `Cov*.v`, `Romb*.v`, `Simps*.v`, `Spline*.v` | lemmas |
| `Forecast.v`, `Forecast2.v`, `SparseLaws.v`, `SparsePrec.v`, `LikelihoodLaws.v`, `Fisher.v`, `DetBlocks.v` | surveys, precision matrices and likelihoods end to end |
| `AmpScale.v`, `HalofitLimit.v`, `SourceOrder.v`, `RedshiftShape.v`, `TransferMono.v`, `CurvedLensing.v` | scalings, limits and shapes |
| `OdeConv.v`, `QuadConv.v`, `GrowthConv.v`, `Heath.v`, `Picard.v`, `GrowthExists.v` | convergence of the tables to the solutions of their equations |
| `InterpCont.v`, `BgCont.v`, `HalofitScale*.v`, `ContFinal.v` | continuity and jumps |
| `Ad.v`, `AdPower.v`, `AdProbes.v`, `AdHalofit.v`, `AdLike.v`, `AdBack.v`, `AdOver.v`, `AdNuis.v`, `AdNuisLike.v`, `AdNuisOver.v`, `AdNan.v`, `AdNanTwice.v`, `XBack.v`, `XLike.v` | the code over an arbitrary type of numbers (model) |
| `AdProofs.v`, `AdRel.v`, `AdBg.v`, `AdGrowth.v`, `AdTransfer.v`, `Ad*Proofs.v`, `Ad*Final.v`, `AdSurvey.v`, `AdScore.v` | dual numbers follow curves of parameters |
| `Deriv.v`, `MxDeriv.v`, `OracleDeriv.v`, `PosDefOpen.v`, `DetPivots.v` | derivatives of inverses, determinants and the library oracles |
| `AdParam.v`, `AdParamCl.v`, `AdJac.v`, `AdJacFinal.v`, `AdBackProofs.v`, `AdBackFinal.v`, `AdOver*.v`, `AdFisher.v`, `AdCurve.v`, `Readme.v`, `DiagDet.v` | relations between runs of the generic programs on different numbers: value, linearity, transposition |
| `FinRules.v`, `FinBg.v`, `FinGrowth.v`, `FinTransfer.v`, `FinPower.v`, `FinHalofit.v`, `FinNz.v`, `FinSurvey.v`, `FinGeneric.v`, `FinLike.v`, `Poison.v`, `PoisonLike.v`, `SoftLike.v` | the generic programs over any arithmetic that is exact on finite numbers; numbers that spoil all results |
| `FinOps.v`, `FinFinal.v`, `XBackProofs.v`, `XBackFinal.v`, `AdNanProofs.v`, `AdNanFinal.v`, `XBackNan.v`, `FinBaryon.v`, `XLikeProofs.v`, `XLikeFinal.v`, `SoftFinal.v` | its instances `num_x` (forward) and `num_xb` (reverse); where NaN arises |
| `Fp.v` (model), `FpSpec.v`, `FpProofs.v`, `FpSums.v`, `FpBg.v`, `FpTable.v`, `FpFinal.v`, `FpInterp.v`, `FpDist.v` | rounded arithmetic |
| `Show.v` (model), `ShowSpec.v`, `ShowProofs.v` | printed forms; the unused option `ksteps` |
| `JetSpec.v`, `JetRules.v`, `LineSurvey.v`, `JetSwap.v`, `JetFinal.v`, `JetMain.v`, `JetNz.v`, `JetSurvey.v`, `JetNuisFinal.v`, `JetKink.v`, `JetLike.v`, `JetLine.v` | second derivatives: the generic programs over any arithmetic that follows functions of one variable (class `follows` of `FinRules.v`), instantiated at forward over forward mode and at pairs of runs with exchanged directions |
| `KdeNd.v` (model), `KdeNdSpec.v`, `KdeNdProofs.v`, `KdeNdFinal.v` | redshift catalogues with several columns |
| `QuadNd.v` (model), `QuadNdProofs.v`, `ExQuadNd.v` | quadratures between arrays of bounds |
| `SplineNd.v` (model), `SplineNdProofs.v`, `ExSplineNd.v` | splines on arrays of any rank |
| `RombFn.v` (model), `RombFnSpec.v`, `RombFnProofs.v` | quadratures of python functions with extra arguments |
| `Nd.v`, `NzArr.v`, `BgArr.v`, `PowerNd.v`, `PowerCol.v` (models), `NdSpec.v`, `NzArrSpec.v`, `PowerNdSpec.v`, `NdProofs.v`, `NzArrProofs.v`, `NdRefuted.v`, `NdBroadcast.v`, `PowerNdProofs.v`, `ExPowerNd.v`, `PowerColProofs.v`, `ExPowerCol.v` | arrays of any rank: redshift distributions, table lookups, power spectra |
| `Ex*.v` | concrete instances used by the Examples |
| `Props*.v` | property theorems only: statement, `exact lemma`, `Print Assumptions`, and an `Example` showing that the hypotheses can be met by a non-trivial case |

## 6. What turned out false

A property that fails of the code has a theorem `..._refuted : exists ...` with a witness, beside the strongest true
statement found (its name ends in `_partial` when it is weaker than the property).

* **C05** (dot never returns a wrong product): False as stated: two sparse operands with different block sizes can pass the size check and broadcast silently; refuted with a witness. For equal block sizes C04 holds.
* **C10** (det is right for every invertible sparse matrix): False as stated: a zero trailing pivot makes det 0 or NaN; refuted on the 2x2 exchange matrix for every np.linalg.inv. C09 gives the true statement (all trailing blocks invertible, e.g. every positive definite matrix).
* **C14** (with logdet the likelihood is the Gaussian log density): False as stated: likelihood.py 61 subtracts the log-determinant inside -1/2(...), so it enters with the wrong sign. Refuted with a witness; C14_actual_value and C14_error_is_logdet give the exact value and the exact error for every positive definite covariance. np.linalg.inv, np.linalg.slogdet and cho_solve are oracles assumed to meet their documented specification (linalg_ok); existence of such a library is proved (la_mx_ok).
* **C22** (the covariance works for a single multipole): False as stated: np.gradient raises ValueError on a single sample, so every scalar or length-one ell is rejected; refuted with a witness and C22_always_rejected shows it fails for all such inputs.
* **C28** (a Cosmology with gamma survives flatten/unflatten): False of the code: tree_unflatten of a cosmology carrying gamma always raises AttributeError (list.reverse() returns None).  Refuted with a witness; C28_gamma_always_raises characterises every case.
* **C30** (WeakLensing survives flatten/unflatten): False: WeakLensing.__init__(redshift_bins, ia_bias, multiplicative_bias) stores params (bins, m[, ia]) and tree_unflatten passes them back positionally, so m is read as ia_bias. Proved for all bins and biases: m becomes 0 (or the two biases are exchanged); class, configuration and bins survive.
* **C32** (kernels of gamma cosmologies can be computed): False as stated: @jit kernels rebuild the cosmology with tree_unflatten, which raises AttributeError for every cosmology with gamma. Proved: it always raises; without gamma each usable probe returns its documented rows.
* **C34** (table parameters are honoured): False in general: the cached first table is reused (refuted with a witness). Proved: with no earlier distance call the requested table is used.
* **C45** (background functions accept scalar scale factors): False: growth_factor always, and growth_rate with the ODE growth, raise ValueError on a scalar (interp indexes its argument). Proved: the distances and the gamma growth_rate accept a scalar and return a one-element array.
* **C47** (a_of_chi inverts radial_comoving_distance): False: between nodes a_of_chi may use the line of an adjacent cell (witness: Milne cosmology). Proved: exact at table nodes; error bound between nodes.
* **C48** (interp is linear interpolation for increasing grids): False on the first cell, where the line of the second cell is used (witness). Proved: right on all other cells and stated extrapolation.
* **C49** (interp is linear interpolation for decreasing grids): False: for decreasing grids a neighbouring cell's line may be used (witness). Proved: exact at nodes and error bound inside cells.
* **C60** (natural splines have vanishing end curvature): False: the last row of the natural system reads c_N - c_{N-1} = 0 instead of c_N = 0. Witness x=0,1,2,3, y=0,0,0,1 gives curvature 24/19 at the right end for every correct solver. The left end and the condition actually imposed are proved.
* **C67** (sigmasqr integrates over [kmin, kmax]): False of the code: the integration variable is ln k but the bounds are log10 kmin and log10 kmax, so the range is exp(log10 kmin)..exp(log10 kmax).  Refuted by a flat-density witness; proved is the exact value and that only that narrower range matters.
* **C90** (differentiating transverse_comoving_distance gives its derivative): the automatic-differentiation rule modelled is the one for lax.switch only (branch index held fixed, selected branch differentiated exactly). Refuted at Omega_k = 0; C90_flat_value_partial gives the exact missing term chi^3/(6 R_H^2) dOmega_k
* **C103** (Photometric shifts compose): Refuted for a negative inner shift (Smail(1,2,1), b1 = -1/2, b2 = 1/2, z = 0): redshift.py clips z - bias at zero before calling the parent, so the part moved below zero is replaced by the value at zero. Proved for inner shift >= 0.
* **C104** (A shifted source plane keeps a unit normalisation): Refuted for the plane z = 1, shift 1/10, zmax = 10: the un-normalised density of the shifted plane vanishes on all 257 nodes, so its normalisation is 0 and calls divide by zero. Proved for every plane and shift with z0 + b off the nodes.
* **C110** (The inverse distance a_of_chi is continuous): False as stated: at the midpoint between consecutive table distances the formula switches cell, and the value is continuous there exactly when the two cells have the same slope (C110_jumps). C110_continuity_refuted gives a Milne universe where it jumps. The partial theorem gives continuity everywhere away from the midpoints.
* **C111** (The halofit non-linear scale varies continuously with sigma8): False as stated: the search interpolates a decreasing variance table at the value one, so the result jumps when the table value half way between two radii crosses one, unless neighbouring cells have equal slope (C111_jumps, an equivalence). C111_continuity_refuted gives Planck parameters and a transfer function cut off at k = 5000.
* **C112** (halofit returns a finite positive number): takahashi2012 is finite and positive whenever the matter fraction is positive. smith2003 divides zero by zero where the matter fraction is exactly one (Einstein-de Sitter at every a): C112_finite_refuted. The partial theorem covers matter fraction strictly between zero and one with 0 <= Omega_de(a) <= 1 - Omega_m(a), and requires the denominator 1 + alpha_n Delta^2 of the quasi-linear term to be positive.
* **C113** (Compiling with jit does not change the outcome of a program): False as stated: the tables are stored on the object while it is being traced, so a table first computed inside a jitted function that captures the object holds tracers and any later use raises UnexpectedTracerError; C113_leak says exactly when, for one such function followed by one call, eager or jitted. The partial theorem: every program in which the tables used by capturing jitted functions were computed before them gives the eager result. The rules for tracers are JAX's and are trusted (Trace.v header).
* **C114** (The lensing kernel of a source plane uses angular-diameter distances): False in curved universes: the kernel is built from radial distances (probes.py 41-49), so it is strictly too large in every open and strictly too small in every closed universe (within the first half turn), and right in flat ones; C114_flat_partial states all three signs. C114_angular ties the distance of the specification to transverse_comoving_distance.
* **C119** (halofit evaluates the published fitting formula): takahashi2012 is proved. smith2003 is refuted: power.py:199 uses 0.9585 for the constant of log10 nu_n where Smith et al. (2003) have 0.9589 (coefficients quoted from the paper from memory, there is no network); with that one constant replaced the identity holds (C119_smith_partial) and the code's value exceeds the published one for every k (C119_smith_above).
* **C120** (Forward-mode derivatives of the background functions are right): The programs of background.py are transcribed once more over an arbitrary type of numbers (Ad.v); at the reals they are the existing model (C120_programs), at dual numbers they are what jax.jvp runs. Proved for the rates without exception; for distances and growth when the scale factor is not an inner table node or is not varied, below a = 1, and with Omega_k either nonzero or not varied (C90 has the flat case). False at a = 1: the tie of clip(., 0) halves the derivative with respect to a, and it is then the derivative from neither side (C120_today, C120_today_refuted). Tangents of gamma are taken to be zero.
* **C125** (The gradient of the likelihood with include_logdet=True is the score of the normal density): Refuted: likelihood.py 61 subtracts the log-determinant from chi^2 instead of adding it (finding of C14), so the trace term of the gradient has the wrong sign: C125_density_refuted exhibits a variance 1 + t for which the returned gradient is +1/2 and the score of the density is -1/2. C125_gap_partial: for all inputs the returned gradient minus tr(C^-1 C') is the derivative of the log density.
* **C130** (The Fisher matrix of README.md, minus the Hessian of the likelihood): False. For one tracer and linear theory, along sigma8, minus the second derivative of the likelihood with its default include_logdet=True is computed exactly: it misses 4x^2+2x (over sigma8^2, x the signal fraction) per multipole of the information, and it is negative for a noisy survey (refutation), although an information is positive. Without the log-determinant it is exactly the information in the mean (any survey: C129_curvature).
* **C132** (Gradients with respect to a differentiable redshift distribution are finite): False for 0 < b < 1: C132_smail and C132_shift show NaN for all such distributions although they are differentiable, C132_spectra every clustering spectrum of such bins. True for exponents of at least 1 (C132_finite_partial). Redshift.py 78, 31-32.
* **C134** (Compiling with jit does not change what redshift distributions return): Each jitted function is traced once; vmap and grad are not represented (they leave arrays that do not depend on their inputs concrete). The partial theorem asks for the discipline; C134_leak says exactly when the simplest violation raises.
* **C136** (The transfer functions are defined for every cosmology with matter): Full statement false: at Omega_b = 0 transfer.py 70-77 computes sqrt(6 / 0) * log(1) = inf * 0; witness Planck15 with all its matter cold.
* **C138** (jax.grad of a differentiable redshift distribution is finite): The full statement is false: C138_refuted (Smail exponent 0.68 of the LSST DESC requirements). What holds: distributions that are smooth with exponents of at least 1 where they are evaluated (C138_finite_partial); for exponents below 1 the gradient is NaN (C138_smail, C138_spectra).
* **C140** (The gradient of the survey log-likelihood is finite wherever the log-likelihood is differentiable): Differentiability proved for all surveys with differentiable densities; finiteness proved with exponents of at least 1 (C140_finite_partial); the full statement is refuted: jax_cosmo/redshift.py smail_nz with 0 < b < 1 gives a NaN gradient of the whole likelihood
* **C144** (The printed form of an object identifies it): False in general: Cosmology.__str__ (core.py 67-93) never prints gamma and container.__repr__ (jax_utils.py 20-21) prints only the tuple of parameters. True for the eight listed parameters and for numeric container parameters, for every way of printing numbers that separates the numbers in use and prints no blank, comma or bracket.
* **C145** (More ksteps brings sigmasqr closer to its integral): False: ksteps (power.py 57) is never read; with the transfer function sin(128 pi ln k) on 1 <= k <= 10 the 129 nodes of romb all fall on zeros. The accuracy of the fixed rule is proved for every ksteps (relative to the range the code integrates over, see C67).
* **C147** (Redshift distributions act elementwise): Partial because the code is false of the full statement: source planes at a python float, catalogues at a number and on matrices (three refutations). What comparing a jax array with a tuple does depends on the release of jax and is a parameter (J) of every theorem. Catalogues and weights are numbers or vectors.
* **C148** (Tabulated background functions act elementwise on arrays): Partial because the code is false of the full statement (C148_matrix_refuted, a Milne universe). Growth covers both the ODE and the gamma table.
* **C149** (Second derivatives with respect to survey parameters are right wherever they exist): Partial because the code is false of the full statement: shifts of 0 (C149_shift_refuted) and Smail cut-offs with 1 < b < 2 (C149_cutoff, C149_cutoff_spectra, C149_cutoff_refuted; redshift.py 28-32, 76-78). An alignment exponent eta of exactly 0 is left out, where the result depends on the release of jax. Floating point is modelled up to rounding.
* **C150** (The Hessian of the survey likelihood with respect to cosmology and nuisance parameters together): Partial because the code is false of the full statement: Smail cut-offs with 1 < b < 2 (C150_cutoff, C150_cutoff_refuted; redshift.py 28-32, 76-78), shifts of 0 (C149). la is any linear algebra oracle. Symmetry of the mixed entries is proved at data equal to the mean (C150_fisher), and for cosmological parameters at any data (C146_mixed). Floating point is modelled up to rounding.
* **C151** (Power spectra on arrays of wavenumbers of any shape): Linear power: any shape of k against a number or vector a. halofit: where axes of length 1 come first (C151_halofit_partial) and for the table k[:, None] against a vector (C151_grid); false in general, because line 253 multiplies the unsqueezed k by the squeezed linear power (C151_column gives the n x n result, C151_column_refuted the counterexample). Not covered: a of rank above one.
* **C152** (Power spectra on rows and columns of scale factors): Linear power on vectors and columns of scale factors, against k of any shape (C152_linear_partial, C152_table); rows raise (C152_rows). halofit on columns raises for all inputs (C152_halofit_raises), so the nonlinear half of the statement is false (C152_halofit_refuted). The lines of halofit after the integrand of its second step are a parameter: not modelled for columns of length 1 or 257.
* **C153** (Quadratures of python functions): Partial because the code is false of the full statement: constant python functions (C153_constant_refuted; C153_romb_constant bounds the result for all of them, integrate.py 52-56). Functions are assumed to return a number on a number; integrands of higher rank in simps are modelled by simps_rows.
* **C154** (Splines on arrays of any shape): Evaluation, derivatives and antiderivatives hold for every shape. The definite integral holds for numbers (C154_integral); for one-entry arrays of rank 1 or more the claim is false (C154_integral_one, C154_integral_refuted): np.diff runs along the last axis of the stacked bounds, which has length 1, so the result is empty. Bounds with more than one entry raise (C154_integral_arrays).
* **C155** (Quadratures between arrays of bounds): simps is proved for every shape. romb is false: integrate.py 152 concatenates the new first entry, of the rank of the bounds, with the scanned rows, whose rank is one higher. The first pass of the loop of romb is modelled; the later ones (rest) are never reached for arrays of bounds. Functions are assumed to act entry by entry; bounds that do not broadcast raise and are not part of the theorems.
* **C156** (Redshift catalogues with several columns): Columns of the catalogue with a weight vector are proved independent normalised densities. C156_weights_refuted: weights of the catalogue's own shape give a rank 3 result; C156_matrix_weights says exactly what comes out. Catalogues and weights of rank above two are not modelled.
* **C26**: `gaussian_cl_covariance_and_mean` documents its mean as signal + noise but returns the noiseless signal (proved as C26_mean_lacks_noise).

## 7. Assumptions of each theorem

All are axioms of the Coq standard library:

| key | axiom | use |
|---|---|---|
| D | `ClassicalDedekindReals.sig_forall_dec` | construction of R |
| N | `ClassicalDedekindReals.sig_not_dec` | construction of R |
| F | `FunctionalExtensionality.functional_extensionality_dep` | functions equal when pointwise equal |
| C | `Classical_Prop.classic` | excluded middle (through Coquelicot, and R decidability in MathComp structures) |
| E | `ClassicalEpsilon.constructive_indefinite_description` | choice for the existence of library oracles and MathComp's choice structure on R |

Machine-generated from the output of `Print Assumptions` ("-" = closed under the global context):

**PropsAcl.v**: `C24_pairs` DNFC, `C24_reorder` DNFC, `C25_psd` DNFC, `C25_default_power` DNFC, `C26_layout` DNFC, `C26_mean_lacks_noise` DNFC, `C83_positive_definite` DNFC, `C83_noise` DF

**PropsAd.v**: `C120_programs` DNFC, `C120_rates` DNFC, `C120_distances_partial` DNFC, `C120_growth_partial` DNFC, `C120_today` DNFC, `C120_today_refuted` DNFC, `C121_programs` DNFC, `C121_eisenhu` DNFC, `C121_eisenhu_osc` DNFC, `C121_sigma` DNFC, `C121_linear_power` DNFC, `C121_growth_inside` DNFC, `C122_programs` DNFC, `C122_kernel` DNFC, `C122_spectra` DNFC, `C122_linear_spectra` DNFC, `C122_distance_strict` DNFC, `C123_programs` DNFC, `C123_scale` DNFC, `C123_halofit` DNFC, `C123_default_model` DNFC, `C123_default_spectra` DNFC, `C123_generic_amplitude` DNFC

**PropsAdLike.v**: `C124_programs` DNFC, `C124_dense` DNFCE, `C124_sparse` DNFCE, `C124_survey` DNFCE, `C124_default_survey` DNFCE, `C125_gap_partial` DNFCE, `C125_density_refuted` DNFCE

**PropsBg.v**: `C33_history_independent` DNFC, `C34_requested_table_partial` DNFC, `C34_table_parameters_refuted` DNFC, `C36_fractions` DNFC, `C37_today` DNFC, `C38_dark_energy` DNFC, `C39_positivity` DNFC, `C40_distance` DNFC, `C40_simpson` DNFC, `C40_hubble` DNFC, `C41_transverse` DNFC, `C42_normalised` DNFC, `C42_at_one` DNFC, `C43_eds` DNFC, `C44_gamma` DNFC, `C45_scalar_partial` DNFC, `C45_growth_raises` DNFC, `C45_rate_raises` DNFC, `C45_scalar_refuted` DNFC, `C46_inverse` DF, `C47_nodes_partial` DNFC, `C47_error_partial` DNFC, `C47_interpolant_refuted` DNFC, `C81_ode_growth` DNFC

**PropsBg2.v**: `C87_hubble_decreasing` DNFC, `C87_matter_fraction` DNFC, `C87_distance_order` DNFC, `C87_more_matter_closer` DNFC, `C88_accuracy` DNFC, `C88_accuracy_lambda` DNFC, `C88_accuracy_node` DNFC

**PropsCont.v**: `C109_lipschitz` DF, `C109_background` DNFC, `C110_continuous_partial` DNFC, `C110_jumps` DNFC, `C110_continuity_refuted` DNFC, `C111_jumps` DNFC, `C111_cutoff` DNFC, `C111_continuity_refuted` DNFC, `C112_takahashi` DNFC, `C112_smith_partial` DNFC, `C112_matter_only` DNFC, `C112_finite_refuted` DNFC

**PropsConv.v**: `C106_converges` DNFC, `C106_converges_pair` DNFC, `C106_rate` DNFC, `C107_unique_solution` DNFC, `C107_converges` DNFC, `C107_heath` DNFC, `C108_distance` DNFC, `C108_gamma_growth` DNFC

**PropsCov.v**: `C15_ordering` -, `C16_blocks` -, `C17_noise` DF, `C18_knox` DF, `C19_sparse_is_dense` DF, `C20_symmetric` DF, `C21_psd` DNF, `C21_pd` DNF, `C22_single_multipole_refuted` DF, `C22_always_rejected` DF, `C23_f_sky` DF

**PropsCurved.v**: `C114_flat_partial` DNFC, `C114_angular` DNFC, `C114_kernel_refuted` DNFC

**PropsEh.v**: `C117_wiggles` DNFC, `C117_no_wiggles` DNFC, `C117_physical_densities` DNFC

**PropsFin.v**: `C135_background` DNFC, `C135_distances` DNFC, `C135_growth` DNFC, `C135_transfers` DNFC, `C135_linear` DNFC, `C135_halofit` DNFC, `C135_kernel` DNFC, `C135_spectra` DNFC, `C135_default_spectra` DNFC, `C136_with_baryons_partial` DNFC, `C136_no_baryons` DNFC, `C136_no_baryons_power` DNFC, `C136_refuted` DNFC

**PropsFisher.v**: `C115_score` DNFCE, `C115_fisher` DNFCE, `C115_information` DFC

**PropsForecast.v**: `C91_added_probes` DNFC, `C91_pairs_kept` -, `C92_power` DNFC, `C92_galaxy_bias` DNFC, `C92_shear_calibration` DNFC, `C92_sigma8_power` DNFC, `C92_sigma8` DNFC, `C93_covariance` DNF, `C93_likelihood` DNFCE, `C94_forecast` DNFCE, `C95_involution` DF, `C95_associative` DF, `C95_product` DF, `C95_solve` DF, `C96_large_scales` DNFC, `C97_kernel` DNFC, `C97_spectrum` DNFC, `C98_background` DNFC, `C98_transfer` DNFC, `C98_transfer_osc` DNFC

**PropsFp.v**: `C141_sum` DNFC, `C141_simps` DNFC, `C141_density` DNFC, `C142_Esqr` DNFC, `C142_H` DNFC, `C142_table` DNFC, `C142_planck` DNFC, `C142_integral` DNFC

**PropsFpDist.v**: `C143_lookup` DNFC, `C143_table` DF, `C143_distance` DNFC, `C143_integral` DNFC, `C143_planck` DNFC

**PropsGrad.v**: `C89_differentiable` DNFC, `C90_curved_partial` DNFC, `C90_flat_refuted` DNFC, `C90_flat_value_partial` DNFC

**PropsHalofit.v**: `C118_derivatives` DNFC, `C119_takahashi` DNFC, `C119_smith_partial` DNFC, `C119_smith_above` DNFC, `C119_smith_refuted` DNFC

**PropsJac.v**: `C126_background` DNFC, `C126_power` DNFC, `C126_spectra` DNFC, `C126_survey` DNFC, `C126_default` DNFC, `C127_background` DNFC, `C127_power` DNFC, `C127_spectra` DNFC, `C127_survey` DNFC, `C128_background` DNFC, `C128_power` DNFC, `C128_spectra` DNFC, `C128_survey` DNFC, `C128_grad` DNFCE

**PropsJet.v**: `C146_background` DNFC, `C146_distances` DNFC, `C146_growth` DNFC, `C146_power` DNFC, `C146_spectra` DNFC, `C146_hessian` DNFC, `C146_mixed` DNFC, `C146_program` DNFC

**PropsJetLike.v**: `C150_hessian_partial` DNFC, `C150_fisher` DNFC, `C150_modes` DNFC, `C150_program` DNFC, `C150_program_here` DNFC, `C150_cutoff` DNFC, `C150_cutoff_refuted` DNFC

**PropsJetNuis.v**: `C149_redshift_partial` DNFC, `C149_kernel_partial` DNFC, `C149_spectra_partial` DNFC, `C149_shift_refuted` DNFC, `C149_cutoff` DNFC, `C149_cutoff_spectra` DNFC, `C149_cutoff_refuted` DNFC

**PropsKdeNd.v**: `C156_columns` DNFC, `C156_matrix_weights` DNFC, `C156_weights_refuted` DNFC, `C156_single` DNFC, `C156_densities` DNFC, `C156_shift` DNFC

**PropsLaws.v**: `C99_linear_change` DNFCE, `C99_reorder` DNFCE, `C100_multipoles` DNFCE, `C101_precision` DNFCE, `C102_density` DNFC, `C102_peak` DNFC, `C102_shifted_peak` DNFC, `C103_shift_compose_partial` DNFC, `C103_shift_refuted` DNFC, `C104_normalisation_refuted` DNFC, `C104_lost_partial` DNFC, `C105_linear` DNFC, `C105_halofit` DNFC, `C105_linear_mismatch` DNFC, `C105_halofit_mismatch` DNFC, `C105_unknown_prescription` DNFC

**PropsLikelihood.v**: `C11_representation_independent` DNFCE, `C12_cholesky_eq_inverse` DNFCE, `C12_unknown_method_rejected` DNFC, `C12_method_ignored_sparse` DNFC, `C13_value` DNFCE, `C13_value_sparse` DNFCE, `C13_symmetric` DNFCE, `C13_maximum_at_mean` DNFCE, `C14_log_density_refuted` DNFCE, `C14_error_is_logdet` DNFCE, `C14_actual_value` DNFCE

**PropsNd.v**: `C147_vectors_partial` DNFC, `C147_shapes_partial` DNFC, `C147_planes_partial` DNFC, `C147_plane_refuted` DNFC, `C147_number_partial` DNFC, `C147_number_refuted` DNFC, `C147_matrix_refuted` DNFC, `C147_weight` DNFC, `C148_distances_partial` DNFC, `C148_number_partial` DNFC, `C148_growth_partial` DNFC, `C148_rejects_partial` DNFC, `C148_matrix_refuted` DNFC

**PropsNuis.v**: `C131_redshift` DNFC, `C131_kernel` DNFC, `C131_spectra` DNFC, `C131_linear_spectra` DNFC, `C131_default_spectra` DNFC, `C131_programs` DNFC, `C132_finite_partial` DNFC, `C132_smail` DNFC, `C132_shift` DNFC, `C132_spectra` DNFC, `C132_smail_refuted` DNFC, `C132_shift_refuted` DNFC

**PropsNuisLike.v**: `C133_noise` DNFC, `C133_survey` DNFCE, `C133_default_survey` DNFCE, `C133_programs` DNFC, `C133_transpose` DNFC, `C133_grad` DNFCE

**PropsNum.v**: `C48_increasing_partial` DF, `C48_first_cell_refuted` DF, `C49_decreasing_partial` DF, `C49_interpolant_refuted` DF, `C50_affine` DF, `C51_simpson_sum` DF, `C51_cubic_exact` DNFC, `C52_algebra` DF, `C52_odd_rejected` DF, `C53_error` DNFC, `C54_romberg` DF, `C54_divmax_zero` -, `C55_exact` DNFC, `C56_rk4` DF, `C56_rk4_pair` DF, `C56_quadrature` DF, `C56_cubic` DNFC, `C56_linear` DF

**PropsNum2.v**: `C85_bounds` DF, `C85_monotone` DF, `C85_vs_trapezoid` DF, `C85_near_best` DNFC, `C86_simps` DNFC, `C86_romb` DNFC

**PropsNzTrace.v**: `C134_passed` DNFC, `C134_careful_partial` DNFC, `C134_leak` DNFC, `C134_transparency_refuted` DNFC

**PropsOver.v**: `C129_program` DNFC, `C129_modes` DNFC, `C129_routes` DNFC, `C129_survey` DNFCE, `C129_curvature` DNFCE

**PropsPower.v**: `C66_sigma8` DNFC, `C66_sigma_positive` DNFC, `C67_range_refuted` DNFC, `C67_actual_range_partial` DNFC, `C67_default_range_partial` DNFC, `C67_value_partial` DNFC, `C68_scaling` DNFC, `C68_shape` DNFC, `C68_no_wiggle_positive` DNFC, `C69_takahashi` DNFC, `C69_smith` DNFC, `C69_unknown` DNFC, `C70_limit` DNFC, `C70_range` DNFC, `C70_alpha` DNFC, `C70_unknown` DNFC

**PropsPowerCol.v**: `C152_linear_partial` DNFC, `C152_table` DNFC, `C152_rows` DNFC, `C152_halofit_raises` DNFC, `C152_halofit_refuted` DNFC

**PropsPowerNd.v**: `C151_linear` DNFC, `C151_halofit_partial` DNFC, `C151_grid` DNFC, `C151_mismatch` DNFC, `C151_unknown` DNFC, `C151_column` DNFC, `C151_column_refuted` DNFC

**PropsProbes.v**: `C32_gamma_kernel_refuted` DNFC, `C32_gamma_always_raises` DNFC, `C32_without_gamma_partial` DNFC, `C74_bin_order` DNFC, `C74_empty` DNFC, `C75_signs` DNFC, `C76_shear_bias` DNFC, `C76_formula` DNFC, `C77_noise` DF, `C78_delta_rejected` DNFC, `C79_bounds` DNF, `C79_limit` DNF, `C79_enters_kernel` DNFC, `C80_zmax` DF, `C80_empty` DF, `C82_values` DNFC, `C82_today` DNFC, `C82_pivot` DNFC

**PropsPytree.v**: `C29_roundtrip` DF, `C29_fields` DF, `C29_distributions` DF, `C29_biases` DF, `C29_flatten_unflatten` DF, `C30_weak_lensing_refuted` DF, `C30_multiplicative_bias_lost` DF, `C30_biases_exchanged` DF, `C30_even_trips` DF, `C30_bins_and_config_partial` DF

**PropsQuadNd.v**: `C155_simps` DF, `C155_simps_exact` DNFC, `C155_romb_raises` DF, `C155_romb_refuted` DF

**PropsReadme.v**: `C130_amplitude_partial` DNFCE, `C130_fisher_refuted` DNFCE

**PropsRedshift.v**: `C27_roundtrip` -, `C27_idempotent` -, `C28_gamma_refuted` DF, `C28_gamma_always_raises` -, `C35_history` DNFC, `C35_densities` DNFC, `C71_normalised` DNFC, `C72_positive` DNFC, `C72_mean` DNFC, `C72_scale` DNFC, `C73_shift` DNFC

**PropsRombFn.v**: `C153_romb_partial` DF, `C153_simps` DF, `C153_simps_constant` DF, `C153_romb_constant` DF, `C153_constant_refuted` DF

**PropsShape.v**: `C116_decreasing` DNFC, `C116_small_scales` DNFC, `C116_power` DNFC, `C116_realistic` DNFC

**PropsShow.v**: `C144_parameters_partial` -, `C144_no_gamma_partial` -, `C144_gamma_refuted` DNFC, `C144_containers_partial` -, `C144_containers_refuted` DF, `C145_ksteps_refuted` DNFC, `C145_accuracy_partial` DNFC

**PropsSoft.v**: `C140_differentiable` DNFCE, `C140_finite_partial` DNFCE, `C140_jvp_nan` DNFCE, `C140_grad_nan` DNFCE, `C140_jvp_refuted` DNFCE, `C140_grad_refuted` DNFCE

**PropsSparse.v**: `C01_to_dense` D, `C01_not_sparse` D, `C02_sparse_dot_vec` DF, `C02_vec_dot_sparse` DF, `C03_sparse_dot_dense` DF, `C03_dense_dot_sparse` DF, `C04_sparse_dot_sparse` DF, `C05_dot_never_wrong_refuted` DF, `C05_right_iff_same_block_size` DF, `C06_bilinear` DF, `C07_argument_count` D, `C07_rank` D, `C07_inner_mismatch` D, `C07_three_rank` D, `C07_three_mismatch` D, `C07_accepts` DF, `C08_inv` DF, `C08_inv_not_square` D, `C08_inv_not_sparse` D, `C09_slogdet` DNFCE, `C09_positive_definite` DFCE, `C10_det_refuted` DNFCE, `C10_zero_pivot` DNFC

**PropsSpline.v**: `C31_spline_pytree` DF, `C57_through_data` DFCE, `C58_smooth` DNFCE, `C59_not_a_knot` DNFCE, `C60_natural_refuted` DNFCE, `C60_natural_left_partial` DFCE, `C61_cubic_system` DFCE, `C61_quadratic_system` DFCE, `C61_any_solver` DFCE, `C62_polynomials` DNFCE, `C62_lines_any_endpoints` DNFCE, `C63_derivative` DNFCE, `C63_orders` DFCE, `C64_antiderivative` DNFCE, `C64_integral` DNFCE, `C65_validation` DF, `C65_unknown_endpoint` DF, `C84_the_spline` DNFCE

**PropsSplineNd.v**: `C154_call` DF, `C154_derivative` DNFCE, `C154_antiderivative` DNFCE, `C154_integral` DNFCE, `C154_integral_arrays` DF, `C154_integral_one` DF, `C154_integral_refuted` DNFCE, `C154_data_vectors` DF, `C154_data_rank` DF, `C154_data_numbers` DF, `C154_orders` DF

**PropsTrace.v**: `C113_transparent_partial` DNFC, `C113_leak` DNFC, `C113_transparency_refuted` DNFC

**PropsXBack.v**: `C137_background` DNFC, `C137_distances` DNFC, `C137_growth` DNFC, `C137_transfers` DNFC, `C137_linear` DNFC, `C137_halofit` DNFC, `C137_kernel` DNFC, `C137_spectra` DNFC, `C137_default_spectra` DNFC, `C138_finite_partial` DNFC, `C138_smail` DNFC, `C138_spectra` DNFC, `C138_refuted` DNFC

**PropsXLike.v**: `C139_jvp` DNFCE, `C139_grad` DNFCE
