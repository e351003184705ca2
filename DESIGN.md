# Formal model of cuthbert / cuthbertlib in Rocq (Coq 8.16.1)

The properties are listed in `properties.jsonl` (C01...).  `MANIFEST.json` maps each to theorem names.
All Coq sources are in `rocq/theories/` (logical root `Verif`).

## 1. Approach

* Shallow embedding.  Each Python function becomes a Gallina function with the same branches;
  Python exceptions are explicit result constructors.  Each model definition cites file and lines in /repo.
* Model files (`*Model.v`, definitions only), proof files, and property files (`Prop*.v`: statement,
  `exact lemma`, `Print Assumptions`, and a concrete non-vacuity `Example`).
* Specifications (path sums of an HMM, Gaussian log densities, counting functions, marginalisation by
  deleting coordinates, ...) are separate small definitions that do not mention the model's helpers.
* If the full statement is false of the faithful model, the finding is a theorem `..._refuted` with a
  concrete witness and a companion theorem for the largest natural domain on which the statement holds.

## 2. Numbers and arrays

* Real arithmetic instead of floating point: no rounding, no overflow, except in C78 and C79, where the
  inverse-CDF code is modelled with rounding to nearest even (`FloatModel.v`, Flocq).  Where the *special values*
  matter (`-inf` log likelihoods, `0/0`, NaN observations), an extended-float type
  `Fin r | PInf | NInf | NaN` with IEEE-style operations (sign of zero not modelled) is used.
* Matrices: mathcomp `'M[F]_(m,n)`, generic in a real field where no `log` is needed, and Coq's `R`
  (given a mathcomp structure in `RStruct.v`) when densities are involved.
* Random keys: opaque values with a `split`; theorems about distributions are stated as (a) exact
  statements for every value of the uniforms, (b) Riemann integrals or finite sums over the uniforms,
  (c) for whole runs (C64, C65, C69, C70, C72, C73, C74) expectations over one seed per key, seeds of different keys being
  independent: `UnbiasedSpec.v` (iterated means; that a random primitive is a function of its key's
  seed only is part of the model).
* NaN observations: `option`-valued entries (`None` = NaN).

## 3. External functions (contracts appear as hypotheses of the theorems)

Each contract is a hypothesis of the theorems that need it, never an axiom. Each is shown satisfiable.

| routine | contract | satisfiable by |
|---|---|---|
| `tria` (QR) | `tria_ok`: lower triangular, same Gram matrix, for at least as many columns as rows | `some_tria` (`TriaExist.v`) |
| `jnp.linalg.cholesky` | lower triangular factor of positive definite matrices | `some_cholesky` (`PropQuad.v`) |
| `svd(hermitian=True)` | `decomposes` on the matrix at hand: orthogonal vectors, decreasing singular values | `some_svd` on every symmetric matrix (`SvdExist.v`, spectral theorem) |
| `grad`, `jacobian` | `grad_ok`, `jacobian_ok`: the (Frechet) derivative with respect to the non-missing entries wherever there is one, zero at missing entries | `some_grad`, `some_jacobian` (`LinearizeProofs3.v`) |
| `hermegauss` | nodes and weights integrate 1, x, x^2 exactly | an explicit two-point rule (`PropQuad.v`) |
| `random.categorical` | `categorical_law`: one draw from the weights (C72) | `inverse_cdf_draw` (C72_categorical) |
| `random.uniform`, `random.permutation` | independent uniforms, uniform permutation (`seed_mean`) | iterated Riemann integrals and finite sums (`Seeds.v`) |
| `random.normal`, `random.uniform` in `generate.py` | `normal_moments` (mean 0, variance 1, uncorrelated), `uniform_entries` (each entry uniform on [0,1]) | `wave_normal`, `flat_uniform` (`PropGen.v`) |
| `random.split` | returns the requested number of keys (`split_ok`); distinctness where C38 needs it | `tt_split` and a free key tree |

* `solve_triangular`, `cho_solve`, `jnp.linalg.inv`: the inverse matrix of the triangle that is read.
  Theorems carry the invertibility guards. Division by zero is modelled where a property depends on it
  (`GaussExt.v`, `MvnExt.v`, `Ext.v`).
* `jax.lax.scan`: left fold with outputs. `jax.lax.associative_scan`: the recursive even/odd algorithm
  of JAX is modelled as code, not assumed.

## 4. Trusted base

* Coq's kernel (and `coqchk`), the reading of the Python code, and the contracts of section 3.
* Assumptions reported by `Print Assumptions`: only standard-library axioms
  (`ClassicalDedekindReals.sig_forall_dec`, `sig_not_dec`, `functional_extensionality_dep`, `classic`,
  `constructive_indefinite_description`); the per-theorem list is in section 7.

### What is modelled

| code in /repo | model file | simplifications |
|---|---|---|
| `cuthbert/filtering.py`, `cuthbert/smoothing.py` | `ScanModel.v` | callbacks are arbitrary functions; warnings left out |
| `cuthbertlib/discrete/*`, `cuthbert/discrete/*` | `DiscreteModel.v` | real and extended arithmetic |
| `cuthbertlib/kalman/{filtering,smoothing,sampling}.py`, `cuthbert/gaussian/kalman.py` | `KalmanModel.v`, `GaussExt.v` (special values, one dimension) | one sample per draw |
| `cuthbertlib/linalg/{tria,collect_nans_chol}.py` | `KalmanModel.v` | `tria` by contract |
| `cuthbertlib/linalg/{marginal_sqrt_cov,symmetric_inv_sqrt}.py` | `LinalgModel.v` | default `rtol` is a parameter |
| `cuthbertlib/stats/multivariate_normal.py` | `KalmanModel.v`, `MvnShapes.v`, `MvnExt.v` | unbatched arguments |
| `cuthbertlib/quadrature/*` | `QuadModel.v` | `sp_sqrt` padded with zero columns |
| `cuthbertlib/linearize/*` | `LinearizeModel.v` | `has_aux=False` |
| `cuthbert/gaussian/{types,utils}.py`, `cuthbert/gaussian/{moments,taylor}/*` | `LinKalmanModel.v` | a state with a NaN mean is `None` |
| `cuthbertlib/resampling/*` | `ResamplingModel.v` | uniforms are arguments |
| `cuthbertlib/resampling/multinomial.py`, `killing.py`, `utils.py` with draws equal to 0 | `ZeroDrawModel.v` | same functions on extended floats; NaN sorts last in `searchsorted` |
| `cuthbertlib/resampling/{utils,systematic}.py` in floating point | `FloatModel.v` | rounded additions and divisions; weights are given floats; no overflow; `jnp.cumsum` off the CPU is `associative_scan` of addition |
| `cuthbertlib/smc/*`, `cuthbert/smc/*` | `SmcModel.v` | abstract propagation and potentials |
| `cuthbertlib/smc/smoothing/mcmc.py` with its random keys | `McmcModel.v` | steps from `SmcModel.v` |
| `cuthbertlib/kalman/generate.py` | `GenModel.v` | |
| `docs/examples/parameter_estimation_em.md` (loss of the M-step) | `EmModel.v` | Gaussian terms by quadrature as in the code; binom.logpmf(y, 50, logit_inv(x)) an arbitrary function of y and x; parameters already constrained |
| `docs/examples/dynamax_integration.md` (wrapper, lines 106-163) | `DynamaxModel.v` | Cholesky factors are parameters; row -1 of the observations (never read by the filter) replaced by row 0 |
| `docs/examples/online_stoch_vol.md` (callbacks, prediction and update steps) | `StochVolModel.v` | real arithmetic; log return a real or NaN; data download and plots left out |
| `docs/quickstart.md` (coding of results, log densities, filter object, error bars) | `QuickstartModel.v` | real arithmetic; data download and plots left out; dummy indices of the first entry arbitrary |
| `docs/examples/kalman_tracking.md` (model, filter object, indexing) | `TrackingModel.v` | real arithmetic; the literals are parameters; simulation and plots left out |
| `cuthbertlib/discrete/*.py`, `cuthbert/discrete/*.py` in rounded arithmetic | `FloatDiscreteModel.v` | real numbers with arbitrary rounded operations and summation orders; no NaN/infinity/overflow; no fused multiply-add |

### What is not modelled

Floating-point overflow, and rounding outside inverse-CDF resampling and the discrete
filter and smoother; JAX tracing, jit and vmap beyond elementwise maps; dtype rules;
device placement; sharding; warnings; typing protocols (`inference.py`, `types.py`,
`protocols.py`); benchmarks; examples and documentation other than the quickstart, the EM
page's M-step loss, the dynamax wrapper, the online volatility example, the tracking example and the cost claim of the
temporal parallelisation page.

## 5. Plan per property

| id | modelled | proof |
|---|---|---|
| C01-C04 | `filter`, `smoother`, `lax.scan`, `associative_scan` over arbitrary callbacks | induction on the input list; strong induction on length for the even/odd scan |
| C05-C07 | discrete operator, filter, smoother over R | kernel denotation of elements; induction over time; path sums |
| C08-C09 | same code over extended floats | refutation by evaluated witness + positive-domain theorem |
| C10-C13 | `predict`, `update`, `collect_nans_chol` | block-matrix algebra, Schur complement, selection matrices |
| C14-C15 | associative element, operator, drivers | push-through and Sylvester identities |
| C16-C19 | smoother step, operator, stored outputs | Schur complement, induction over time |
| C20 | sampling elements and operator | as C17 |
| C21 | operator with a singular factor | refutation by witness, plus mean/cov theorem without the guard |
| C22-C29 | resampling functions on lists of reals | loop invariants; counting; Riemann integrals |
| C30-C31 | `ess`, `ess_decorator` | Cauchy-Schwarz |
| C32-C38 | SMC filters and smoothers with abstract callbacks | invariants over runs; finite-sum invariance; witnesses |
| C39-C42 | stats and linalg | triangular determinants, Cholesky algebra |
| C43-C45 | quadrature rules | finite sums; loop invariant |
| C46-C50 | linearisation and linearised filters | calculus by contract, then reduction to C11/C14; witness for C50 |
| C51 | `inverse_cdf` under a uniform | Riemann integral of an indicator |
| C52 | marginal particle filter weights | finite sums |
| C53-C54 | shape dispatch of `logpdf`; `chol_cov_with_nans_to_cov` | case analysis; witnesses; exact conditions and errors in `PropMvnExact.v` |
| C55-C56 | Cholesky updates and square-root linearisation | loop invariant; witnesses |
| C57-C58 | missing entries in the Taylor linearisation | masked block algebra, reduction to C12 |
| C59-C60 | linearised smoothers | reduction to C17; witness for C59 |
| C61 | Kalman operator with singular factors | associativity without the guard; witness in extended arithmetic |
| C62 | Taylor potentials with singular precision | pseudo-inverse identities; null directions of the precision; completing the square for the exact posterior |
| C63 | constants of Taylor potentials | derivatives ignore constants; C48 for the Gaussian part |
| C64 | particle filter unbiased | the value process Z_t sum W phi is a martingale for independent seeds; induction over the steps |
| C65 | marginal particle filter unbiased | the same for potentials of the current state; exact first-step expectation by a sum over pairs of seeds |
| C66 | minimum variance | Joseph form: any gain costs (K - K*) S (K - K*)^T more than the optimal one; then induction along the run, masks by a gain with zero columns, smoothing backwards |
| C67 | zero draws in multinomial resampling | extended floats through cumsum, quotient and both search loops; exact average over all outputs of an M-valued generator by induction on the number of draws |
| C68 | law of multinomial resampling | iterated integrals of an indicator; Gamma tails by the fundamental theorem of calculus and a continuity argument at 0; binomial tails by matching two recursions; pairs of slots by a trinomial recursion matched with products of Gamma densities; sums over all permutations by induction |
| C69 | unbiasedness with vanishing potentials | invariant with a live and an extinct case; martingale argument of C64 in the live case, zero in the extinct one; NaN propagation by induction over the run |
| C70 | path-space unbiasedness of lines and traced trajectories | simulation between the filter and the filter on path space (states are past and present), martingale argument on path space, locality of runs in the keys they consume, then one more expectation over the smoother's resampling key |
| C71 | bookkeeping of model inputs in both driver modes | interval invariant of scans and associative scans (DriverProofs), case analysis of the callbacks |
| C72 | FFBS on path space | martingale over the filter's keys with backward expectations as the test function (interchange of the two transitions), then induction on the backward pass |
| C73 | MCMC backward sampling on path space | martingale over the filter's keys for any kernel leaving the backward weights invariant, induction on the Metropolis-Hastings steps and on the backward pass |
| C74 | generated models | key tree without collisions, induction over the scan, second moments as an affine recursion with contraction 9/16 |
| C75 | most probable trajectory | backward factorisation of the joint density, each Gaussian factor maximal at its mean, descending induction for uniqueness |
| C76 | documented EM loss | quadrature exact on second moments, telescoping sum of the swapped means, tangent of the logarithm for the minimiser; refuted with a two-step witness |
| C77 | EM monotonicity | backward factorisation of both joint densities and a Gibbs inequality for chains of Gaussian kernels (trace-logdet inequality through Cholesky factors) |
| C78 | floating-point inverse CDF | loop invariant on the rounded running sum; telescoped effective weights; interval induction over the scan tree with Flocq's addition error lemma |
| C79 | zero weights in floating point | evaluation of rounding on scaled integers (proved equal to Flocq's round to nearest even) and effective weights |
| C80 | extended Kalman filter | first-order expansion of the callbacks, exact predict/update steps, induction over the run |
| C81 | Laplace filter | matching the derivatives of a linear-Gaussian density, exact predict/update steps, induction over the run |
| C82 | dynamax wrapper | restricted interval rule of the even/odd scan, covariance-form products |
| C83 | floating-point discrete filter and smoother | interval rule on the unnormalised kernel f*exp(log_g): each application of the operator multiplies the exact product by at most exp(+-r); row sums tracked separately; backward recursion for non-stochastic arrays |
| C84 | mean square error of the particle filter | quadratic functionals of the particle system propagated through fair steps; independence of two multinomial slots (C68) and of the propagation keys; two-chain recursion; induction on the horizon for the 1/N bound |
| C85 | depth and work of the drivers | naturality of the scans turns every run into the evaluation of formulas; strong induction on the halving recursion for depth and distinct combinations; counting leaves for the lower bounds |
| C86 | online prediction (documentation example) | one-step facts of the particle filter with a zero potential; two combinations with the same state consume the same randomness; induction over the run |
| C87 | documented stochastic volatility model | derivatives of the coded mean and variance, uniqueness for linear differential equations, semigroup identities; witness for the initial law |
| C88 | quickstart match probabilities | sigmoid identities, closed form of the draw probability, monotonicity of cosh |
| C89 | quickstart error bars | square roots; witness with the documented prior |
| C90 | quickstart run | second derivatives of the three log probabilities, C62 per match, exact linearisation of the Gaussian densities, induction over the season |
| C91 | independent models side by side | an intertwining relation U m = m', U P = P' U' is preserved by one step of the recursion, applied to the two coordinate projections; two orthonormal frames of the observed subspace give the same Gaussian density |
| C92 | change of coordinates and units | the same intertwining relation with U = T, U' = T^-T; determinant of the observed units |
| C93 | the tracking example | closed-form derivatives and integrals (Coquelicot), uniqueness of the solution, semigroup law of F and Q, induction over the gap, permutation of the coordinates (C92) into two models side by side (C91) |
| C94 | uncertainty during outages | invariant: position and velocity of an axis stay nonnegatively correlated (C93_axes reduces to one axis) |

## 6. Status

`MANIFEST.json` gives the status of every property. A property whose full statement is false of the
model has status "partial", a theorem `..._refuted` with a witness, and where possible a `_partial` or
companion theorem for the domain on which it holds. `seeded/LOG.jsonl` records the wrong programs on
which the theorems were tried.

## 7. Assumptions per theorem

Generated from `Print Assumptions` on every theorem of `MANIFEST.json`. All axioms are from the
standard library (`ClassicalDedekindReals`, `Classical_Prop`, `ClassicalEpsilon`,
`FunctionalExtensionality`).

### closed under the global context

* `PropDepth.v`: `C85_filter`, `C85_smoother`, `C85_optimal`
* `PropDrivers.v`: `C01_filter_online`, `C01_filter_causal`, `C01_filter_empty`, `C02_parallel_filter`, `C02_parallel_filter_eq`, `C03_smoother_backward`, `C03_smoother_lengths_agree`, `C03_smoother_bad_length`, `C04_parallel_smoother`
* `PropMcmc.v`: `C73_keys`
* `PropMultinomial.v`: `C68_permutations`, `C68_permutation_count`
* `PropMvn.v`: `C41_errors`
* `PropSmc.v`: `C38_keys_reused`, `C38_refuted`, `C38_statement_false`, `C38_no_reuse_partial`

### `functional_extensionality_dep`, `sig_forall_dec`

* `PropInputs.v`: `C71_discrete_smoother`
* `PropPredict.v`: `C87_initial_refuted`
* `PropResampling.v`: `C22_inverse_at_unique`, `C28_slot_uniform`

### `functional_extensionality_dep`, `sig_forall_dec`, `sig_not_dec`

* `PropFfbs.v`: `C72_joint_potential`
* `PropMatches.v`: `C88_mirror`, `C88_no_threshold`, `C88_step`
* `PropMcmc.v`: `C73_uniforms`
* `PropResampling.v`: `C28_pivot_first_weights`

### `classic`, `constructive_indefinite_description`, `functional_extensionality_dep`, `sig_forall_dec`

* `PropEkf.v`: `C80_extended_smoother`
* `PropGen.v`: `C74_factor`
* `PropInputs.v`: `C71_kalman_smoother`, `C71_moments_smoother`
* `PropKalman.v`: `C10_predict`
* `PropLinSmooth.v`: `C60_moments_smoother`
* `PropLinearize.v`: `C46_given_chol_cov`, `C47_moments_interpolate`, `C47_affine_exact`
* `PropMvn.v`: `C41_marginal_block`, `C41_out_of_range`, `C41_all_blocks`, `C54_refuted`, `C54_valid_block_partial`, `C54_product_partial`
* `PropMvnExact.v`: `C54_exact_value`, `C54_exact`
* `PropSmoothElem.v`: `C17_elements_unconditional`
* `PropSmoothing.v`: `C16_smoother_update`, `C16_scan_pair`, `C17_operator_associative`, `C17_parallel_is_sequential`, `C17_smoother_run_exact`, `C19_two_step_factor`, `C20_operator_associative`, `C20_path`, `C20_law`
* `PropTracking.v`: `C93_any_grid`

### `classic`, `functional_extensionality_dep`, `sig_forall_dec`, `sig_not_dec`

* `PropDiscrete.v`: `C05_discrete_filter_exact`, `C06_discrete_operator_associative`, `C06_discrete_parallel_eq_sequential`, `C07_discrete_smoother_exact`, `C08_discrete_smoother_unreachable_refuted`, `C09_discrete_filter_zero_likelihood_refuted`, `C09_discrete_filter_zero_likelihood_partial`
* `PropDiscreteNan.v`: `C08_discrete_smoother_exact`, `C09_discrete_filter_exact`
* `PropFfbs.v`: `C72_ffbs`, `C72_categorical`, `C72_systematic`
* `PropFloat.v`: `C78_backward_stable`, `C78_both_platforms`, `C78_grid`, `C79_zero_weight_refuted`, `C79_interior_refuted`, `C79_zero_weight_partial`
* `PropFloatDiscrete.v`: `C83_filter`, `C83_smoother`, `C83_formats`
* `PropFloatUnderflow.v`: `C83_underflow`
* `PropInputs.v`: `C71_discrete_filter`, `C71_particle_filter`, `C71_marginal_particle_filter`, `C71_backward_sampler`, `C71_default_discrete`, `C71_default_particle`
* `PropMarginalBias.v`: `C65_refuted`, `C65_statement_false`, `C65_unbiased_partial`, `C65_first_step`
* `PropMatches.v`: `C88_probabilities`, `C88_order`, `C88_score`
* `PropMcmc.v`: `C73_mcmc_partial`, `C73_proposals`, `C73_builtin`
* `PropMcmcBias.v`: `C73_refuted`, `C73_statement_false`
* `PropMeanSquare.v`: `C84_second_moment`, `C84_mean_square`, `C84_averages`
* `PropMultinomial.v`: `C68_indices`, `C68_binomial`, `C68_unbiased`, `C68_expected_copies`, `C68_slot`
* `PropMultinomialPairs.v`: `C68_two_slots`, `C68_mean_square`, `C68_copies_covariance`
* `PropMvn.v`: `C40_scalar_nan`
* `PropPaths.v`: `C70_lines`, `C70_tracing`, `C70_systematic`, `C70_builtin`
* `PropPredict.v`: `C86_prediction`, `C86_evidence`, `C87_transition`, `C87_observation`
* `PropResampling.v`: `C22_inverse_cdf_correct`, `C23_zero_weight_refuted`, `C23_zero_weight_partial`, `C24_systematic_counts`, `C25_systematic_unbiased`, `C26_killing_wrong_n`, `C26_killing_survivors`, `C26_killing_unbiased`, `C27_conditional_pivot`, `C28_offset_law`, `C28_structure`, `C29_killing_slot_weights`, `C29_structure`, `C30_ess`, `C31_adaptive_resampling`, `C51_inverse_cdf_law`
* `PropSmc.v`: `C32_runs_exist`, `C32_evidence_telescopes`, `C32_scale_invariant`, `C32_constant_potentials`, `C32_builtin_resamplers`, `C33_refuted`, `C33_statement_false`, `C33_adaptive_reports_last_potential`, `C33_constant_potentials_partial`, `C33_uniform_resamplers`, `C34_tracing_ancestral_lines`, `C34_ancestor_indices_are_parents`, `C35_inputs_actually_used`, `C35_refuted`, `C35_input_free_potential_partial`, `C35_exact_sampling_partial`, `C36_exact_backward_weights`, `C36_scale_invariant`, `C36_simulate`, `C37_refuted`, `C37_statement_false`, `C37_kernel_invariant_partial`, `C37_law_well_defined`, `C37_carry_consistent`, `C37_symmetric_density_partial`, `C38_run_consumes`, `C52_mixture_weights`
* `PropSurvival.v`: `C69_unbiased_partial`, `C69_builtin`, `C69_systematic`, `C69_adaptive_nan`, `C69_marginal_nan`, `C69_refuted`, `C69_statement_false`
* `PropUnbiased.v`: `C64_refuted`, `C64_statement_false`, `C64_unbiased_partial`, `C64_systematic`
* `PropUnbiasedBuiltin.v`: `C64_builtin`, `C65_builtin`
* `PropZeroDraw.v`: `C67_refuted`, `C67_collapse`, `C67_conditional_collapse`, `C67_collapse_default`, `C67_killing`, `C67_collapse_frequency`, `C67_collapse_single_precision`, `C67_positive_draws_partial`
* `PropZeroWeight.v`: `C23_systematic_exact`, `C23_killing_exact`

### `classic`, `constructive_indefinite_description`, `functional_extensionality_dep`, `sig_forall_dec`, `sig_not_dec`

* `PropCholSingular.v`: `C55_exact`, `C55_zero_pivot`, `C55_exact_iff`
* `PropDynamax.v`: `C61_noiseless_at_odd_times`, `C82_dynamax_filter`
* `PropEkf.v`: `C80_extended_kalman`, `C80_classic_form`, `C80_fixed_points`
* `PropEm.v`: `C76_refuted`, `C76_documented_loss`, `C76_documented_minimiser`, `C76_repaired_loss_partial`
* `PropEmMono.v`: `C77_evidence_lower_bound`, `C77_law_exists`
* `PropFlat.v`: `C62_exact`
* `PropGen.v`: `C74_simulation`, `C74_nondegenerate`, `C74_second_moment`
* `PropInputs.v`: `C71_kalman_filter`, `C71_moments_filter`, `C71_taylor_filter`, `C71_taylor_smoother`, `C71_default_kalman`, `C71_default_moments`, `C71_default_taylor`
* `PropKalman.v`: `C11_update_is_bayes`, `C11_update_moments`, `C11_update_singular_prior`, `C12_missing_marginalised`, `C12_same_as_deleting`, `C12_missing_parameters_ignored`, `C13_all_missing`, `C14_scan_step`, `C14_filter_run_exact`, `C15_operator_associative`, `C15_parallel_is_sequential`, `C21_refuted`, `C21_known_state_gives_nan`, `C21_nan_stays`, `C21_uncertain_scalar_state`, `C21_singular_prior_partial`
* `PropLaplace.v`: `C81_laplace_filter`, `C81_fixed_points`, `C81_laplace_smoother`
* `PropLinKalman.v`: `C49_moments_sequential`, `C49_moments_associative`, `C49_taylor_sequential`, `C49_taylor_associative`, `C50_sequential`, `C50_parallel_even_partial`, `C50_parallel_refuted`
* `PropLinObs.v`: `C48_pseudo_observation`, `C57_missing_rows`, `C57_missing_update`, `C58_potential_update`
* `PropLinSmooth.v`: `C59_refuted`, `C59_skipped_step_breaks_smoothing`, `C59_exact`, `C60_taylor_smoother`
* `PropLinearize.v`: `C46_log_density_exact`, `C48_taylor_exact`
* `PropMap.v`: `C75_most_probable_trajectory`
* `PropMvn.v`: `C39_matrix_factor`, `C39_vector_factor`, `C39_scalar_factor`, `C39_scalar_argument`, `C39_sign_flips`, `C39_bad_matrix_shape`, `C40_scalar_refuted`, `C40_matrix_factor_partial`, `C40_vector_factor_partial`, `C40_scalar_factor_partial`, `C40_all_missing_partial`, `C42_inverse_factor`, `C42_full_matrix`, `C53_refuted`, `C53_not_broadcastable_partial`, `C53_nan_support_truncates`
* `PropMvnExact.v`: `C53_exact_raises`, `C53_exact_stretched`, `C53_exact_iff`, `C53_exact_scalar_x`
* `PropOptimal.v`: `C66_minimum_variance`, `C66_more_observations`, `C66_update_below_prediction`, `C66_smoother_below_filter`
* `PropOutage.v`: `C94_outage`
* `PropPoints.v`: `C81_partial_points_sequential`, `C81_partial_points_associative`
* `PropPotential.v`: `C62_refuted`, `C62_flat_direction_certain`, `C62_linear_functional`, `C62_quickstart`, `C62_exact_posterior`, `C63_refuted`, `C63_constant_ignored`, `C63_evidence_offset`
* `PropPrev.v`: `C50_parallel_exact`
* `PropProduct.v`: `C91_filter`, `C91_evidence`, `C91_smoother`, `C92_filter`, `C92_evidence`, `C92_smoother`
* `PropQuad.v`: `C43_cubature`, `C43_unscented`, `C43_gauss_hermite`, `C43_cubature_is_unscented`, `C43_one_node_has_no_spread`, `C44_cubature`, `C44_gauss_hermite`, `C44_unscented`, `C44_unscented_scale`, `C44_unscented_default`, `C44_refuted`, `C44_sqrt_cubature`, `C44_sqrt_gauss_hermite`, `C44_sqrt_unscented`, `C44_sqrt_unscented_scale`, `C45_updates`, `C55_refuted`, `C56_refuted`, `C56_negative_weight`, `C56_negative_weight_refuted`
* `PropQuickstart.v`: `C62_quickstart_all`, `C89_historical`, `C89_exact`, `C89_refuted`, `C90_season`
* `PropScalarNan.v`: `C61_scalar_exact`
* `PropSingular.v`: `C61_refuted`, `C61_parallel_evidence_nan`, `C61_singular_moments`, `C61_moments_associative`
* `PropSmoothing.v`: `C16_prepared_is_conditional`, `C18_trajectory_density`, `C19_two_step_density`
* `PropTracking.v`: `C93_motion`, `C93_run`, `C93_gap`, `C93_axes`
