{
 "claims": [
  {
   "property": "C01",
   "status": "proved",
   "theorems": [
    "C01_filter_online",
    "C01_filter_causal",
    "C01_filter_empty"
   ],
   "note": ""
  },
  {
   "property": "C02",
   "status": "proved",
   "theorems": [
    "C02_parallel_filter",
    "C02_parallel_filter_eq"
   ],
   "note": ""
  },
  {
   "property": "C03",
   "status": "proved",
   "theorems": [
    "C03_smoother_backward",
    "C03_smoother_lengths_agree",
    "C03_smoother_bad_length"
   ],
   "note": "T=0 (a single filter state) raises IndexError in the model, see Example C03_T0."
  },
  {
   "property": "C04",
   "status": "proved",
   "theorems": [
    "C04_parallel_smoother"
   ],
   "note": ""
  },
  {
   "property": "C05",
   "status": "proved",
   "theorems": [
    "C05_discrete_filter_exact"
   ],
   "note": ""
  },
  {
   "property": "C06",
   "status": "proved",
   "theorems": [
    "C06_discrete_operator_associative",
    "C06_discrete_parallel_eq_sequential"
   ],
   "note": ""
  },
  {
   "property": "C07",
   "status": "proved",
   "theorems": [
    "C07_discrete_smoother_exact"
   ],
   "note": ""
  },
  {
   "property": "C08",
   "status": "partial",
   "theorems": [
    "C08_discrete_smoother_unreachable_refuted",
    "C08_discrete_smoother_exact",
    "C07_discrete_smoother_exact"
   ],
   "note": "The full statement is false: 0/0 = NaN for states with zero predictive probability. C08_discrete_smoother_exact says exactly when: the smoothed distribution at time u is the posterior if every state has positive predictive probability at all later times, and entirely NaN otherwise, in both modes."
  },
  {
   "property": "C09",
   "status": "partial",
   "theorems": [
    "C09_discrete_filter_zero_likelihood_refuted",
    "C09_discrete_filter_exact",
    "C09_discrete_filter_zero_likelihood_partial"
   ],
   "note": "The full statement is false: a row of zero likelihood mass becomes NaN and poisons the product. C09_discrete_filter_exact says exactly when: the distribution at time u is the posterior if all steps up to u have positive mass in every row, and entirely NaN otherwise, in both modes."
  },
  {
   "property": "C22",
   "status": "proved",
   "theorems": [
    "C22_inverse_cdf_correct",
    "C22_inverse_at_unique"
   ],
   "note": ""
  },
  {
   "property": "C23",
   "status": "partial",
   "theorems": [
    "C23_zero_weight_refuted",
    "C23_zero_weight_partial",
    "C23_systematic_exact",
    "C23_killing_exact"
   ],
   "note": "The full statement is false: the generator can return 0 and a leading zero-weight particle is then selected. The partial theorem covers all draws in (0,1). The exact theorems say when it fails: systematic resampling selects a zero-weight particle exactly when the draw is 0, in slot 0, and the first particle has weight zero; killing keeps exactly those zero-weight particles whose survival draw is 0."
  },
  {
   "property": "C24",
   "status": "proved",
   "theorems": [
    "C24_systematic_counts"
   ],
   "note": ""
  },
  {
   "property": "C25",
   "status": "proved",
   "theorems": [
    "C25_systematic_unbiased"
   ],
   "note": ""
  },
  {
   "property": "C26",
   "status": "proved",
   "theorems": [
    "C26_killing_wrong_n",
    "C26_killing_survivors",
    "C26_killing_unbiased"
   ],
   "note": "The law of the replacement index (multinomial marginal = weights) is an explicit part of the expectation; the law of the sorted uniforms is not modelled."
  },
  {
   "property": "C27",
   "status": "proved",
   "theorems": [
    "C27_conditional_pivot"
   ],
   "note": ""
  },
  {
   "property": "C28",
   "status": "proved",
   "theorems": [
    "C28_offset_law",
    "C28_slot_uniform",
    "C28_structure",
    "C28_pivot_first_weights"
   ],
   "note": ""
  },
  {
   "property": "C29",
   "status": "proved",
   "theorems": [
    "C29_killing_slot_weights",
    "C29_structure"
   ],
   "note": ""
  },
  {
   "property": "C30",
   "status": "proved",
   "theorems": [
    "C30_ess"
   ],
   "note": ""
  },
  {
   "property": "C31",
   "status": "proved",
   "theorems": [
    "C31_adaptive_resampling"
   ],
   "note": ""
  },
  {
   "property": "C51",
   "status": "proved",
   "theorems": [
    "C51_inverse_cdf_law"
   ],
   "note": ""
  },
  {
   "property": "C32",
   "status": "proved",
   "theorems": [
    "C32_runs_exist",
    "C32_evidence_telescopes",
    "C32_scale_invariant",
    "C32_constant_potentials",
    "C32_builtin_resamplers"
   ],
   "note": ""
  },
  {
   "property": "C33",
   "status": "partial",
   "theorems": [
    "C33_refuted",
    "C33_statement_false",
    "C33_adaptive_reports_last_potential",
    "C33_constant_potentials_partial",
    "C33_uniform_resamplers"
   ],
   "note": "The full statement is false: with adaptive resampling that keeps the weights, only the last potential is reported. The partial theorem covers every resampler returning uniform weights."
  },
  {
   "property": "C34",
   "status": "proved",
   "theorems": [
    "C34_tracing_ancestral_lines",
    "C34_ancestor_indices_are_parents"
   ],
   "note": ""
  },
  {
   "property": "C35",
   "status": "partial",
   "theorems": [
    "C35_inputs_actually_used",
    "C35_refuted",
    "C35_input_free_potential_partial",
    "C35_exact_sampling_partial"
   ],
   "note": "The full statement is false: at time t the inputs of transition t+1 -> t+2 (a dummy at the end) are used. The partial theorems cover potentials that do not depend on the inputs, and exact sampling with inputs entering only through a term independent of the ancestor."
  },
  {
   "property": "C36",
   "status": "proved",
   "theorems": [
    "C36_exact_backward_weights",
    "C36_scale_invariant",
    "C36_simulate"
   ],
   "note": ""
  },
  {
   "property": "C37",
   "status": "partial",
   "theorems": [
    "C37_refuted",
    "C37_statement_false",
    "C37_kernel_invariant_partial",
    "C37_law_well_defined",
    "C37_carry_consistent",
    "C37_symmetric_density_partial"
   ],
   "note": "The full statement is false for asymmetric densities: the initial carry is log_density(x1, x0[idx]). The partial theorems prove invariance of the accept/reject kernel from a consistent carry for any number of steps, and of the code for symmetric densities."
  },
  {
   "property": "C38",
   "status": "partial",
   "theorems": [
    "C38_run_consumes",
    "C38_keys_reused",
    "C38_refuted",
    "C38_statement_false",
    "C38_no_reuse_partial"
   ],
   "note": "False when child i of a key does not depend on the number of children requested: initial particles and first step then share their keys. Proved for splitting functions injective in (key, count, index)."
  },
  {
   "property": "C52",
   "status": "proved",
   "theorems": [
    "C52_mixture_weights"
   ],
   "note": ""
  },
  {
   "property": "C10",
   "status": "proved",
   "theorems": [
    "C10_predict"
   ],
   "note": ""
  },
  {
   "property": "C11",
   "status": "proved",
   "theorems": [
    "C11_update_is_bayes",
    "C11_update_moments",
    "C11_update_singular_prior"
   ],
   "note": ""
  },
  {
   "property": "C12",
   "status": "proved",
   "theorems": [
    "C12_missing_marginalised",
    "C12_same_as_deleting",
    "C12_missing_parameters_ignored"
   ],
   "note": ""
  },
  {
   "property": "C13",
   "status": "proved",
   "theorems": [
    "C13_all_missing"
   ],
   "note": ""
  },
  {
   "property": "C14",
   "status": "proved",
   "theorems": [
    "C14_scan_step",
    "C14_filter_run_exact"
   ],
   "note": ""
  },
  {
   "property": "C15",
   "status": "proved",
   "theorems": [
    "C15_operator_associative",
    "C15_parallel_is_sequential"
   ],
   "note": ""
  },
  {
   "property": "C16",
   "status": "proved",
   "theorems": [
    "C16_smoother_update",
    "C16_scan_pair",
    "C16_prepared_is_conditional"
   ],
   "note": ""
  },
  {
   "property": "C17",
   "status": "proved",
   "theorems": [
    "C17_operator_associative",
    "C17_parallel_is_sequential",
    "C17_smoother_run_exact",
    "C17_elements_unconditional"
   ],
   "note": ""
  },
  {
   "property": "C18",
   "status": "proved",
   "theorems": [
    "C18_trajectory_density",
    "C14_filter_run_exact"
   ],
   "note": "The factorisation is an identity of densities for every trajectory; integration over trajectories is not formalised. That the constant is the log evidence is also given, step by step, by C14_filter_run_exact."
  },
  {
   "property": "C19",
   "status": "proved",
   "theorems": [
    "C19_two_step_factor",
    "C19_two_step_density"
   ],
   "note": ""
  },
  {
   "property": "C20",
   "status": "proved",
   "theorems": [
    "C20_operator_associative",
    "C20_path",
    "C20_law"
   ],
   "note": "The law is stated through the linear map from the standard normal draws: its offset and its Gram matrices are the smoothing means and cross-covariances."
  },
  {
   "property": "C21",
   "status": "partial",
   "theorems": [
    "C21_refuted",
    "C21_known_state_gives_nan",
    "C21_nan_stays",
    "C21_uncertain_scalar_state",
    "C21_singular_prior_partial"
   ],
   "note": "The full statement is false: a scalar state with chol_P0 = 0 gives NaN (division by the singular factor). The partial theorem covers means and covariances for every prior, and the constant whenever the previous covariances are invertible."
  },
  {
   "property": "C39",
   "status": "proved",
   "theorems": [
    "C39_matrix_factor",
    "C39_vector_factor",
    "C39_scalar_factor",
    "C39_scalar_argument",
    "C39_sign_flips",
    "C39_bad_matrix_shape"
   ],
   "note": ""
  },
  {
   "property": "C40",
   "status": "partial",
   "theorems": [
    "C40_scalar_refuted",
    "C40_scalar_nan",
    "C40_matrix_factor_partial",
    "C40_vector_factor_partial",
    "C40_scalar_factor_partial",
    "C40_all_missing_partial"
   ],
   "note": "The full statement is false: a NaN scalar gives NaN instead of 0. The partial theorems cover every vector x, with matrix, vector and scalar factors."
  },
  {
   "property": "C41",
   "status": "proved",
   "theorems": [
    "C41_marginal_block",
    "C41_out_of_range",
    "C41_all_blocks",
    "C41_errors"
   ],
   "note": ""
  },
  {
   "property": "C42",
   "status": "proved",
   "theorems": [
    "C42_inverse_factor",
    "C42_full_matrix"
   ],
   "note": "The decomposition returned by svd for the sorted, zero-padded matrix is assumed correct (svd_at)."
  },
  {
   "property": "C53",
   "status": "partial",
   "theorems": [
    "C53_refuted",
    "C53_not_broadcastable_partial",
    "C53_nan_support_truncates",
    "C53_exact_raises",
    "C53_exact_stretched",
    "C53_exact_iff",
    "C53_exact_scalar_x"
   ],
   "note": "The full statement is false: a vector of length one is stretched in the quotient but not in the log determinant, and with nan_support=True no length is checked. C53_exact_raises says exactly which lengths raise; C53_exact_stretched gives the error (n-1) log|s| of a vector of length one, which vanishes exactly for n = 1 or s = 1, -1 (C53_exact_iff); C53_exact_scalar_x gives the value for one dimension and a longer vector."
  },
  {
   "property": "C54",
   "status": "partial",
   "theorems": [
    "C54_refuted",
    "C54_exact",
    "C54_exact_value",
    "C54_valid_block_partial",
    "C54_product_partial"
   ],
   "note": "The full statement is false: entries of missing columns in valid rows are dropped. C54_exact: the documented product is returned exactly when those entries are zero; C54_exact_value: otherwise it is reduced by the contribution of the missing columns."
  },
  {
   "property": "C43",
   "status": "proved",
   "theorems": [
    "C43_cubature",
    "C43_unscented",
    "C43_gauss_hermite",
    "C43_cubature_is_unscented",
    "C43_one_node_has_no_spread"
   ],
   "note": "hermegauss is an oracle whose contract (moments 0, 1, 2 exact for two or more nodes) is shown satisfiable."
  },
  {
   "property": "C44",
   "status": "partial",
   "theorems": [
    "C44_cubature",
    "C44_gauss_hermite",
    "C44_unscented",
    "C44_unscented_scale",
    "C44_unscented_default",
    "C44_refuted",
    "C44_sqrt_cubature",
    "C44_sqrt_gauss_hermite",
    "C44_sqrt_unscented",
    "C44_sqrt_unscented_scale"
   ],
   "note": "The full statement is false: unscented rules multiply the noise covariance by the sum of the covariance weights, 15/4 for the default parameters (C44_refuted). Proved for cubature, Gauss-Hermite and unscented with beta = alpha^2 - 1; the exact factor is proved for all parameters."
  },
  {
   "property": "C45",
   "status": "proved",
   "theorems": [
    "C45_updates"
   ],
   "note": "Only the final matrix has to be positive definite; the intermediate ones then are. The diagonal of the result is shown positive, so no non-finite value is replaced."
  },
  {
   "property": "C55",
   "status": "partial",
   "theorems": [
    "C55_refuted",
    "C55_exact",
    "C55_zero_pivot",
    "C55_exact_iff"
   ],
   "note": "The full statement is false: with L = diag(0, 1) and the update vector (1, 0) the result is diag(1, 0). Exact condition, for a non-negative multiplier: any number of updates is exact when every diagonal entry of L except possibly the last is non-zero; a zero at position k makes all later columns of the updated factor zero, so one update to a positive definite matrix is exact if and only if only the last entry of L may be zero."
  },
  {
   "property": "C56",
   "status": "partial",
   "theorems": [
    "C56_refuted",
    "C56_negative_weight",
    "C56_negative_weight_refuted",
    "C44_sqrt_cubature",
    "C44_sqrt_gauss_hermite",
    "C44_sqrt_unscented_scale"
   ],
   "note": "The full statement is false: with singular noise diag(0, 1) and with any negative covariance weight the returned factor is zero. Proved for invertible noise and non-negative weights."
  },
  {
   "property": "C46",
   "status": "proved",
   "theorems": [
    "C46_log_density_exact",
    "C46_given_chol_cov"
   ],
   "note": "svd, grad and jacobian are oracles with contracts shown satisfiable."
  },
  {
   "property": "C47",
   "status": "proved",
   "theorems": [
    "C47_moments_interpolate",
    "C47_affine_exact"
   ],
   "note": "jacobian is an oracle with a contract shown satisfiable."
  },
  {
   "property": "C48",
   "status": "proved",
   "theorems": [
    "C48_taylor_exact",
    "C48_pseudo_observation"
   ],
   "note": ""
  },
  {
   "property": "C49",
   "status": "proved",
   "theorems": [
    "C49_moments_sequential",
    "C49_moments_associative",
    "C49_taylor_sequential",
    "C49_taylor_associative"
   ],
   "note": ""
  },
  {
   "property": "C50",
   "status": "partial",
   "theorems": [
    "C50_sequential",
    "C50_parallel_even_partial",
    "C50_parallel_exact",
    "C50_parallel_refuted"
   ],
   "note": "The full statement is false: in parallel mode state 3 of a random walk has mean_prev equal to the mean of state 1 (C50_parallel_refuted). Proved for every sequential run and for even times of parallel runs. C50_parallel_exact says for every time t of a parallel run which state mean_prev belongs to: with t + 1 = 2^v (2 m + 1) it is state t - 2^v if m > 0, and state 2^(v-1) - 1 if t + 1 = 2^v."
  },
  {
   "property": "C57",
   "status": "proved",
   "theorems": [
    "C57_missing_rows",
    "C57_missing_update"
   ],
   "note": ""
  },
  {
   "property": "C58",
   "status": "proved",
   "theorems": [
    "C58_potential_update"
   ],
   "note": ""
  },
  {
   "property": "C59",
   "status": "partial",
   "theorems": [
    "C59_refuted",
    "C59_skipped_step_breaks_smoothing",
    "C59_exact"
   ],
   "note": "The full statement is false: the smoother linearises at the all-NaN points of a skipped predict step and has no skip rule, so the smoother state of that step is NaN (C59_refuted gives a run accepted by the filter). C59_exact says exactly when: of any run accepted by the sequential filter, the smoother state at time u is NaN if and only if the predict step of some transition from time u on was skipped, in both smoothing modes."
  },
  {
   "property": "C60",
   "status": "proved",
   "theorems": [
    "C60_moments_smoother",
    "C60_taylor_smoother"
   ],
   "note": ""
  },
  {
   "property": "C61",
   "status": "partial",
   "theorems": [
    "C61_refuted",
    "C61_parallel_evidence_nan",
    "C61_singular_moments",
    "C61_moments_associative",
    "C61_noiseless_at_odd_times",
    "C61_scalar_exact"
   ],
   "note": "The full statement is false: with one noiseless scalar transition the parallel log normalizing constant is NaN while the sequential one is the exact evidence (C61_refuted). Means and covariances are exact in both modes for every such model (C61_singular_moments). C61_scalar_exact says exactly when for scalar states: the parallel constant at time t is NaN if some even time 0 < e < t was reached without noise, and the exact evidence otherwise. C61_noiseless_at_odd_times: in any dimension noiseless invertible transitions into odd times are harmless."
  },
  {
   "property": "C62",
   "status": "partial",
   "theorems": [
    "C62_refuted",
    "C62_exact",
    "C62_flat_direction_certain",
    "C62_linear_functional",
    "C62_quickstart",
    "C62_quickstart_all",
    "C62_exact_posterior"
   ],
   "note": "The full statement is false: a direction in which the potential is flat comes out of the update with variance zero and its mean moved to the linearisation point (C62_flat_direction_certain, for every twice differentiable potential with positive semidefinite precision), while the exact posterior has positive variance there (C62_exact_posterior, C62_refuted). In the model of docs/quickstart.md the sum of the two skills has variance zero after a home win (C62_quickstart), and after any result (C62_quickstart_all). C62_exact says exactly when, for every quadratic log-concave potential and every prior: the updated moments are those of the posterior if and only if no direction among the coordinates on which the potential depends is flat. The update is exact for full-rank precisions (C48) and when the flat directions are coordinates (C58)."
  },
  {
   "property": "C63",
   "status": "partial",
   "theorems": [
    "C63_refuted",
    "C63_constant_ignored",
    "C63_evidence_offset"
   ],
   "note": "The full statement is false: the constant of the potential is ignored (C63_constant_ignored), so the reported increment is off by log G at its peak minus the log density of the normalised Gaussian there (C63_evidence_offset, an exact formula; C63_refuted gives -x^2/2, off by log(2 pi)/2). The increment is right exactly for normalised potentials."
  },
  {
   "property": "C64",
   "status": "partial",
   "theorems": [
    "C64_refuted",
    "C64_statement_false",
    "C64_unbiased_partial",
    "C64_systematic",
    "C64_builtin"
   ],
   "note": "The full statement is false for splitting functions whose child i does not depend on the number of children (JAX's partitionable threefry), because the initial particles and the first step then share seeds (C64_refuted: expectation 21/16, evidence 5/4). It is proved for every run that consumes no key twice (C64_unbiased_partial; C38 gives when that is so), in particular with the built-in systematic resampler, plain or adaptive, with uniform offsets (C64_systematic), and with the built-in multinomial and killing resamplers, plain or adaptive, with independent uniforms and a uniformly random permutation (C64_builtin). Potentials with value -inf are not covered."
  },
  {
   "property": "C65",
   "status": "partial",
   "theorems": [
    "C65_refuted",
    "C65_statement_false",
    "C65_unbiased_partial",
    "C65_first_step",
    "C65_builtin"
   ],
   "note": "The full statement is false when G depends on the previous state: each new particle's potential is averaged over all previous particles although the particle was moved from its own ancestor. C65_first_step gives the exact expectation after one step for every N; C65_refuted gives, for every N >= 2, expectation 10/9 + 4/(45 N) where the evidence is 6/5. It is proved for potentials of the current state only (C65_unbiased_partial; C65_builtin for the multinomial and killing resamplers)."
  },
  {
   "property": "C66",
   "status": "proved",
   "theorems": [
    "C66_minimum_variance",
    "C66_more_observations",
    "C66_update_below_prediction",
    "C66_smoother_below_filter"
   ],
   "note": "Covariances are cov L = L L^T of the returned factors. The smoother theorem asks in addition for invertible predicted covariances, as C17 does."
  },
  {
   "property": "C67",
   "status": "partial",
   "theorems": [
    "C67_refuted",
    "C67_collapse",
    "C67_conditional_collapse",
    "C67_collapse_default",
    "C67_killing",
    "C67_collapse_frequency",
    "C67_collapse_single_precision",
    "C67_positive_draws_partial"
   ],
   "note": "The full statement is false: -log 0 = inf turns the normalised partial sums into 0 and NaN, so on the CPU one zero draw anywhere makes every index 0 whatever the weights (C67_collapse), elsewhere indices 0 and N-1 (C67_collapse_default). C67_collapse_frequency gives the exact expected number of copies of a zero-weight first particle. Proved for draws in (0,1)."
  },
  {
   "property": "C68",
   "status": "proved",
   "theorems": [
    "C68_indices",
    "C68_binomial",
    "C68_unbiased",
    "C68_expected_copies",
    "C68_slot",
    "C68_two_slots",
    "C68_mean_square",
    "C68_copies_covariance",
    "C68_permutations",
    "C68_permutation_count"
   ],
   "note": "The integrals are shown to exist. Draws equal to 0 have probability zero here; what they do on a generator with finitely many outputs is C67. Independence is proved for pairs of slots; the joint law of three or more slots is not treated."
  },
  {
   "property": "C69",
   "status": "partial",
   "theorems": [
    "C69_unbiased_partial",
    "C69_builtin",
    "C69_systematic",
    "C69_adaptive_nan",
    "C69_marginal_nan",
    "C69_refuted",
    "C69_statement_false"
   ],
   "note": "Proved for every resampler that returns usable weights when all incoming weights are -inf, which systematic, multinomial and killing do. Refuted for adaptive resampling: the ESS of dead weights is NaN, the comparison with the threshold is false, the -inf weights are kept, and -inf - (-inf) makes the log normalising constant NaN from the next step on, for every wrapped resampler and threshold. The marginal filter normalises the previous weights and reports NaN after extinction with every resampler."
  },
  {
   "property": "C70",
   "status": "proved",
   "theorems": [
    "C70_lines",
    "C70_tracing",
    "C70_systematic",
    "C70_builtin"
   ],
   "note": "C70_systematic allows any number M of trajectories; C70_builtin (multinomial, killing) has M = N, which killing requires. The smoother's final resampling key is shown to be one the filter has not consumed. Randomness is modelled as independent seeds per key (as in C64)."
  },
  {
   "property": "C71",
   "status": "proved",
   "theorems": [
    "C71_kalman_filter",
    "C71_discrete_filter",
    "C71_moments_filter",
    "C71_taylor_filter",
    "C71_particle_filter",
    "C71_marginal_particle_filter",
    "C71_kalman_smoother",
    "C71_discrete_smoother",
    "C71_moments_smoother",
    "C71_taylor_smoother",
    "C71_backward_sampler",
    "C71_default_kalman",
    "C71_default_discrete",
    "C71_default_particle",
    "C71_default_moments",
    "C71_default_taylor"
   ],
   "note": "Model inputs of states that are NaN or replaced by an exception are not modelled, so for the linearised filters and the particle methods the claim is about the states that are there."
  },
  {
   "property": "C72",
   "status": "proved",
   "theorems": [
    "C72_ffbs",
    "C72_joint_potential",
    "C72_categorical",
    "C72_systematic"
   ],
   "note": "The smoother's joint potential may not depend on the model inputs, because the code passes it those of the wrong transition (C35); the filter's potential may. Integrability of the functions met on the way is assumed (path_good, backward_good) and shown for the two-state example."
  },
  {
   "property": "C73",
   "status": "partial",
   "theorems": [
    "C73_mcmc_partial",
    "C73_keys",
    "C73_proposals",
    "C73_uniforms",
    "C73_builtin",
    "C73_refuted",
    "C73_statement_false"
   ],
   "note": "The full statement is false for asymmetric joint potentials because the chains start from log_density(x1, x0) instead of log_density(x0, x1) (C37): with two particles, one transition and one step, a path of probability 3/8 gets an estimate with mean 5/16. Proved for all symmetric joint potentials. The joint potential may not depend on the model inputs (C35). Integrability of the functions met on the way is assumed (path_good, kernel_good) and shown for the examples."
  },
  {
   "property": "C74",
   "status": "proved",
   "theorems": [
    "C74_simulation",
    "C74_factor",
    "C74_nondegenerate",
    "C74_second_moment"
   ],
   "note": "Real arithmetic. Uniform draws are in [0,1); a diagonal draw equal to 0 gives a singular factor, which C74_factor states as an equivalence."
  },
  {
   "property": "C75",
   "status": "proved",
   "theorems": [
    "C75_most_probable_trajectory"
   ],
   "note": "Real arithmetic; the factorisation primitives satisfy their contracts (as in C18)."
  },
  {
   "property": "C76",
   "status": "partial",
   "theorems": [
    "C76_refuted",
    "C76_documented_loss",
    "C76_documented_minimiser",
    "C76_repaired_loss_partial"
   ],
   "note": "False as documented: joint_means stacks (m_t, m_{t+1}) while the joint factor and loss_dynamics are ordered (x_{t+1}, x_t). C76_documented_loss gives the exact error (1-rho^2)(m_0^2-m_T^2)/(2 sigma^2), C76_documented_minimiser its effect on the M-step: for given rho the chosen sigma^2 is off by (1-rho^2)(m_0^2-m_T^2)/(T+1). With the means in the other order (C76_repaired_loss_partial) the statement holds."
  },
  {
   "property": "C77",
   "status": "proved",
   "theorems": [
    "C77_evidence_lower_bound",
    "C77_law_exists"
   ],
   "note": "Real arithmetic; linear-Gaussian models (the page uses an approximate smoother, for which there is no such guarantee)."
  },
  {
   "property": "C78",
   "status": "proved",
   "theorems": [
    "C78_backward_stable",
    "C78_both_platforms",
    "C78_grid"
   ],
   "note": "Weights are given floats (exp/logsumexp rounding not modelled); jnp.cumsum on the default platform modelled as jax.lax.associative_scan of addition; no overflow."
  },
  {
   "property": "C79",
   "status": "partial",
   "theorems": [
    "C79_zero_weight_refuted",
    "C79_interior_refuted",
    "C79_zero_weight_partial"
   ],
   "note": "The full statement is false in binary32. C79_interior_refuted also shows that the two platforms return different indices for the same float inputs. Witness weights are the correctly rounded normalised weights; exp/logsumexp errors are not modelled."
  },
  {
   "property": "C80",
   "status": "proved",
   "theorems": [
    "C80_extended_kalman",
    "C80_classic_form",
    "C80_fixed_points",
    "C80_extended_smoother"
   ],
   "note": "Spec in EkfSpec.v with real functions and Frechet derivatives. The callbacks may depend on everything in the state except the particular factor of its covariance. The observation noise of the observed entries must be invertible."
  },
  {
   "property": "C81",
   "status": "proved",
   "theorems": [
    "C81_laplace_filter",
    "C81_fixed_points",
    "C81_laplace_smoother",
    "C81_partial_points_sequential",
    "C81_partial_points_associative"
   ],
   "note": "Spec in LaplaceSpec.v (gradients and expansions of real functions). The negative Hessians must be positive definite with every eigenvalue above the rtol cut-off. Missing entries need ignore_nan_dims=True; skipped predict steps are covered for the sequential filter."
  },
  {
   "property": "C82",
   "status": "proved",
   "theorems": [
    "C82_dynamax_filter"
   ],
   "note": "Model of the wrapper in DynamaxModel.v; jnp.linalg.cholesky is not modelled (the factors are parameters). The wrapper is safe because the singular element is number 1, which the even/odd scan only ever uses as a right operand or after it has been absorbed by the prior (C61_noiseless_at_odd_times)."
  },
  {
   "property": "C83",
   "status": "proved",
   "theorems": [
    "C83_filter",
    "C83_smoother",
    "C83_formats",
    "C83_underflow"
   ],
   "note": "Standard model of floating-point arithmetic (relative error u per operation, no over/underflow), exact comparisons in max. Constants are not optimised. exp and log are assumed to have relative error u like the other operations. Fused multiply-add and wider accumulators are not modelled. Log likelihoods of -inf are excluded (finite L). C83_underflow shows that the no-underflow assumption is needed."
  },
  {
   "property": "C84",
   "status": "proved",
   "theorems": [
    "C84_second_moment",
    "C84_mean_square",
    "C84_averages"
   ],
   "note": "Plain (non-adaptive) multinomial resampling, finite log potentials. Random numbers: a uniformly random permutation, N+1 independent uniforms and the model's own draw for each key (as in C64_builtin). Iterated integrals are assumed to exist in both orders; Fubini is not assumed, the formula averages both orders. The last statement bounds a dominating variable because integrability of the ratio itself is not assumed."
  },
  {
   "property": "C85",
   "status": "proved",
   "theorems": [
    "C85_filter",
    "C85_smoother",
    "C85_optimal"
   ],
   "note": "Unit cost per combination, unlimited workers; the cost of one combination (matrix algebra) and of preparing the elements (one vmapped call, no dependencies) is not counted. associative_scan is modelled from the JAX source, outside the repository."
  },
  {
   "property": "C86",
   "status": "proved",
   "theorems": [
    "C86_prediction",
    "C86_evidence"
   ],
   "note": "Infinite log returns are not modelled (NaN is). The key given to a step is stored for the following step, which is why it does not influence the result of the step itself."
  },
  {
   "property": "C87",
   "status": "partial",
   "theorems": [
    "C87_transition",
    "C87_observation",
    "C87_initial_refuted"
   ],
   "note": "The statement about the initial law is false: the code draws init_mean + init_std * normal with init_std = 1, the text says variance sigma^2 = 0.09. Everything else is proved. The law of the draw is described through mean and standard deviation (affine in a normal draw); the SDE itself is not formalised, only its moment equations."
  },
  {
   "property": "C88",
   "status": "proved",
   "theorems": [
    "C88_probabilities",
    "C88_mirror",
    "C88_order",
    "C88_score",
    "C88_no_threshold",
    "C88_step"
   ],
   "note": "Real arithmetic: with rounding the draw probability 1 - home - away can be 0 or negative for large differences."
  },
  {
   "property": "C89",
   "status": "partial",
   "theorems": [
    "C89_historical",
    "C89_exact",
    "C89_refuted"
   ],
   "note": "The historical bands are right (C89_historical). The bars of the latest ratings are sqrt(diag(cov) ** 2), that is the variances; they are standard deviations exactly when the variance is 0 or 1 (C89_exact), and not for the documented prior (C89_refuted)."
  },
  {
   "property": "C90",
   "status": "proved",
   "theorems": [
    "C90_season",
    "C62_quickstart_all"
   ],
   "note": "Consequence of C62 for the documented model and all three results: the pseudo-inverse of the rank-one precision gives the flat direction (the sum of the two skills) noise variance zero instead of leaving it unobserved. The exact posterior has positive variance in that direction (C62_exact_posterior for quadratic potentials). tria, svd, grad and jacobian by their specifications; real arithmetic, rtol < 1."
  },
  {
   "property": "C91",
   "status": "proved",
   "theorems": [
    "C91_filter",
    "C91_evidence",
    "C91_smoother"
   ],
   "note": "C91_filter and C91_smoother need only that the innovation covariances given a known previous state (and, for smoothing, the predicted covariances) of the two separate models are invertible; C91_evidence assumes the three models are non-degenerate, because of C21. Factors are free: only their covariances have to be block diagonal. tria by its specification; real arithmetic."
  },
  {
   "property": "C92",
   "status": "proved",
   "theorems": [
    "C92_filter",
    "C92_evidence",
    "C92_smoother"
   ],
   "note": "T is constant over time, the units may change. Moments for regular models (singular covariances allowed), evidence for non-degenerate ones (C21). tria by its specification; real arithmetic."
  },
  {
   "property": "C93",
   "status": "proved",
   "theorems": [
    "C93_motion",
    "C93_any_grid",
    "C93_run",
    "C93_gap",
    "C93_axes"
   ],
   "note": "The literals 0.1, 1.0, 0.05, 0.5 of the script are parameters. jnp.linalg.cholesky and tria by their specifications, jax integer indexing as documented (negative wraps, out of range clamps). Simulation of the data and plots are not modelled."
  },
  {
   "property": "C94",
   "status": "proved",
   "theorems": [
    "C94_outage"
   ],
   "note": "Same setting as C93."
  }
 ]
}