{"id": "C01", "title": "Offline filtering is exactly the online recursion", "statement": "cuthbert.filter(filter_obj, inputs, parallel=False, key) returns T+1 states; state 0 is init_prepare(inputs[0], key_0) and state t is filter_combine(state t-1, filter_prepare(inputs[t], key_t)), with key_0..key_T the T+1 children of one split of key. Running the filter online, one observation at a time, gives the same states; the states up to time t do not depend on later inputs.", "quantifier": "all filter objects (any init_prepare/filter_prepare/filter_combine), all T, all model inputs, all keys", "why_tests_cant": "the filter object is an arbitrary user callback triple and T is unbounded; tests fix one model and T<=20", "anchors": ["cuthbert/filtering.py: filter", "cuthbert/inference.py: Filter"]}
{"id": "C02", "title": "Parallel filtering equals sequential filtering for associative combines", "statement": "If filter_combine is associative (exactly, or up to an equivalence preserved by it), cuthbert.filter(..., parallel=True) returns, for every time step, the same (resp. equivalent) state as parallel=False.", "quantifier": "all filter objects with an associative combine on the prepared states, all T>=0, all inputs", "why_tests_cant": "the reduction tree of the associative scan depends on T; tests check a few T only and cannot range over operators", "anchors": ["cuthbert/filtering.py: filter", "jax.lax.associative_scan (external, modelled)"]}
{"id": "C03", "title": "Offline smoothing is exactly the backward recursion, for both accepted input lengths", "statement": "cuthbert.smoother(..., parallel=False) returns T+1 states: the last is convert_filter_to_smoother_state(filter_states[T]) with dummy model inputs, and state t = smoother_combine(smoother_prepare(filter_states[t], inputs for transition t->t+1), state t+1). Passing model_inputs of length T+1 gives the same result as passing model_inputs[1:]; any other length raises ValueError.", "quantifier": "all smoother objects, all filter-state sequences with T>=1, all model-input lengths", "why_tests_cant": "arbitrary callbacks and lengths; off-by-one errors in input alignment are invisible when the tests use time-homogeneous models", "anchors": ["cuthbert/smoothing.py: smoother", "cuthbert/inference.py: Smoother"]}
{"id": "C04", "title": "Parallel smoothing equals sequential smoothing for associative combines", "statement": "If smoother_combine is associative (exactly or up to a preserved equivalence), cuthbert.smoother(..., parallel=True) returns at every time step the same (resp. equivalent) state as parallel=False.", "quantifier": "all smoother objects with an associative combine, all T>=1, all inputs", "why_tests_cant": "argument flipping plus reversal of the scan must cancel for every tree shape; tests sample a few T", "anchors": ["cuthbert/smoothing.py: smoother"]}
{"id": "C05", "title": "The discrete filter returns the exact HMM posterior and evidence", "statement": "For a discrete HMM with row-stochastic transition matrices and finite observation log likelihoods, the filter state at time t has dist[j] = p(x_t=j | y_1:t) and log_normalizing_constant = log p(y_1:t), where both are defined by summing the joint probability over all K^(t+1) state paths.", "quantifier": "all K>=1, all T, all initial distributions, time-varying transition matrices and finite log likelihoods", "why_tests_cant": "the specification is a sum over exponentially many paths for every T and real-valued parameter; tests compare against another recursion on random instances", "anchors": ["cuthbertlib/discrete/filtering.py: condition_on_obs, filtering_operator", "cuthbert/discrete/filter.py: init_prepare, filter_prepare, filter_combine, DiscreteFilterState"]}
{"id": "C06", "title": "Discrete filtering is independent of the scan order", "statement": "The discrete filtering operator is associative on elements built from stochastic matrices and finite log likelihoods, so parallel and sequential discrete filtering return identical distributions and log normalizing constants.", "quantifier": "all K, T, parameters; all reduction trees", "why_tests_cant": "associativity is a universally quantified equation with division and log in it; a test samples points", "anchors": ["cuthbertlib/discrete/filtering.py: filtering_operator", "cuthbert/discrete/filter.py: filter_combine", "cuthbert/filtering.py: filter"]}
{"id": "C07", "title": "The discrete smoother returns the exact posterior marginals", "statement": "When every state has positive one-step predictive probability, the smoother state at time t has dist[j] = p(x_t=j | y_1:T), defined by summing the joint over all state paths; parallel and sequential smoothing agree.", "quantifier": "all K, T>=1, parameters with positive predictive probabilities, all t<=T", "why_tests_cant": "exponential path sum, unbounded T, real parameters", "anchors": ["cuthbertlib/discrete/smoothing.py: get_reverse_kernel, smoothing_operator", "cuthbert/discrete/smoother.py: smoother_prepare, smoother_combine, convert_filter_to_smoother_state, DiscreteSmootherState"]}
{"id": "C08", "title": "The discrete smoother is defined whenever the smoothing distribution is", "statement": "Whenever p(y_1:T) > 0 with finite log likelihoods, the discrete smoother returns finite probabilities equal to p(x_t | y_1:T), also when some states are unreachable at some time (left-to-right or absorbing chains).", "quantifier": "all HMMs with stochastic transition matrices, including ones with zero entries", "why_tests_cant": "tests draw strictly positive random matrices, so the 0/0 branch is never executed", "anchors": ["cuthbertlib/discrete/smoothing.py: get_reverse_kernel, smoothing_operator", "cuthbert/discrete/smoother.py"]}
{"id": "C09", "title": "The discrete filter is defined whenever the filtering distribution is", "statement": "Whenever p(y_1:t) > 0, including observation log likelihoods equal to -inf (impossible emissions), the discrete filter returns finite probabilities equal to p(x_t | y_1:t).", "quantifier": "all HMMs with nonnegative likelihoods, zeros allowed, such that p(y_1:t) > 0", "why_tests_cant": "tests use strictly positive likelihoods; zero likelihood rows produce 0/0 in a row that has zero weight", "anchors": ["cuthbertlib/discrete/filtering.py: condition_on_obs, filtering_operator", "cuthbert/discrete/filter.py"]}
{"id": "C10", "title": "Kalman predict is the exact pushforward", "statement": "kalman.predict(m, chol_P, F, c, chol_Q) returns mean F m + c and a lower-triangular factor L with L L^T = F P F^T + Q, where P = chol_P chol_P^T, Q = chol_Q chol_Q^T, for any (possibly singular, non-triangular) generalized Cholesky factors.", "quantifier": "all state dimensions, all real matrices, every QR implementation meeting the QR contract", "why_tests_cant": "equality of real matrices over all dimensions and all valid (sign-ambiguous) QR outputs", "anchors": ["cuthbertlib/kalman/filtering.py: predict", "cuthbertlib/linalg/tria.py: tria"]}
{"id": "C11", "title": "Kalman update is exactly Bayes' rule, including the evidence", "statement": "For fully observed y, kalman.filter_update returns (m', L') and ell with N(x; m, P) N(y; Hx+d, R) = exp(ell - ell_in) N(x; m', L' L'^T) for every x; in particular m' and L'L'^T are the textbook conditional mean and covariance (also when P is singular) and ell - ell_in = log N(y; Hm+d, HPH^T+R).", "quantifier": "all dimensions, all m, H, d, y, chol_P, and chol_R with R positive definite (or S invertible), all points x", "why_tests_cant": "pointwise identity of densities at every x over all dimensions; tests compare to another implementation numerically", "anchors": ["cuthbertlib/kalman/filtering.py: update", "cuthbertlib/stats/multivariate_normal.py: logpdf"]}
{"id": "C12", "title": "Missing observations (NaN) are marginalised out exactly", "statement": "kalman.filter_update with NaN entries in y returns exactly the mean, covariance and evidence obtained by deleting the NaN coordinates of y and the matching rows of H, d and rows/columns of R; values of H, d at NaN coordinates do not matter.", "quantifier": "all dimensions, all NaN patterns (including none and all), all matrices with the observed-block innovation covariance invertible", "why_tests_cant": "2^ny missingness patterns for every ny and real matrices; the implementation permutes, zeroes, re-triangularises and patches the diagonal", "anchors": ["cuthbertlib/linalg/collect_nans_chol.py: collect_nans_chol", "cuthbertlib/kalman/filtering.py: update"]}
{"id": "C13", "title": "A completely missing observation leaves belief and evidence unchanged", "statement": "If every entry of y is NaN, filter_update returns the prior mean, a factor of the prior covariance, and the log normalizing constant it was given (contribution exactly 0).", "quantifier": "all dimensions and matrices", "why_tests_cant": "exact real equality for all inputs", "anchors": ["cuthbertlib/kalman/filtering.py: update", "cuthbertlib/linalg/collect_nans_chol.py: collect_nans_chol"]}
{"id": "C14", "title": "One scan step of the Kalman filter equals predict followed by update", "statement": "Combining a filtering state (A=0, eta=0, Z=0, b=m, U=chol_P, ell) with the prepared element for (F,c,chol_Q,H,d,chol_R,y) gives the same mean, covariance and log normalizing constant as kalman.predict then kalman.filter_update.", "quantifier": "all dimensions (nx<=ny and nx>ny), all matrices with invertible innovation covariances and invertible lower-triangular U", "why_tests_cant": "an identity between two different matrix algorithms (information form with determinant lemma vs covariance form) over all dimensions", "anchors": ["cuthbertlib/kalman/filtering.py: associative_params_single, filtering_operator, predict, update", "cuthbert/gaussian/kalman.py: filter_prepare, filter_combine"]}
{"id": "C15", "title": "The Kalman filtering operator is associative, so parallel = sequential", "statement": "On scan elements produced by the library the operator is associative in A, b, U U^T, eta, Z Z^T and ell, and cuthbert.filter with the Kalman filter returns the same means, covariances and log normalizing constants in parallel and sequential mode.", "quantifier": "all dimensions, all T, all reduction trees, all elements with positive-definite U U^T", "why_tests_cant": "universally quantified matrix identity incl. determinant and inverse; floating tests sample points and few tree shapes", "anchors": ["cuthbertlib/kalman/filtering.py: filtering_operator", "cuthbert/gaussian/kalman.py: build_filter", "cuthbert/filtering.py: filter"]}
{"id": "C16", "title": "The RTS smoothing step is the exact conditional", "statement": "kalman.smoother_update and the scan-element pair (associative_params_single, smoothing_operator) return the same mean, covariance and gain: mean m + G(ms - (Fm+c)), covariance P + G(Ps - FPF^T - Q)G^T with G = P F^T (FPF^T+Q)^-1; moreover N(x'; Fx+c, Q) N(x; m, P) = N(x'; Fm+c, FPF^T+Q) N(x; E x' + g, D D^T) for all x, x'.", "quantifier": "all dimensions, all matrices with FPF^T+Q invertible (density form: P, Q invertible), all x, x'", "why_tests_cant": "matrix/density identities over all dimensions and points", "anchors": ["cuthbertlib/kalman/smoothing.py: update, associative_params_single, smoothing_operator"]}
{"id": "C17", "title": "The Kalman smoothing operator is associative, so parallel = sequential", "statement": "smoothing_operator is associative in g, E and D D^T; cuthbert.smoother with the Kalman smoother returns the same means, covariances, gains and chol_cov_given_next covariances in parallel and sequential mode; every returned element has E = 0 (the smoothing law does not depend on a state after the last one).", "quantifier": "all dimensions, T>=1, elements, reduction trees", "why_tests_cant": "universally quantified identity; argument order is flipped twice on the way", "anchors": ["cuthbertlib/kalman/smoothing.py: smoothing_operator", "cuthbert/gaussian/kalman.py: smoother_combine", "cuthbert/smoothing.py: smoother"]}
{"id": "C18", "title": "Filter plus smoother factorise the joint density over whole trajectories", "statement": "For a linear-Gaussian model and T steps: p(x_0:T, y_1:T) = exp(log_normalizing_constant_T) N(x_T; mean_T, cov_T) prod_{t<T} N(x_t; G_t x_{t+1} + g_t, V_t V_t^T), where every quantity on the right is an output of cuthbert.filter / the smoother preparation; hence log_normalizing_constant_T = log p(y_1:T) and the backward kernels are p(x_t | x_{t+1}, y_1:t).", "quantifier": "all T, all dimensions, all time-varying parameters with positive definite covariances, all trajectories x_0:T", "why_tests_cant": "induction over T and quantification over all trajectories", "anchors": ["cuthbert/gaussian/kalman.py", "cuthbert/filtering.py: filter", "cuthbert/smoothing.py: smoother"]}
{"id": "C19", "title": "Stored gain and chol_cov_given_next give the two-step smoothing covariance", "statement": "With store_gain and store_chol_cov_given_next, the block factor [[L_{t+1},0],[G_t L_{t+1}, V_t]] documented in the README multiplies out to the joint smoothing covariance of (x_{t+1}, x_t): its lower-right block equals the smoothing covariance at t and the off-diagonal block is G_t times the covariance at t+1.", "quantifier": "all dimensions, T>=1, t<T", "why_tests_cant": "matrix identity over all inputs", "anchors": ["cuthbert/gaussian/kalman.py: smoother_prepare, smoother_combine, build_smoother", "cuthbert/gaussian/README.md"]}
{"id": "C20", "title": "Parallel posterior sampling draws the backward recursion", "statement": "sampling_operator is associative, and scanning the sampler elements in reverse yields the path x_T = m_T + L_T eps_T, x_t = g_t + E_t x_{t+1} + D_t eps_t; with eps standard normal this has the smoothing means and (cross-)covariances.", "quantifier": "all dimensions, T, eps arrays, reduction trees", "why_tests_cant": "tests check Monte-Carlo moments with loose tolerance; transposition/order errors in off-diagonal terms can hide", "anchors": ["cuthbertlib/kalman/sampling.py: sqrt_associative_params, sampling_operator"]}
{"id": "C21", "title": "The log normalizing constant is defined for every valid prior covariance", "statement": "For every lower-triangular chol_P0, including singular ones (e.g. a known initial state, chol_P0=0), with R positive definite, the Kalman filter's log_normalizing_constant is finite and equals log p(y_1:t).", "quantifier": "all dimensions, all chol_P0 including singular", "why_tests_cant": "tests draw full-rank random factors; the operator solves with U U^T", "anchors": ["cuthbertlib/kalman/filtering.py: filtering_operator", "cuthbert/gaussian/kalman.py: init_prepare, filter_combine"]}
{"id": "C22", "title": "inverse_cdf implements the generalised inverse CDF on both platforms", "statement": "For sorted uniforms and normalised nonnegative weights the CPU (numba) branch and the default (cumsum+searchsorted+clip) branch return the same indices; index i satisfies cumsum[i-1] < u (or i=0) and u <= cumsum[i] (or i=N-1); the output is sorted and within [0,N-1].", "quantifier": "all N>=1, M, all sorted uniforms, all nonnegative weights", "why_tests_cant": "loop-carried state over unbounded inputs; the two branches never run on the same machine in CI", "anchors": ["cuthbertlib/resampling/utils.py: inverse_cdf, _inverse_cdf_numba, _inverse_cdf_cpu, _inverse_cdf_default"]}
{"id": "C23", "title": "Zero-weight particles are never resampled", "statement": "A particle with log weight -inf (weight 0) is never selected by multinomial, systematic or killing resampling as long as some weight is positive.", "quantifier": "all weights, all values the uniform generator can return in [0,1)", "why_tests_cant": "the boundary draw u=0 has probability ~2^-23 per draw and is not hit by seeds in tests", "anchors": ["cuthbertlib/resampling/utils.py: inverse_cdf", "cuthbertlib/resampling/systematic.py: resampling", "cuthbertlib/resampling/multinomial.py: resampling", "cuthbertlib/resampling/killing.py: resampling"]}
{"id": "C24", "title": "Systematic resampling gives every particle floor or ceil of its expected copies", "statement": "In systematic resampling of n from N particles with normalised weights w, the number of copies of particle i differs from n*w_i by less than 1, for every uniform draw.", "quantifier": "all n, N>=1, all weights, all u in (0,1)", "why_tests_cant": "pointwise bound for every draw and weight vector", "anchors": ["cuthbertlib/resampling/systematic.py: resampling", "cuthbertlib/resampling/utils.py: inverse_cdf"]}
{"id": "C25", "title": "Systematic resampling is unbiased", "statement": "Averaged over the uniform draw, the number of copies of particle i equals n*w_i exactly.", "quantifier": "all n, N, weights; integral over u in [0,1]", "why_tests_cant": "an integral; tests only do Monte Carlo", "anchors": ["cuthbertlib/resampling/systematic.py: resampling"]}
{"id": "C26", "title": "Killing resampling keeps survivors in place and is unbiased", "statement": "Particle i keeps its own index whenever its uniform is <= w_i/max(w) (in particular every particle of maximal weight survives, for every key); otherwise it takes a multinomial draw; the expected number of copies of particle i is N*w_i. n != N raises AssertionError.", "quantifier": "all N, logits, uniforms; expectation over uniforms with an unbiased multinomial", "why_tests_cant": "expectation identity and universally quantified survival", "anchors": ["cuthbertlib/resampling/killing.py: resampling"]}
{"id": "C27", "title": "Conditional resampling keeps the pivot", "statement": "For multinomial, systematic and killing conditional resampling, the returned indices satisfy idx[pivot_in] = pivot_out (so positions[pivot_in] is the input particle pivot_out) for every key, weights and every pivot pair; other entries are valid indices.", "quantifier": "all n, N, logits, random draws, 0<=pivot_in<n, 0<=pivot_out<N", "why_tests_cant": "the systematic variant relies on rolls by data-dependent offsets; edge cases (weight 0, n*w integer) are not covered by seeds", "anchors": ["cuthbertlib/resampling/multinomial.py: conditional_resampling", "cuthbertlib/resampling/systematic.py: conditional_resampling, conditional_resampling_0_to_0", "cuthbertlib/resampling/killing.py: conditional_resampling"]}
{"id": "C28", "title": "Conditional systematic resampling draws the offset from the exact conditional law", "statement": "The offset used by conditional systematic resampling has, as U,V range over [0,1]^2, cumulative distribution a -> integral_0^a c(u)/(n*w) du where c(u) is the number of copies that offset u gives to the pivot particle, i.e. the law of the systematic offset given that a uniformly chosen slot has the pivot as parent.", "quantifier": "all n, all pivot weights w in (0,1], all a in [0,1]", "why_tests_cant": "a distributional identity", "anchors": ["cuthbertlib/resampling/systematic.py: conditional_resampling_0_to_0"]}
{"id": "C29", "title": "Conditional killing resampling draws the slot from the exact conditional law", "statement": "The slot weights computed by conditional killing resampling are a probability vector and equal P(idx[s]=pivot_out)/(N w_pivot_out) for the unconditional killing scheme, for every slot s.", "quantifier": "all N, logits, pivot_out", "why_tests_cant": "distributional identity over all weights", "anchors": ["cuthbertlib/resampling/killing.py: conditional_resampling, _log1mexp"]}
{"id": "C30", "title": "Effective sample size lies in [1,N] and ignores the weight scale", "statement": "ess(log_weights) is between 1 and N, equals N exactly when all weights are equal, equals 1 exactly when one weight carries all the mass, and is unchanged by adding a constant to all log weights.", "quantifier": "all N>=1, all log weights with -inf allowed but not all -inf", "why_tests_cant": "inequalities with equality cases over all real vectors", "anchors": ["cuthbertlib/smc/ess.py: log_ess, ess"]}
{"id": "C31", "title": "Adaptive resampling resamples exactly when ESS < threshold*N and is otherwise the identity", "statement": "A resampler wrapped by ess_decorator raises AssertionError when n != N; otherwise it returns exactly the wrapped resampler's output if ESS(logits) < threshold*N and the identity indices, unchanged logits and unchanged positions otherwise.", "quantifier": "all resamplers, thresholds>0, logits", "why_tests_cant": "arbitrary wrapped callback and real logits", "anchors": ["cuthbertlib/resampling/adaptive.py: ess_decorator"]}
{"id": "C32", "title": "Particle filter evidence telescopes and is invariant to weight scale", "statement": "After T steps the particle filter's log_normalizing_constant is the sum over t of log of the (normalised-weight) average of exp(log_potential) over the resampled particles; it does not change when a constant is added to the log weights of any intermediate state; and when log_potential does not depend on the particles (value g_t at step t) it equals sum_t g_t for every key and for every built-in resampler, adaptive or not.", "quantifier": "all T, N>=1, keys, propagate/potential functions, resamplers that return either uniform or unchanged weights", "why_tests_cant": "arbitrary callbacks and T; Monte-Carlo tests only compare to the truth within noise", "anchors": ["cuthbert/smc/particle_filter.py: init_prepare, filter_prepare, filter_combine"]}
{"id": "C33", "title": "Marginal particle filter evidence is correct for particle-independent potentials", "statement": "When log_potential does not depend on the particles (value g_t at step t) the marginal particle filter's log_normalizing_constant after T steps equals sum_t g_t, for every key and every built-in resampler, including adaptive ones.", "quantifier": "all T, N, resamplers", "why_tests_cant": "tests use one resampler setting and noise tolerance", "anchors": ["cuthbert/smc/marginal_particle_filter.py: filter_combine", "cuthbertlib/resampling/adaptive.py: ess_decorator"]}
{"id": "C34", "title": "Genealogy tracing returns true ancestral lines", "statement": "With the tracing backward sampler, smoothed trajectory k is an ancestral line of the particle filter: there are indices b_0..b_T with smoothed particle k at time t equal to filter particle b_t at time t and b_t = ancestor_indices_{t+1}[b_{t+1}].", "quantifier": "all T>=1, filter runs, resamplers returning in-range indices, all k", "why_tests_cant": "an invariant along an unbounded backward pass", "anchors": ["cuthbert/smc/backward_sampler.py: convert_filter_to_smoother_state, smoother_prepare, smoother_combine", "cuthbertlib/smc/smoothing/tracing.py: simulate"]}
{"id": "C35", "title": "Backward sampling evaluates the potential of the right transition", "statement": "In smoother_combine for time t the log potential between filter particles at t and smoothed particles at t+1 is evaluated with the model inputs of the transition t -> t+1 (the inputs given to smoother_prepare for time t).", "quantifier": "all smoother runs with T>=1, all model inputs, all t<T", "why_tests_cant": "tests use potentials that ignore x_{t-1}, so a wrong input shifts all backward weights equally", "anchors": ["cuthbert/smc/backward_sampler.py: smoother_combine, smoother_prepare, convert_filter_to_smoother_state", "cuthbert/smoothing.py: smoother"]}
{"id": "C36", "title": "Exact backward sampling uses the normalised FFBS weights", "statement": "The log weights used to draw the ancestor of x1 are normalised (sum of exponentials is 1) and proportional to W_i * exp(log_density(x0_i, x1)); they are unchanged by rescaling W or by adding a constant to the log density; the returned particle is x0_all[index].", "quantifier": "all N, weights, densities, x1", "why_tests_cant": "identity over all reals", "anchors": ["cuthbertlib/smc/smoothing/exact_sampling.py: log_weights, simulate_single, simulate"]}
{"id": "C37", "title": "MCMC backward sampling leaves the exact backward distribution invariant", "statement": "Each accept/reject step of the MCMC backward sampler, started from an index distributed according to the exact backward weights W_i exp(log_density(x0_i,x1)), leaves that distribution invariant; in particular the first step compares log_density(x0_prop, x1) with log_density(x0_current, x1).", "quantifier": "all N, weights, densities (not nec. symmetric), x1, all n_steps", "why_tests_cant": "an invariance statement about a Markov kernel; argument-order mistakes vanish for symmetric densities and are washed out by many steps", "anchors": ["cuthbertlib/smc/smoothing/mcmc.py: simulate"]}
{"id": "C38", "title": "No random key is consumed twice", "statement": "In a particle filter run, the keys used to draw the initial particles, to resample and to propagate particles at all steps are pairwise distinct.", "quantifier": "all N, T, root keys, with key splitting injective (distinct children)", "why_tests_cant": "reused randomness does not fail any unit test; it only biases estimates", "anchors": ["cuthbert/smc/particle_filter.py: init_prepare, filter_combine", "cuthbert/smc/marginal_particle_filter.py", "cuthbert/filtering.py: filter"]}
{"id": "C39", "title": "multivariate_normal.logpdf is the Gaussian log density", "statement": "logpdf(x, mean, chol_cov) equals -1/2 (x-mean)^T S^-1 (x-mean) - n/2 log(2 pi) - 1/2 log det S with S = chol_cov chol_cov^T for full, diagonal and scalar factors with nonzero (scalar: positive) diagonal; diagonal sign flips of chol_cov do not matter; with nan_support=False a two-dimensional factor whose shape is not (n,n) raises ValueError.", "quantifier": "all n, x, mean, factors", "why_tests_cant": "identity over all dimensions", "anchors": ["cuthbertlib/stats/multivariate_normal.py: logpdf, pdf"]}
{"id": "C40", "title": "logpdf with NaN entries is the marginal log density of the observed entries", "statement": "With nan_support=True, logpdf(x, mean, chol_cov) equals the log density of the marginal over the non-NaN entries of x, for vector x with full, diagonal or scalar chol_cov, and also for scalar x.", "quantifier": "all n, NaN patterns, x, mean, factors; scalar and vector x", "why_tests_cant": "all NaN patterns and dimensions; tests have one NaN in a 3-vector", "anchors": ["cuthbertlib/stats/multivariate_normal.py: logpdf", "cuthbertlib/linalg/collect_nans_chol.py: collect_nans_chol"]}
{"id": "C41", "title": "marginal_sqrt_cov returns a factor of the requested covariance block", "statement": "marginal_sqrt_cov(L, start, size) returns lower-triangular B with B B^T = (L L^T)[start:start+size, start:start+size] when the block is in range; block_marginal_sqrt_cov returns all contiguous blocks; bad shapes and sizes raise. When start is out of range the last in-range block is returned.", "quantifier": "all n, L, start, size", "why_tests_cant": "all index/size combinations and real matrices", "anchors": ["cuthbertlib/linalg/marginal_sqrt_cov.py: marginal_sqrt_cov, block_marginal_sqrt_cov"]}
{"id": "C42", "title": "symmetric_inv_sqrt inverts positive definite matrices and ignores missing dimensions", "statement": "For positive definite A with all eigenvalues above the cutoff, symmetric_inv_sqrt(A) is lower triangular with L L^T = A^-1. With ignore_nan_dims=True, dimensions whose diagonal is NaN give NaN on the diagonal and zeros off it, the result stays lower triangular and its valid block L_v satisfies L_v L_v^T = (A restricted to valid dims)^-1.", "quantifier": "all n, A, NaN patterns, SVD/QR implementations meeting their contracts", "why_tests_cant": "all dimensions and missingness patterns", "anchors": ["cuthbertlib/linalg/symmetric_inv_sqrt.py: symmetric_inv_sqrt, _symmetric_inv_sqrt, chol_cov_with_nans_to_cov"]}
{"id": "C43", "title": "Sigma points reproduce mean and covariance", "statement": "For cubature, unscented (any alpha, beta, kappa with n+lambda>0) and Gauss-Hermite rules (order at least 2), the weighted mean of get_sigma_points(m, chol) is m and the weighted covariance is chol chol^T; mean weights sum to 1; cubature coincides with unscented(alpha=1,beta=0,kappa=0) on every integrand.", "quantifier": "all n>=1, m, chol, parameters", "why_tests_cant": "all dimensions and real parameters", "anchors": ["cuthbertlib/quadrature/cubature.py: weights, get_sigma_points", "cuthbertlib/quadrature/unscented.py: weights, get_sigma_points", "cuthbertlib/quadrature/gauss_hermite.py: weights", "cuthbertlib/quadrature/common.py: SigmaPoints"]}
{"id": "C44", "title": "Sigma-point linearisation is exact for affine models with additive noise", "statement": "quadrature.functional(x -> Fx+c, S, m, cov, q) returns (F, c, S) for q = cubature, Gauss-Hermite or unscented weights, including the default unscented parameters, in covariance mode (and a factor of S in sqrt mode).", "quantifier": "all dimensions, F, c, S, m, cov>0, all quadrature parameters", "why_tests_cant": "tests only run unscented with alpha=1, beta=0, where mean and covariance weights coincide", "anchors": ["cuthbertlib/quadrature/linearize.py: conditional_moments, functional", "cuthbertlib/quadrature/unscented.py: weights"]}
{"id": "C45", "title": "Rank-one Cholesky updates and downdates are exact", "statement": "cholesky_update_many(L, V, alpha) returns a lower triangular matrix L' with L' L'^T = L L^T + alpha sum_i v_i v_i^T whenever all intermediate matrices are positive definite, for L lower triangular with nonzero diagonal of either sign.", "quantifier": "all n, number of vectors, real alpha", "why_tests_cant": "loop invariant over all dimensions", "anchors": ["cuthbertlib/quadrature/utils.py: cholesky_update_many, _cholesky_update"]}
{"id": "C46", "title": "linearize_log_density is exact for linear-Gaussian densities", "statement": "If log_density(x,y) = -1/2 (y-Hx-d)^T R^-1 (y-Hx-d) + const with R positive definite and its smallest precision eigenvalue above rtol times the largest, linearize_log_density returns H, d and L with L L^T = R at every linearisation point (x,y); linearize_log_density_given_chol_cov returns H and d for every factor of R handed to it.", "quantifier": "all dimensions, H, d, R, points", "why_tests_cant": "all points and dimensions", "anchors": ["cuthbertlib/linearize/log_density.py: linearize_log_density, linearize_log_density_given_chol_cov"]}
{"id": "C47", "title": "linearize_moments is exact for affine means and interpolates otherwise", "statement": "linearize_moments returns (F,b,L) with F x + b = mean(x) at the linearisation point for every differentiable mean, and (F,b) equal to the true affine map when mean is affine, at every point; L is chol_cov at the point.", "quantifier": "all dimensions, mean functions, points", "why_tests_cant": "all functions and points", "anchors": ["cuthbertlib/linearize/moments.py: linearize_moments"]}
{"id": "C48", "title": "linearize_taylor is exact for Gaussian potentials and its pseudo-observation reproduces them", "statement": "If log_potential(x) = -1/2 (x-m)^T R^-1 (x-m) + const with R positive definite and its smallest precision eigenvalue above rtol times the largest, linearize_taylor returns m and L with L L^T = R at every point, and the pseudo-observation used by the Taylor filters (H=-I, d=m, y=0) yields the Kalman update with the Gaussian potential N(x; m, R).", "quantifier": "all dimensions, m, R, points", "why_tests_cant": "all points and dimensions", "anchors": ["cuthbertlib/linearize/taylor.py: linearize_taylor", "cuthbert/gaussian/taylor/non_associative_filter.py: process_observation"]}
{"id": "C49", "title": "Linearised filters reduce to the exact Kalman filter on linear-Gaussian models", "statement": "On affine moments the moments filter and on linear-Gaussian log densities the Taylor filter (full or partly missing observations, full or partial Gaussian potentials, mixed freely over time) return the means, covariances and log normalizing constants of the exact Kalman filter at every time step: the non-associative filters sequentially, also with skipped predict steps, and the associative filters in sequential and parallel mode for nondegenerate noise.", "quantifier": "all dimensions, T, parameters, linearisation points", "why_tests_cant": "unbounded T and all linearisation points", "anchors": ["cuthbert/gaussian/moments/associative_filter.py", "cuthbert/gaussian/moments/non_associative_filter.py", "cuthbert/gaussian/taylor/associative_filter.py", "cuthbert/gaussian/taylor/non_associative_filter.py"]}
{"id": "C50", "title": "mean_prev is the previous filtering mean in every mode", "statement": "In the states returned by cuthbert.filter with an associative linearised filter, state t (t>=1) has mean_prev equal to the mean of state t-1, in sequential and in parallel mode.", "quantifier": "all T, all models", "why_tests_cant": "the parallel tree first deviates at t=3; tests compare means and covariances, not mean_prev", "anchors": ["cuthbert/gaussian/moments/associative_filter.py: filter_combine", "cuthbert/gaussian/taylor/associative_filter.py: filter_combine", "cuthbert/gaussian/types.py: LinearizedKalmanFilterState"]}
{"id": "C51", "title": "A uniform pushed through inverse_cdf has exactly the law of the weights", "statement": "For u uniform on [0,1], inverse_cdf([u], logits) returns [i] with probability exactly the normalised weight of particle i.", "quantifier": "all N>=1, all log weights with -inf allowed but not all -inf, both platforms", "why_tests_cant": "exact law over a continuum of draws; tests only compare Monte-Carlo frequencies", "anchors": ["cuthbertlib/resampling/utils.py: inverse_cdf"]}
{"id": "C52", "title": "Marginal particle filter weights are mixtures over all previous particles", "statement": "At every step of the marginal particle filter the new particle j is propagated from the resampled ancestor with its own key, and its log weight is the log of sum_i W_i exp(log_potential(x_i, x'_j)) where the x_i are ALL previous particles (not the resampled ancestors) and W_i their normalised weights; the evidence increment is logsumexp of these minus logsumexp of the resampler's weights.", "quantifier": "all T, N, keys, resamplers meeting the contract, finite potentials", "why_tests_cant": "tests check Monte-Carlo estimates only, which stay consistent when ancestors are used in place of the previous particles", "anchors": ["cuthbert/smc/marginal_particle_filter.py: filter_combine"]}
{"id": "C53", "title": "logpdf rejects standard deviation vectors of the wrong length", "statement": "logpdf(x, mean, chol_cov) with a one-dimensional chol_cov whose length differs from the length of x raises instead of returning a number.", "quantifier": "all lengths n of x and k of chol_cov, k != n, all values", "why_tests_cant": "quantifies over pairs of lengths; only two-dimensional factors of the wrong shape are checked by the code, and no test passes a vector of the wrong length", "anchors": ["cuthbertlib/stats/multivariate_normal.py: logpdf", "cuthbertlib/linalg/collect_nans_chol.py: collect_nans_chol"]}
{"id": "C54", "title": "chol_cov_with_nans_to_cov is the product of the factor with its transpose at the valid dimensions", "statement": "For a lower-triangular chol_cov whose NaN diagonal entries mark missing dimensions and whose other entries are finite, the result is NaN on the diagonal and 0 off the diagonal at missing dimensions, and equals (chol_cov chol_cov^T)[i,j] at every pair of valid dimensions.", "quantifier": "all dimensions, NaN patterns and factors", "why_tests_cant": "holds for every pattern only when missing columns are zero in valid rows; the test compares with the factor restricted to valid rows and columns, not with the documented product", "anchors": ["cuthbertlib/linalg/symmetric_inv_sqrt.py: chol_cov_with_nans_to_cov"]}
{"id": "C55", "title": "Cholesky updates are exact whenever the updated matrix is positive definite", "statement": "cholesky_update_many(L, V, 1) returns a factor of L L^T + V^T V whenever that matrix is positive definite, also when the starting factor L is singular (a zero on its diagonal).", "quantifier": "all n, lower triangular L, V", "why_tests_cant": "the tests start from random positive definite matrices; a zero diagonal entry yields non-finite values that are silently replaced by zeros", "anchors": ["cuthbertlib/quadrature/utils.py: cholesky_update_many, _cholesky_update"]}
{"id": "C56", "title": "Square-root linearisation agrees with covariance linearisation for every noise and rule", "statement": "For an affine function, functional(..., mode='sqrt') returns a factor of the noise covariance that covariance mode returns, for every noise factor S (also singular) and every rule whose weights are admissible (also with a negative covariance weight).", "quantifier": "all dimensions, S, quadrature parameters", "why_tests_cant": "tests use invertible noise and non-negative weights", "anchors": ["cuthbertlib/quadrature/linearize.py: conditional_moments, functional", "cuthbertlib/quadrature/utils.py: _cholesky_update"]}
{"id": "C57", "title": "Missing observation entries are marginalised out exactly by the Taylor linearisation", "statement": "With ignore_nan_dims=True and an observation vector with missing (NaN) entries, linearize_log_density on a linear-Gaussian log density of the observed entries returns the exact rows of H, d and the exact observed block of the covariance, NaN on the diagonal of missing dimensions, and the following Kalman update is the exact Bayes update with the observed entries only, at every linearisation point.", "quantifier": "all dimensions, missing patterns, H, d, R, points", "why_tests_cant": "every one of the 2^ny patterns and every linearisation point; tests use one pattern", "anchors": ["cuthbertlib/linearize/log_density.py: linearize_log_density", "cuthbertlib/linalg/symmetric_inv_sqrt.py: symmetric_inv_sqrt", "cuthbert/gaussian/taylor/non_associative_filter.py: process_observation, filter_combine"]}
{"id": "C58", "title": "A Gaussian potential that touches only part of the state updates exactly that part", "statement": "With ignore_nan_dims=True and a Gaussian log potential that depends on a subset of the coordinates (the others NaN in the linearisation point), the Taylor filter's pseudo-observation update is the exact Bayes update with the potential on that subset.", "quantifier": "all dimensions, subsets, means, covariances, priors", "why_tests_cant": "every subset and prior; tests use a fixed one", "anchors": ["cuthbertlib/linearize/taylor.py: linearize_taylor", "cuthbert/gaussian/taylor/non_associative_filter.py: process_observation"]}
{"id": "C59", "title": "Every Taylor filter run that is accepted can be smoothed", "statement": "If a Taylor (linearised Kalman) filter run, with some predict steps skipped by all-NaN linearization points, yields filter states without NaN, then smoothing those states yields smoother states without NaN.", "quantifier": "all runs, skipped-step patterns, models", "why_tests_cant": "every pattern of skipped steps; the smoother sees only what the filter stored, and tests of the smoother do not skip steps", "anchors": ["cuthbert/gaussian/taylor/smoother.py: smoother_prepare", "cuthbert/gaussian/taylor/non_associative_filter.py: filter_combine", "cuthbert/gaussian/taylor/associative_filter.py: filter_prepare"]}
{"id": "C60", "title": "Linearised smoothers are the exact Rauch-Tung-Striebel recursion on linear-Gaussian models", "statement": "On conditionally linear-Gaussian dynamics the moments and Taylor smoothers, run sequentially or in parallel over a list of filter states, return at every time the mean and covariance of the Rauch-Tung-Striebel backward recursion, whatever the linearisation points stored in the filter states, and each smoother state stores the gain and the conditional covariance of its step.", "quantifier": "all state dimensions, run lengths, filter moments, dynamics, linearisation points, modes", "why_tests_cant": "quantifies over run lengths and linearisation points; a wrong bracketing or a gain from the wrong time step shows only in longer parallel runs", "anchors": ["cuthbert/gaussian/moments/smoother.py: smoother_prepare", "cuthbert/gaussian/taylor/smoother.py: smoother_prepare"]}
{"id": "C61", "title": "Parallel Kalman filtering is sequential Kalman filtering also with noiseless transitions", "statement": "For every model whose innovation covariances are invertible, also with singular process noise covariances, the Kalman filter run in parallel mode returns the same means, covariances and log normalizing constants as in sequential mode.", "quantifier": "all dimensions, run lengths, models with invertible innovation covariances", "why_tests_cant": "tests draw full-rank process noise; the parallel scan combines elements without the initial state, whose conditional covariance is singular when the transition is noiseless", "anchors": ["cuthbertlib/kalman/filtering.py: filtering_operator, associative_params_single", "cuthbert/filtering.py: filter"]}
{"id": "C62", "title": "A log-concave quadratic potential of any rank updates the state exactly", "statement": "In the Taylor filter with ignore_nan_dims=True, the update of a Gaussian prior by a concave quadratic log potential returns the exact Gaussian posterior, also when the potential is flat in some direction (it depends on a linear combination of coordinates, as the skill difference in docs/quickstart.md).", "quantifier": "all dimensions, priors, potentials of any rank, linearisation points", "why_tests_cant": "tests of potentials use full-rank precisions; a rank-deficient precision needs an argument about the pseudo-inverse for every null direction and prior", "anchors": ["cuthbertlib/linearize/taylor.py: linearize_taylor", "cuthbertlib/linalg/symmetric_inv_sqrt.py: symmetric_inv_sqrt", "cuthbert/gaussian/taylor/non_associative_filter.py: process_observation, filter_combine", "docs/quickstart.md: get_observation_func"]}
{"id": "C63", "title": "The reported evidence of a potential is its normalising constant", "statement": "When a Taylor filter observes through a log potential log G, the increment of log_normalizing_constant is log of the integral of G against the predicted density, at least for Gaussian potentials G up to a constant factor.", "quantifier": "all dimensions, Gaussian potentials with any constant, priors, linearisation points", "why_tests_cant": "tests pass normalised Gaussian densities as potentials, for which the dropped constant happens to be right", "anchors": ["cuthbertlib/linearize/taylor.py: linearize_taylor", "cuthbert/gaussian/taylor/non_associative_filter.py: process_observation"]}
{"id": "C64", "title": "The particle filter's estimates are unbiased", "statement": "Whatever the splitting function (with distinct children of distinct keys) and for every unbiased resampler, when the seeds drawn at different keys are independent, the expectation of exp(log_normalizing_constant) times the weighted average of phi over the final particles of the particle filter is the Feynman-Kac integral of phi(x_T) prod_t G_t(x_{t-1}, x_t); with phi = 1, the evidence.", "quantifier": "All models with finite potentials and integrable test functions, all numbers of particles and steps, all resamplers that are total, keep particles and are unbiased (systematic and adaptive ones included), all keys.", "why_tests_cant": "unbiasedness is a statement about an integral over all seeds; tests compare one run with a tolerance, and key reuse between initialisation and the first step shifts the expectation without any visible error", "anchors": ["cuthbert/smc/particle_filter.py: init_prepare, filter_combine", "cuthbert/filtering.py: filter", "cuthbertlib/resampling/systematic.py: resampling"]}
{"id": "C65", "title": "The marginal particle filter's estimates are unbiased", "statement": "For Feynman-Kac models with potentials G_t(x_{t-1}, x_t), splitting functions that never reuse keys, and unbiased resamplers that reset the weights, the expectation of exp(log_normalizing_constant) times the weighted average of phi over the final particles of the marginal particle filter is the Feynman-Kac integral of phi.", "quantifier": "All models with finite potentials and integrable test functions, all numbers of particles and steps, all such resamplers, all keys.", "why_tests_cant": "the bias is a statement about an integral over all seeds and does not vanish with the number of particles; tests use potentials of the current state only, where it is zero", "anchors": ["cuthbert/smc/marginal_particle_filter.py: filter_combine", "cuthbert/smc/types.py: LogPotential"]}
{"id": "C66", "title": "The Kalman filter has minimum variance; updates, smoothing and more data never increase it", "statement": "Among all linear recursive estimators m' = p + K (y - H p - d) with arbitrary gains K at each time, none has at any time an error covariance below the filter's: every linear functional of the state has at most the variance it has under the competitor. Also the filtering covariance is at most the predicted one, the smoothing covariance is at most the filtering one, and a run that observes more entries, whatever their values, has covariances at most those of a run that observes fewer.", "quantifier": "All dimensions, models with invertible innovation covariance (noise and initial covariances may be singular), missing entries, gains, lengths, both modes.", "why_tests_cant": "the bound compares matrices along every direction and against every sequence of gains; tests compare with one reference implementation", "anchors": ["cuthbert/gaussian/kalman.py: build_filter, build_smoother", "cuthbertlib/kalman/filtering.py: update", "cuthbertlib/kalman/smoothing.py: update"]}
{"id": "C67", "title": "Multinomial and killing resampling follow the weights for every output of the generator", "statement": "For every output of random.uniform (values in [0,1), 0 included) each index returned by multinomial resampling is the generalised inverse of the weights' CDF at a normalised partial sum of -log(draws), is the same on every platform, and is never a particle of zero weight; killing resampling replaces dead particles by such indices.", "quantifier": "All log weights, numbers of particles, draws, permutations, platforms.", "why_tests_cant": "a draw equal to 0 occurs once in 2^23 single-precision draws, so tests with fixed seeds and few particles never meet it; with a million particles it hits more than one resampling step in ten", "anchors": ["cuthbertlib/resampling/multinomial.py: _sorted_uniforms, resampling, conditional_resampling", "cuthbertlib/resampling/killing.py: resampling", "cuthbertlib/resampling/utils.py: inverse_cdf"]}
{"id": "C68", "title": "Multinomial resampling draws from the weights", "statement": "With n+1 independent uniform draws, the indices returned by multinomial resampling have the law they should: the number of indices that are at most i is distributed as the number of n independent uniforms below w_0+...+w_i (binomial), particle i is copied n*w_i times on average, the sum of any function over the resampled indices has expectation n times its weighted average, and, with the random permutation, every single slot of the result is drawn from the weights and any two different slots are independent. For every permutation the average of f over the resampled particles has mean square error exactly (sum_i w_i f_i^2 - (sum_i w_i f_i)^2)/n, and the numbers of copies have covariance n w_i (1[i=k] - w_k).", "quantifier": "All valid log weights (including zero weights), all n, both platforms, every permutation (or the average over all n! of them); expectations are iterated Riemann integrals over n+1 draws.", "why_tests_cant": "a statement about the law of normalised sums of exponential spacings; tests compare empirical frequencies with a tolerance for a few sizes and weights", "anchors": ["cuthbertlib/resampling/multinomial.py: resampling, _sorted_uniforms", "cuthbertlib/resampling/utils.py: inverse_cdf"]}
{"id": "C69", "title": "Particle filters when potentials vanish", "statement": "When log potentials may be -inf, so that some or all particles can get weight zero, the last state of a particle filter run carries an unbiased estimate of the integral of any test function (zero when the log normalising constant is -inf).", "quantifier": "All models with log potentials in [-inf, inf), all test functions with existing integrals, all numbers of particles and steps, all splitting functions that never consume a key twice; systematic, multinomial and killing resampling on both platforms. Refuted for adaptive resampling with any threshold, and for the marginal filter with every resampler.", "why_tests_cant": "total extinction of the particles is a rare event that depends on every draw of the run; a test would need a model built to trigger it and an exact integral to compare with", "anchors": ["cuthbert/smc/particle_filter.py: filter_combine", "cuthbert/smc/marginal_particle_filter.py: filter_combine", "cuthbertlib/resampling/adaptive.py: ess_decorator", "cuthbertlib/resampling/{systematic,multinomial,killing}.py"]}
{"id": "C70", "title": "Ancestral lines and traced trajectories are unbiased on path space", "statement": "The weighted ancestral lines of the last state of a particle filter run, and the plain average over the trajectories of the ancestor-tracing smoother, multiplied by the filter's normalising-constant estimate, have expectation equal to the integral over whole trajectories of the test function times the product of the potentials.", "quantifier": "All models with log potentials in [-inf, inf), all test functions of the whole trajectory with existing integrals, all numbers of steps, filter particles and smoother trajectories, all injective splitting functions, filter and smoother keys different; every unbiased resampler when the potentials are finite, systematic, multinomial and killing ones otherwise.", "why_tests_cant": "a statement about the joint distribution over all random draws of a filter run and a smoother run; Monte Carlo tests only see a few test functions, up to sampling error", "anchors": ["cuthbert/smc/particle_filter.py: filter_combine", "cuthbert/smc/backward_sampler.py: convert_filter_to_smoother_state, smoother_combine", "cuthbertlib/smc/smoothing/tracing.py: simulate", "cuthbert/filtering.py", "cuthbert/smoothing.py"]}
{"id": "C71", "title": "Every state carries the model inputs of its own step, and smoothing may leave them out", "statement": "Filter state t carries the model inputs of time t and smoother state t those of the transition from t to t+1 (the last smoother state a dummy), in sequential and in parallel mode. Hence cuthbert.smoother without model_inputs after a filter run returns exactly what it returns when given the filter's model inputs.", "quantifier": "All numbers of steps, model inputs, keys, both modes of filter and smoother, all callbacks; Kalman, discrete, moments and Taylor (associative or not), particle and marginal particle filters, and the corresponding smoothers including the backward sampler.", "why_tests_cant": "tests compare numbers, not the inputs carried along, and default inputs are only exercised for a few models; in parallel mode a state is combined from states in many bracketings depending on the length", "anchors": ["cuthbert/smoothing.py: smoother", "cuthbert/filtering.py: filter", "cuthbert/gaussian/kalman.py: filter_combine, smoother_combine, convert_filter_to_smoother_state", "cuthbert/discrete/filter.py: filter_combine", "cuthbert/discrete/smoother.py: smoother_combine", "cuthbert/smc/particle_filter.py: filter_combine", "cuthbert/smc/backward_sampler.py: smoother_combine"]}
{"id": "C72", "title": "Exact backward sampling (FFBS) gives unbiased trajectories on path space", "statement": "Exp of the filter's log normalising constant times the plain average of a function over the whole trajectories returned by the exact backward sampler has expectation equal to the integral of that function over path space (the Feynman-Kac path measure), provided the smoother is given the joint log potential (transition density times potential, up to a function of the new state). All keys drawn from by filter and smoother are pairwise distinct when their keys differ.", "quantifier": "All numbers of steps, particles and trajectories, functions of whole paths, models with finite potentials, unbiased resamplers (adaptive ones included) in the filter, unbiased resamplers of the last step, categorical draws with the right law, splittable keys with no collisions.", "why_tests_cant": "an expectation over all random keys of the filter, the final resampling and all backward draws; the estimate is random and its bias cannot be seen from runs", "anchors": ["cuthbert/smc/backward_sampler.py: build_smoother, convert_filter_to_smoother_state, smoother_combine", "cuthbertlib/smc/smoothing/exact_sampling.py: simulate, simulate_single", "cuthbert/smc/particle_filter.py: filter_combine", "cuthbert/smoothing.py: smoother"]}
{"id": "C73", "title": "MCMC backward sampling gives unbiased trajectories on path space", "statement": "Exp of the filter's log normalising constant times the plain average of a function over the whole trajectories returned by the MCMC backward sampler has expectation equal to the integral of that function over path space, whatever the number of Metropolis-Hastings steps per transition (none included); the chains start from the filter's ancestors, so no burn-in is needed. No key is drawn from twice when filter and smoother keys differ and have the same depth.", "quantifier": "All numbers of steps, particles, trajectories and Metropolis-Hastings steps, functions of whole paths, models with finite potentials, unbiased resamplers (adaptive ones included) in the filter, unbiased resamplers of the last step, splittable keys with no collisions; joint potentials symmetric in their two states. Refuted for asymmetric joint potentials.", "why_tests_cant": "an expectation over all random keys of the filter, the final resampling, all proposals and all acceptance variables; the estimate is random and its bias cannot be seen from runs", "anchors": ["cuthbertlib/smc/smoothing/mcmc.py: simulate", "cuthbert/smc/backward_sampler.py: build_smoother, convert_filter_to_smoother_state, smoother_combine", "cuthbertlib/resampling/multinomial.py: resampling", "cuthbert/smc/particle_filter.py: filter_combine", "cuthbert/smoothing.py: smoother"]}
{"id": "C74", "title": "Generated models are well posed, their data comes from the returned model, and their second moments stay bounded", "statement": "generate_lgssm returns T slices; the observations are those of a state path that starts at m0 plus the returned factor times noise and follows exactly the returned F, c, chol_Q, H, d, chol_R; every array is drawn from a key of its own, no key being drawn from twice. All covariance factors are lower triangular with entries in [0,1) and are invertible exactly when no diagonal draw is 0; then the model meets the assumptions under which the Kalman filter is exact. With independent standard normal and uniform draws, the expected squared norm of observation t is ny((9/16)^(t+1)(nx + v(nx) - q) + q) + ny + v(ny), v(n) = n(n+1)/6, q = 16/7(nx/100 + v(nx)), so it is bounded uniformly in t and T, as the comment 'to stop exploding states (in expectation)' says.", "quantifier": "All seeds, dimensions, numbers of steps and times; all splittable keys whose children determine their parent; all random primitives (structure), all with the stated first and second moments (expectation).", "why_tests_cant": "an expectation over all draws and a statement for every number of steps and every dimension; tests use the generator to make inputs and never check it", "anchors": ["cuthbertlib/kalman/generate.py: generate_lgssm", "cuthbertlib/kalman/generate.py: generate_cholesky_factor", "cuthbertlib/kalman/generate.py: generate_init_model", "cuthbertlib/kalman/generate.py: generate_trans_model", "cuthbertlib/kalman/generate.py: generate_obs_model"]}
{"id": "C75", "title": "The smoothed means are the unique most probable trajectory", "statement": "For every nondegenerate linear-Gaussian model, run filter and then smoother (each sequentially or in parallel, with any storage flags). The trajectory made of the smoothed means has the largest joint log density log p(x_0..x_T, y_1..y_T) among all trajectories, and every trajectory attaining that value agrees with it at all times up to T. So the smoother solves the corresponding regularised least-squares problem, although it never forms it.", "quantifier": "All state and observation dimensions, horizons, models with positive definite noise and initial covariances, observations (with missing entries), contract-satisfying factorisations, both execution modes of both passes, all storage flags, all trajectories.", "why_tests_cant": "a maximisation over an uncountable set of trajectories in T*nx dimensions; tests compare the smoother with another recursion, not with the optimisation problem", "anchors": ["cuthbert/gaussian/kalman.py: build_smoother", "cuthbert/smoothing.py: smoother", "cuthbertlib/kalman/smoothing.py: update", "cuthbert/filtering.py: filter"]}
{"id": "C76", "title": "The documented M-step minimises the negative expected complete-data log likelihood", "statement": "docs/examples/parameter_estimation_em.md announces loss_fn as -Q(theta), the negative expected complete-data log likelihood under the smoothing law, with the expectation taken by Gauss-Hermite quadrature. For the Gaussian terms of the loss (quadrature is exact for them) this would mean loss_fn(rho, sigma) = -E log p(x_0..x_T) - (quadrature of the observation terms), for every smoother output and all parameters.", "quantifier": "All horizons, smoother outputs with consistent gains, parameters rho and sigma > 0, observation likelihoods and data, quadrature orders of at least two.", "why_tests_cant": "the page is never executed by the tests; the plotted learning curve looks plausible because the error term is common to all steps and telescopes", "anchors": ["docs/examples/parameter_estimation_em.md: loss_fn", "docs/examples/parameter_estimation_em.md: loss_dynamics", "docs/examples/parameter_estimation_em.md: construct_joint_chol_cov", "cuthbertlib/quadrature/gauss_hermite.py: weights"]}
{"id": "C77", "title": "Expectation-maximisation on the library's outputs never decreases the library's evidence", "statement": "Take a nondegenerate linear-Gaussian model, run filter and smoother (stored gains), and let E be any expectation over trajectories with the smoothed means, covariances and lag-one covariances cov_{t+1} gain_t^T. For every other nondegenerate model of the same horizon, E log p'(x, y) - E log p(x, y) <= l' - l, where l and l' are the final log_normalizing_constant of the two filters. Hence any parameters that do not lower the expected complete-data log likelihood do not lower the evidence reported by the filter. Such an E exists for every run.", "quantifier": "All state and observation dimensions, horizons, pairs of nondegenerate models and inputs (different observation dimensions allowed), execution modes, contract-satisfying factorisations, expectations with the smoother's moments.", "why_tests_cant": "an inequality between two runs for all pairs of parameter values; the tests have no EM check", "anchors": ["cuthbert/gaussian/kalman.py: build_smoother", "cuthbert/gaussian/kalman.py: build_filter", "cuthbert/smoothing.py: smoother", "docs/examples/parameter_estimation_em.md"]}
{"id": "C78", "title": "Inverse-CDF resampling is backward stable in floating-point arithmetic", "statement": "With every addition rounded to nearest even in a binary format with unit roundoff e = 2^-prec, the CPU loop of inverse_cdf applied to nonnegative floating-point weights w and any sorted uniforms returns exactly the generalised inverse of weights w' that are nonnegative, vanish where w vanishes, satisfy |w'_i - w_i| <= e (1+e)^i (w_0+..+w_i), and whose partial sums are within ((1+e)^(i-1) - 1) of those of w. The other platforms, which sum in tree order, return an index that is correct for a uniform shifted by at most E = ((1+e)^(N-1) - 1) sum(w). The grid of systematic resampling stays sorted and inside the closed interval [0, 1] for up to 2^prec particles.", "quantifier": "All precisions and exponent ranges, weight vectors of any length, sorted uniforms, both platforms; the grid for all offsets in [0,1) and all n <= 2^prec.", "why_tests_cant": "quantifies over every rounding pattern and particle number; tests run a few seeds with loose tolerances", "anchors": ["cuthbertlib/resampling/utils.py: _inverse_cdf_numba", "cuthbertlib/resampling/utils.py: _inverse_cdf_cpu", "cuthbertlib/resampling/utils.py: _inverse_cdf_default", "cuthbertlib/resampling/systematic.py: resampling"]}
{"id": "C79", "title": "In floating-point arithmetic a positive uniform never selects a particle of weight zero", "statement": "inverse_cdf with rounded sums, applied to correctly rounded normalised weights, never returns an index whose weight is zero when the uniform (before scaling to the systematic grid) is strictly between 0 and 1. Refuted in binary32: (1) systematic resampling of thirteen particles, twelve of equal weight and a last one of weight zero, with offset 1 - 2^-23 picks the last particle, because the top grid point rounds to 1 and the running sum to 1 - 2^-23; (2) on tree-summing platforms the rounded cumulative sums need not increase and an interior particle of weight zero is picked. What holds: on the CPU only the last particle can be affected, and only for a grid point above sum(w) minus the rounding bound.", "quantifier": "All precisions, exponent ranges, weights and sorted uniforms (partial result); binary32 witnesses (refutations).", "why_tests_cant": "needs a particular rounding pattern at the end of the cumulative sum; random tests with positive weights never see it", "anchors": ["cuthbertlib/resampling/utils.py: _inverse_cdf_numba", "cuthbertlib/resampling/utils.py: _inverse_cdf_default", "cuthbertlib/resampling/systematic.py: resampling"]}
{"id": "C80", "title": "With nonlinear callbacks the moments filter is the extended Kalman filter and the moments smoother its Rauch-Tung-Striebel pass", "statement": "For any differentiable conditional mean functions, any state-dependent covariances and any choice of linearisation points made from the states passed to the callbacks, the sequential moments filter returns exactly the textbook extended Kalman recursion: predicted mean f(p) + J (m - p), predicted covariance J P J' + Q(p), innovation y - h(q) - H (m - q) over the observed entries, log evidence accumulated, and each callback sees the previous (or predicted) mean, covariance, evidence, the current inputs and the previous mean. Linearised at the current mean this is f(m) and y - h(f(m)). With points chosen in advance, the associative filter is in both modes the exact Kalman filter of the linearised model. The smoother is the Rauch-Tung-Striebel pass of the transitions linearised at the filter states, in both modes.", "quantifier": "All state and observation dimensions, differentiable functions, linearisation points, missing-data patterns and lengths; all input lists.", "why_tests_cant": "tests use linear models or compare with another implementation on a few seeds; a wrong state or input passed to a callback only matters for nonlinear models whose linearisation point depends on it", "anchors": ["cuthbert/gaussian/moments/non_associative_filter.py: filter_combine", "cuthbert/gaussian/moments/associative_filter.py: filter_prepare", "cuthbert/gaussian/moments/smoother.py: smoother_prepare", "cuthbertlib/linearize/moments.py: linearize_moments"]}
{"id": "C81", "title": "With arbitrary smooth log densities the Taylor filter is the extended Kalman filter of their second-order approximations", "statement": "For any log densities that are twice differentiable near the linearisation points returned by the callbacks, with a well-conditioned positive definite negative Hessian there, the sequential Taylor filter returns exactly the Kalman recursion whose transition matrix, bias and covariance come from the second-order expansion of the transition log density, and whose update is the one Newton (Laplace) step of the observation log density or the log potential; entries of the linearisation point that are NaN are left out, a transition point pair that is entirely NaN skips the predict step, and one that is NaN only in part makes that state and all later ones NaN. With points chosen in advance, the associative filter is in both modes the exact Kalman filter of the approximated model, and the smoother is the Rauch-Tung-Striebel pass of the approximated transitions in both modes.", "quantifier": "All state and observation dimensions, all locally smooth log densities, linearisation points, missing-data patterns and lengths; all input lists and both modes where stated.", "why_tests_cant": "tests only use log densities that are exactly Gaussian, for which every linearisation point gives the same answer; a wrong gradient, point or view passed to a callback only matters for non-Gaussian densities", "anchors": ["cuthbert/gaussian/taylor/non_associative_filter.py: filter_combine", "cuthbert/gaussian/taylor/associative_filter.py: filter_prepare", "cuthbert/gaussian/taylor/smoother.py: smoother_prepare", "cuthbertlib/linearize/log_density.py: linearize_log_density", "cuthbertlib/linearize/taylor.py: linearize_taylor"]}
{"id": "C82", "title": "The documented dynamax wrapper computes the filter of the dynamax model in both modes", "statement": "docs/examples/dynamax_integration.md turns a dynamax linear-Gaussian model, whose first observation belongs to the initial state, into a cuthbert filter by inserting a transition with identity matrix, zero bias and zero noise before the first observation. For every such model and every number of observations, state t+1 of the wrapped filter has the mean and covariance of the dynamax filter after y_0, ..., y_t, and its log normalizing constant is the dynamax evidence, in sequential and in parallel mode, with missing observation entries dropped.", "quantifier": "All state and observation dimensions, parameters with invertible noise factors, observation sequences with any missing entries, lengths, keys and both modes.", "why_tests_cant": "the noiseless transition is exactly the case in which parallel mode can return NaN (C61); whether it does depends on which side of a combination the singular element lands for every length, and the example only prints one sequential run", "anchors": ["docs/examples/dynamax_integration.md: build_cuthbert_kalman_filter_from_dynamax", "cuthbertlib/kalman/filtering.py: filtering_operator", "cuthbert/filtering.py: filter"]}
{"id": "C83", "title": "Componentwise relative accuracy of the discrete filter and smoother in floating point", "statement": "Run the discrete HMM filter and smoother (sequential or parallel, any driver split) in an arithmetic whose additions, subtractions, multiplications, divisions, exponentials and logarithms each have relative error at most u, with the sums of filtering.py and of the matrix products evaluated in any order. Let K be the number of states, n the number of steps, L a bound on the absolute log likelihoods and on the logarithms of the row masses, kappa = (4K + 76 + 54(n+1)L) * (-ln(1-u)), and let (n+1)*kappa <= 1. Then at every time t >= 1 the log normalising constant is within (t+1)*kappa of the logarithm of the path-sum evidence, and EVERY filtered probability agrees with the path-sum posterior up to a factor exp(+-2(t+1)*kappa), however small it is (zero exactly when the posterior is zero). If all predictive probabilities are positive, every smoothed probability at time t agrees with the path-sum posterior up to a factor exp(+-(n+1-t)(4(n+1)+1)*kappa). Round-to-nearest with prec digits and unbounded exponents satisfies the assumption with u = 2^-prec. The assumption cannot be dropped: in every format with a smallest positive number there is a two-state HMM, one step long, for which the filter returns probability exactly 0 for a state with positive posterior probability, in both modes.", "quantifier": "for all arithmetics with relative error u, all K, n, all summation orders, all initial vectors, transition arrays (rows need not sum to one) and finite log likelihoods, both modes, all keys; for the counterexample all formats with precision > 1 and emin <= -4", "why_tests_cant": "A test compares one run with another implementation up to an absolute tolerance on the hardware's summation order; it cannot bound the relative error of tiny probabilities for every model, every length and every order of summation, nor show that no fixed 2^k loss appears in the parallel scan.", "anchors": ["cuthbertlib/discrete/filtering.py:17-49", "cuthbertlib/discrete/smoothing.py:8-35", "cuthbert/discrete/filter.py:45-132", "cuthbert/discrete/smoother.py:37-123"]}
{"id": "C84", "title": "Mean square error of the particle filter with multinomial resampling", "statement": "Run the particle filter with the built-in multinomial resampler and N particles, with injective key splitting and independent seeds. For every test function phi with finite second moments, the second moment of the estimate of the unnormalised measure of phi (exp of the log normalising constant times the weighted average) is EXACTLY the two-chain Feynman-Kac integral in which the two chains move independently, except that at every step (and at time 0) both continue from one particle with probability 1/N; its variance is that integral minus the square of the Feynman-Kac value. If the potentials are at most B and |phi| <= F, the mean square error after T steps is at most 2(T+1)(B^T F)^2/N. The squared error of the weighted average of phi over the particles is dominated by a random variable with mean at most 8(T+1)(B^T F)^2/(N Z^2), Z the evidence.", "quantifier": "for all models (state spaces, proposals, potentials), all N >= 1, all horizons T, all test functions with finite second moments, both platforms of searchsorted, all key types with injective splitting; the bound for all bounded potentials and test functions", "why_tests_cant": "A Monte Carlo test sees one N, one model and a noisy estimate of the error; it cannot establish an exact variance formula or a 1/N rate for all models, and a correlated resampler with the right marginals passes unbiasedness tests.", "anchors": ["cuthbert/smc/particle_filter.py:79-219", "cuthbertlib/resampling/multinomial.py:29-71", "cuthbertlib/resampling/utils.py:15-88"]}
{"id": "C85", "title": "Temporal parallelisation takes logarithmic time and at most twice the work", "statement": "For every number n of time steps there are two fixed systems of formulas over the n prepared elements such that, for EVERY filter object, inputs and key, the states returned by filter(parallel=True) / filter(parallel=False) are the values of these formulas; state t combines elements 0..t in order in both. In the parallel formulas no chain of dependent combinations is longer than 2 log2 n, and all states together need at most 2n - 2 - log2 n different combinations; in the sequential ones the chain for state t has length exactly t, with n-1 combinations. The same holds for smoother (state t combines elements t..n-1). Lower bounds: any way of combining the elements has a state whose chain has length at least ceil(log2 n), and needs at least n-1 combinations, so the parallel pass is within a factor two of both optima.", "quantifier": "for all n, all filter and smoother objects (no associativity assumed), all state/input/key types, all inputs and keys", "why_tests_cant": "Timing tests see one machine and a few T; an implementation that falls back to a linear chain for some lengths (or recomputes shared combinations) gives the same values and passes every functional test.", "anchors": ["cuthbert/filtering.py:54-79", "cuthbert/smoothing.py:87-128", "docs/examples/temporal_parallelization_kalman.md:1-11", "docs/examples/temporal_parallelization_kalman.md:145-147"]}
{"id": "C86", "title": "Online prediction is filtering with a missing observation", "statement": "In the documented online example (stochastic volatility, particle filter): predicting from a filter state by combining it with a NaN observation never fails, leaves the evidence unchanged and keeps the resampled weights; updating from the same state with the actual observation has exactly the predicted particles and ancestors, reweighted by Bayes' rule, and multiplies the evidence by the predictive density of the predicted cloud at the observation, whatever keys the two steps are given. In every run over data with missing values the evidence starts at one, does not change at missing steps and is multiplied by that one-step predictive density at every observed step; it is always finite.", "quantifier": "for all states with valid weights, all observations, all keys, all model parameters, all data lists with missing values, every resampler meeting the documented contract, all N >= 1", "why_tests_cant": "Tests of the example look at plots; a potential of 0 that still moved the evidence, or an update that used other particles than the prediction, would look the same.", "anchors": ["docs/examples/online_stoch_vol.md:157-182", "docs/examples/online_stoch_vol.md:213-243", "docs/examples/online_stoch_vol.md:287-295", "cuthbert/smc/particle_filter.py:164-219"]}
{"id": "C87", "title": "The documented stochastic volatility model is the coded one", "statement": "The callbacks of the online example implement the model of its text: for every theta other than 0 the coded transition mean and variance are the unique solutions of the moment equations of dx = -theta (x - mu) dt + sigma dW, an interval may be split at any intermediate time without changing the law, the variance is nonnegative and the coded standard deviation is its root, and the stationary law is preserved; the log potential is the log density of N(0, exp(x)) and 0 for a missing observation; the initial state has the law N(mu, sigma^2).", "quantifier": "for all parameters (theta <> 0), states, time differences and observations", "why_tests_cant": "A wrong decay or variance formula gives plausible plots; irregular intervals (weekends) are exactly where a formula that is only right for unit steps goes wrong.", "anchors": ["docs/examples/online_stoch_vol.md:113-155", "docs/examples/online_stoch_vol.md:157-182"]}
{"id": "C88", "title": "The match probabilities of the quickstart are a distribution with the stated ordering", "statement": "For every positive threshold and every skill difference the three coded result probabilities are strictly between 0 and 1 and add up to 1; exchanging the two teams exchanges the two wins, through the coding of the results from the goals; the home-win probability increases and the away-win probability decreases with the skill difference, and the draw probability decreases with its absolute value; with threshold 0 the draw has probability 0. The coded step of the skills has variance above tau^2 per day for every positive nugget, strictly subadditive over a divided interval, and exactly additive without the nugget.", "quantifier": "for all thresholds, skill differences, goals, time points", "why_tests_cant": "A swapped sign or result code still gives plausible rankings; only extreme skill differences give probabilities outside [0,1].", "anchors": ["docs/quickstart.md:129-131", "docs/quickstart.md:199-227"]}
{"id": "C89", "title": "The error bars in the quickstart plots are standard deviations", "statement": "The horizontal error bars of the latest ratings (top_team_stds) and the bands of the historical ratings (top_team_stds_over_time) are the standard deviations of the skills under the stored covariance factor.", "quantifier": "for every number of teams, covariance factor and team", "why_tests_cant": "Plots are not tested; a variance of order one looks like a standard deviation.", "anchors": ["docs/quickstart.md:301-302", "docs/quickstart.md:343-346"]}
{"id": "C90", "title": "The quickstart filter is zero-sum: after every match the two teams have equal variances, correlation -1 and an unchanged sum of ratings", "statement": "For every number of teams and every sequence of matches between distinct teams, of any results and at nondecreasing times, the documented Taylor filter returns NaN-free states; the first is N(0, init_sd^2 I); after every match the ratings of the two teams add up to what they added up to before, their variances are equal, their covariance is minus that variance, and every other team's covariances with the two are opposite. In particular the filter takes the sum of the two skills for known after a single match.", "quantifier": "for all numbers of teams, match sequences, results, hyperparameters (init_sd, epsilon, nugget > 0), all routines meeting their specifications", "why_tests_cant": "Rankings look plausible; the effect concerns the joint uncertainty of the two opponents, which no plot shows, and appears for every match.", "anchors": ["docs/quickstart.md:192-259", "cuthbert/gaussian/taylor/non_associative_filter.py", "cuthbertlib/linearize/taylor.py: linearize_taylor"]}
{"id": "C91", "title": "Independent models run side by side do not interfere: the joint filter and smoother are the two separate ones, and the evidences add", "statement": "If a linear Gaussian model is block diagonal (initial covariance, transition, process noise, observation matrix and noise), then at every time the joint filtered and smoothed means are the stacked means of the two models run alone, the joint covariances are block diagonal with the two separate covariances, and the joint log normalising constant is the sum of the two. In particular nothing about one subsystem (its data, its missing entries, its parameters) can reach the estimates of the other.", "quantifier": "for all dimensions of both subsystems, all runs, missing patterns, parameters (singular covariances allowed for the moments), all combinations of parallel and sequential mode in the three runs", "why_tests_cant": "Tests compare one model with a reference; non-interference quantifies over pairs of models and every missing pattern, and a leak of a few ulps or through a shared missing-row permutation would hide in a tolerance.", "anchors": ["cuthbert/gaussian/kalman.py: build_filter, build_smoother", "cuthbertlib/kalman/filtering.py", "cuthbertlib/kalman/smoothing.py", "cuthbert/filtering.py: filter", "cuthbert/smoothing.py: smoother"]}
{"id": "C92", "title": "The Kalman filter and smoother do not depend on the coordinates of the state or the units of the observations", "statement": "If the same model is written for the state T x (T invertible) and the observations u_i y_i (u_i nonzero, possibly changing in time), with any factors of the transformed covariances, then every filtered and smoothed mean is T times the old mean, every covariance is T P T^T, and the log normalising constant is the old one minus the sum of ln|u_i| over the observations seen so far (missing entries do not count).", "quantifier": "for all dimensions, invertible T, nonzero units, models, observation sequences, missing patterns and modes of the two runs", "why_tests_cant": "Tests run a model in one coordinate system; equivariance relates all of them at once, including non-orthogonal T where the square-root factors of the two runs are unrelated.", "anchors": ["cuthbert/gaussian/kalman.py: build_filter, build_smoother", "cuthbertlib/kalman/filtering.py", "cuthbertlib/kalman/smoothing.py", "cuthbertlib/stats/multivariate_normal.py"]}
{"id": "C93", "title": "The tracking example filters the exact continuous-time motion of the car, row by row, axis by axis", "statement": "In docs/examples/kalman_tracking.md: (1) for every dt the matrices F and Q are the exact discretisation of the constant-velocity model with white noise acceleration: F solves dF/dt = A F with F(0) = I, and Q is the integral over [0, dt] of F(s) S F(s)^T; predicting over s and then t is predicting over s + t. (2) In both modes the run equals the exact Kalman filter of that motion (F and Q being the unique solutions), position t having seen exactly the first t rows of ys in order; the wrap-around entry ys[-1] that model_inputs - 1 gives for index 0 is never used. (3) n consecutive rows without measurements amount to one prediction over n dt and leave the log normalising constant unchanged. (4) The belief at every position is that of two independent one-dimensional filters run on the two columns of the data, cross covariances between the axes are zero, and the evidences add.", "quantifier": "for all dt > 0, spectral densities, noise levels, numbers of rows, data including NaN entries, both modes", "why_tests_cant": "The example is run once with fixed constants; the discretisation, the indexing and the independence of the axes hold for all step lengths, lengths and gaps.", "anchors": ["docs/examples/kalman_tracking.md:22-131", "examples_scripts/kalman_tracking.py", "cuthbertlib/kalman/filtering.py: predict", "cuthbert/gaussian/kalman.py: build_filter"]}
{"id": "C94", "title": "During an outage the tracking filter's uncertainty grows at every step; after a measurement a position is known better than from the measurement alone", "statement": "In the tracking example (which prints 'Filter uncertainty automatically increased during GPS outage'): whenever a coordinate of a row is NaN, the reported variances of the position and of the velocity of that axis strictly increase from the state before the row to the state after it, in both modes and also when only one of the two coordinates is missing; whenever the coordinate is measured, the reported variance of the position is below the variance of the measurement noise.", "quantifier": "for all dt > 0, spectral densities, noise levels, data with any pattern of NaN entries, rows and both modes", "why_tests_cant": "The script prints the claim without checking it. The position variance of a predict step is not monotone for arbitrary covariances (a negative position-velocity covariance would make it shrink), so the claim depends on an invariant of all reachable states.", "anchors": ["docs/examples/kalman_tracking.md:204-223", "cuthbertlib/kalman/filtering.py: predict, update", "cuthbert/gaussian/kalman.py: build_filter"]}
