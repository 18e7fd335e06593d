{"id": "C01", "title": "A run records exactly the iterates of the sampler until its stopping rule fires", "statement": "The chain returned by run is the starting state followed by the successive results of the sampler's update, in order, with no iterate skipped, duplicated, padded or produced after the termination criterion first held; the number of updates is the least k at which the criterion holds, or max_iter if it does not hold before.", "quantifier": "for every update function, every termination criterion, every starting state and every max_iter", "why_tests_cant": "The criterion may fire at any of unboundedly many iterations, and may be non-monotone (true, then false again); tests try a handful of fixed lengths.", "anchors": ["mocat/src/utils.py:_while_loop_stacked", "mocat/src/utils.py:while_loop_stacked", "mocat/src/sample.py:run"]}
{"id": "C02", "title": "An MCMC run of length n returns exactly n states", "statement": "For an MCMC sampler and requested length n >= 1 the returned chain has n entries, the i-th entry being the result of i updates, whatever the accept/reject outcomes.", "quantifier": "for every n >= 1, every proposal, correction and random stream, starting with the iteration counter at 0 (no counter carried over in initial_extra)", "why_tests_cant": "Every n and every accept/reject history must be covered.", "anchors": ["mocat/src/mcmc/sampler.py:MCMCSampler.startup", "mocat/src/mcmc/sampler.py:MCMCSampler.update", "mocat/src/sample.py:Sampler.termination_criterion", "mocat/src/sample.py:run"]}
{"id": "C03", "title": "Indexing a cdict indexes all its arrays alike and nothing else", "statement": "Indexing a cdict with an integer, slice or index array applies that index to the leading axis of every array attribute with at least one axis, at every level of nesting, leaves scalars, zero-dimensional arrays, other objects and static cdicts untouched, keeps the same keys in the same order, and does not modify the cdict indexed.", "quantifier": "for every cdict of any nesting depth and every index", "why_tests_cant": "cdicts nest without bound and mix arrays, scalars and static parts in any combination.", "anchors": ["mocat/src/core.py:cdict.__getitem__", "mocat/src/core.py:static_cdict"]}
{"id": "C04", "title": "Concatenating chains with + is lossless and associative on array attributes", "statement": "chain1 + chain2 keeps exactly chain1's attribute names; every attribute that is an array in both becomes chain1's entries followed by chain2's; adding None gives a chain with the same attributes; adding is associative; splitting a chain of arrays at any point and adding the pieces gives the chain back; the operands are unchanged.", "quantifier": "for every pair and triple of cdicts and every split point", "why_tests_cant": "Lengths, attribute sets and nesting are unbounded.", "anchors": ["mocat/src/core.py:cdict.__add__"]}
{"id": "C05", "title": "cdicts survive JAX flattening", "statement": "Flattening a cdict into leaves and keys and unflattening again gives a cdict with the same keys, order and values, for nested cdicts too; mapping a function over the leaves changes each leaf by that function only.", "quantifier": "for every cdict", "why_tests_cant": "All key sets and nesting depths.", "anchors": ["mocat/src/core.py:cdict.tree_flatten", "mocat/src/core.py:cdict.tree_unflatten", "mocat/src/core.py:cdict.copy"]}
{"id": "C06", "title": "Saving is faithful and never silently destroys another file", "statement": "After saving a cdict to a path, loading the resulting .cdict file returns the same cdict; saving without overwrite to an existing file raises and leaves the file as it was; saves to two different requested names do not affect one another.", "quantifier": "for every history of saves and loads with any names and overwrite flags", "why_tests_cant": "The set of path names and operation histories is unbounded; the collision between names that differ only after the last dot appears only for particular pairs.", "anchors": ["mocat/src/core.py:save_cdict", "mocat/src/core.py:load_cdict"]}
{"id": "C07", "title": "Overwriting a saved cdict is crash safe", "statement": "If the process stops at any point during save with overwrite, loading the path afterwards returns either the old or the new cdict.", "quantifier": "for every crash point during a save", "why_tests_cant": "A test process cannot be stopped between every pair of file-system steps.", "anchors": ["mocat/src/core.py:save_cdict"]}
{"id": "C08", "title": "A scenario's potential and its gradient always describe the same target", "statement": "After any sequence of assignments to a scenario's prior potential, likelihood potential and temperature, potential(x) = prior(x) + temperature * likelihood(x), and grad_potential and potential_and_grad return the gradient (and value) of that same function, for the functions and temperature currently assigned; the same holds after assigning potential.", "quantifier": "for every sequence of attribute assignments and every evaluation point", "why_tests_cant": "Any interleaving of assignments is possible; stale gradients only show for particular orders.", "anchors": ["mocat/src/core.py:Scenario.__init__", "mocat/src/core.py:Scenario.__setattr__", "mocat/src/core.py:Scenario.init_grad"]}
{"id": "C09", "title": "The target a scenario samples is the one the user defined", "statement": "Constructing a scenario never changes the density: if the user supplies potential, the constructed scenario's potential at temperature 1 equals it; if the user supplies prior and likelihood, it equals their sum; if only a likelihood, it equals the likelihood.", "quantifier": "for every combination of user-supplied potentials and every point", "why_tests_cant": "The combinations interact (potential with prior but without likelihood is the delicate one) and the claim is about every point.", "anchors": ["mocat/src/core.py:Scenario.__init__"]}
{"id": "C10", "title": "Sampler settings have a fixed precedence", "statement": "The parameters a run actually uses are: those given in initial_extra, else those given as keyword arguments to run, else those set on the sampler; keywords never create or change anything else, and an existing iteration counter in initial_extra is kept.", "quantifier": "for every set of keywords, sampler parameters and initial extras", "why_tests_cant": "Any combination of present, absent and None entries must be covered.", "anchors": ["mocat/src/sample.py:Sampler.__init__", "mocat/src/sample.py:Sampler.startup", "mocat/src/mcmc/metropolis.py:RMMetropolis.startup"]}
{"id": "C11", "title": "The Metropolis correction either keeps the current state or moves to the proposal, and never accepts a NaN", "statement": "After the Metropolis correction the state's fields (other than the recorded acceptance probability) are all those of the proposal or all those of the current state; a proposal whose acceptance probability is NaN or 0 is never accepted; one with probability 1 always is; the recorded alpha is the probability used (0 for NaN) and the key is advanced in both cases.", "quantifier": "for every pair of states, every acceptance probability including NaN and infinities and every uniform draw in [0,1)", "why_tests_cant": "Floating special values and every uniform draw.", "anchors": ["mocat/src/mcmc/metropolis.py:Metropolis.correct"]}
{"id": "C12", "title": "Metropolis-Hastings acceptance satisfies detailed balance", "statement": "With the Metropolis-Hastings acceptance probability, target(x) * proposal(x,y) * accept(x,y) = target(y) * proposal(y,x) * accept(y,x) for the densities exp(-potential), so the target is reversible for the chain; likewise the plain symmetric case used by RandomWalk, and the resulting transition matrix on any finite state space leaves the target invariant.", "quantifier": "for every potential, every proposal potential and every pair of states", "why_tests_cant": "Real-valued equality for all pairs; a statistical test only bounds the bias.", "anchors": ["mocat/src/mcmc/metropolis.py:mh_acceptance_probability", "mocat/src/mcmc/standard_mcmc.py:RandomWalk.acceptance_probability"]}
{"id": "C13", "title": "A random-walk chain never leaves the support and its recorded potentials are right", "statement": "Starting from a state of finite potential, every state of a Metropolis corrected random-walk chain has finite potential, and the recorded potential of each state equals the scenario's potential at the recorded value.", "quantifier": "for every target with +infinite or NaN regions (potential never -infinity), every stepsize and random stream and every chain length", "why_tests_cant": "Requires all trajectories, including those that try to step outside the support.", "anchors": ["mocat/src/mcmc/standard_mcmc.py:RandomWalk", "mocat/src/mcmc/metropolis.py:Metropolis.correct"]}
{"id": "C14", "title": "The leapfrog integrator is reversible", "statement": "Integrating any number of leapfrog steps, flipping the momenta, integrating the same number of steps and flipping again returns the starting position and momenta exactly; the recorded path has one more position than steps and twice that minus one momenta, starting at the start state.", "quantifier": "for every gradient field, stepsize (any sign), number of steps, dimension and start", "why_tests_cant": "All step counts and all gradient fields; numeric tests only see a few.", "anchors": ["mocat/src/utils.py:_leapfrog", "mocat/src/utils.py:leapfrog"]}
{"id": "C15", "title": "Underdamped (HMC/MALA) proposals preserve coherent state", "statement": "In every state of an Underdamped chain the stored value, potential and gradients agree with the scenario at that value and temperature; the proposal map (integrate then flip) is an involution on the state and in detailed balance with exp(-potential - kinetic energy) under the acceptance probability used; a rejected step leaves value, potentials and gradients unchanged and keeps the refreshed momenta, which the next refreshment reverses; the refreshment keeps the standard Gaussian (coefficients c, b with c^2 + b^2 = 1).", "quantifier": "for every scenario, stepsize, friction, number of leapfrog steps, random stream and chain length", "why_tests_cant": "Every accept/reject history.", "anchors": ["mocat/src/mcmc/standard_mcmc.py:Underdamped"]}
{"id": "C16", "title": "The quasi-Newton proposal stays reversible because its memory is fixed during integration", "statement": "The quasi-Newton leapfrog with a fixed preconditioner is reversible under momentum flip, and the memory holds exactly the most recent m positions in order, whatever the accept/reject history.", "quantifier": "for every history of accepted and rejected moves, every memory size m and every preconditioner", "why_tests_cant": "The memory depends on the whole history.", "anchors": ["mocat/src/mcmc/qn_underdamped.py:QNUnderdamped"]}
{"id": "C17", "title": "Robbins-Monro tuning keeps parameters valid, moves in the right direction and stops at the cut-off", "statement": "With log updates the tuned parameter stays strictly positive for ever; it increases exactly when the metric lies on the side of the target that calls for it (given the monotonicity); when metric equals target it does not change; after the cut-off iteration it never changes again.", "quantifier": "for every sequence of metric values, scale, exponent, target, monotonicity and cut-off", "why_tests_cant": "Every infinite adaptation history.", "anchors": ["mocat/src/mcmc/metropolis.py:RMMetropolis"]}
{"id": "C18", "title": "The bracketing root finder keeps a valid bracket and stops", "statement": "The values returned with the bounds are the function at those bounds; the bounds stay within the initial interval and keep opposite signs as long as they started so; no division by zero happens; it does at most max_iter iterations; it stops because a bound is within tol, the signs agree, or the iteration limit was reached.", "quantifier": "for every real function, initial interval, positive tolerance and iteration limit", "why_tests_cant": "All functions, including discontinuous and non-monotone ones.", "anchors": ["mocat/src/utils.py:bisect"]}
{"id": "C19", "title": "Resampling copies whole particles", "statement": "After resampling, particle i agrees with one parent particle in every attribute simultaneously, parents have positive weight, the log weights are all zero, the effective sample size equals n and the number of particles is unchanged.", "quantifier": "for every ensemble, weight vector (including minus infinity entries) and random draw", "why_tests_cant": "All ensembles and draws.", "anchors": ["mocat/src/transport/smc.py:SMCSampler.resample", "mocat/src/core.py:cdict.__getitem__"]}
{"id": "C20", "title": "Tempered SMC follows its temperature schedule exactly", "statement": "With a temperature schedule, the temperatures recorded along the run are the entries of the schedule in order (a leading zero being dropped), the run ends at the last one, and the scenario is left at the final temperature; assigning or clearing the schedule resets the iteration limit and final temperature consistently.", "quantifier": "for every schedule and every history of schedule assignments", "why_tests_cant": "All schedules and assignment histories.", "anchors": ["mocat/src/transport/smc.py:TemperedSMCSampler", "mocat/src/transport/smc.py:MetropolisedSMCSampler"]}
{"id": "C21", "title": "Adaptive tempering never goes backwards, never overshoots and makes progress", "statement": "Each adaptively chosen temperature lies between the current one and the maximum, and the sequence reaches the maximum.", "quantifier": "for every ensemble and likelihood", "why_tests_cant": "All ensembles, including those where the effective sample size does not fall.", "anchors": ["mocat/src/transport/smc.py:MetropolisedSMCSampler.next_temperature_adaptive", "mocat/src/utils.py:bisect"]}
{"id": "C22", "title": "The normalising-constant estimate is the product of incremental weighted means", "statement": "At each step the recorded log normalising constant increases by the log of the weighted average, under the normalised previous weights, of exp(-(temperature increment) * likelihood potential); resampling does not change it.", "quantifier": "for every number of steps, resampling pattern and ensemble", "why_tests_cant": "An unbounded telescoping over any resampling pattern.", "anchors": ["mocat/src/transport/smc.py:TemperedSMCSampler.adapt", "mocat/src/transport/smc.py:MetropolisedSMCSampler.log_weight", "mocat/src/transport/smc.py:MetropolisedSMCSampler.startup"]}
{"id": "C23", "title": "Effective sample size lies between 1 and n and ignores constant shifts", "statement": "For n particles whose log weights are finite or minus infinity, not all minus infinity, the effective sample size is between 1 and n, equals n exactly for equal weights, equals k when exactly k weights are equal and the others zero, and is unchanged by adding a constant to all log weights.", "quantifier": "for every n >= 1 and every weight vector", "why_tests_cant": "Inequality over all real weight vectors.", "anchors": ["mocat/src/metrics.py:log_ess_log_weight", "mocat/src/metrics.py:ess_log_weight"]}
{"id": "C24", "title": "SMC particles carry potentials consistent with the current temperature", "statement": "At every step of a Metropolised SMC run each particle's stored prior, likelihood and total potentials equal the scenario's at its value and the current temperature, although the likelihood is recovered from the total by division.", "quantifier": "for every run length, schedule with positive temperatures and random stream", "why_tests_cant": "Invariant over all executions; breaks at temperature zero.", "anchors": ["mocat/src/transport/smc.py:MetropolisedSMCSampler.forward_proposal", "mocat/src/transport/smc.py:TemperedSMCSampler.adapt"]}
{"id": "C25", "title": "Tempered ensemble Kalman inversion uses every temperature of its schedule", "statement": "With a schedule, the successive temperatures of the ensemble are the schedule's entries starting with the first, and the increments sum to the final temperature; each update moves the ensemble only within the span of its deviations.", "quantifier": "for every schedule and ensemble", "why_tests_cant": "All schedules and ensembles.", "anchors": ["mocat/src/transport/teki.py:TemperedEKI"]}
{"id": "C26", "title": "SVGD with the full batch is equivariant under relabelling and is gradient descent for one particle", "statement": "Permuting the particles permutes the SVGD direction in the same way; with one particle and a kernel with value one and zero gradient on the diagonal the direction is minus the potential's gradient; a sampler object can be reused with another number of particles.", "quantifier": "for every ensemble, permutation, gradient field and sequence of runs", "why_tests_cant": "All permutations and all reuse histories.", "anchors": ["mocat/src/transport/svgd.py:kernelised_grad_matrix", "mocat/src/transport/svgd.py:SVGD.startup"]}
{"id": "C27", "title": "ABC-MCMC chains stay inside the tolerance and the prior support", "statement": "Once a RandomWalkABC chain with fixed threshold has a state with distance below the threshold and finite prior potential, every later state has distance below the threshold and finite prior potential, and stored distance, simulated data and prior potential belong to the stored value.", "quantifier": "for every scenario (prior potential never -infinity), threshold, random stream and chain length", "why_tests_cant": "Every trajectory.", "anchors": ["mocat/src/abc/mcmc.py:RandomWalkABC", "mocat/src/mcmc/metropolis.py:Metropolis.correct"]}
{"id": "C28", "title": "Rejection ABC weights exactly the samples within the threshold", "statement": "Every sample of a VanillaABC run has weight one if its distance is below the threshold and zero otherwise; the run has n samples, each an independent draw with its own keys; with an acceptance rate, the samples weighted one are those strictly below the empirical quantile, and their number never exceeds that rate times n rounded up.", "quantifier": "for every n, threshold, acceptance rate and random stream", "why_tests_cant": "All n, ties and distances.", "anchors": ["mocat/src/abc/importance.py:ImportanceABC", "mocat/src/abc/importance.py:VanillaABC"]}
{"id": "C29", "title": "ABC-SMC particles with weight are within the threshold and dead particles are never moved", "statement": "After every step of a Metropolised ABC-SMC run the particles of weight one are exactly those with distance at most the current threshold and all others have weight zero; a particle of zero weight is unchanged until the next resampling; the effective sample size is the number of particles with weight one.", "quantifier": "for every run, schedule or adaptive threshold, whose distances and threshold are not NaN; the effective sample size whenever at least one particle has weight one", "why_tests_cant": "Every execution.", "anchors": ["mocat/src/abc/smc.py:MetropolisedABCSMCSampler"]}
{"id": "C30", "title": "The adaptive ABC threshold never increases", "statement": "In an adaptive ABC-SMC run the sequence of thresholds is non-increasing.", "quantifier": "for every ensemble and run", "why_tests_cant": "Interaction of the quantile interpolation with dead particles for every ensemble size.", "anchors": ["mocat/src/abc/smc.py:MetropolisedABCSMCSampler.next_threshold_adaptive", "mocat/src/abc/smc.py:MetropolisedABCSMCSampler.adapt"]}
{"id": "C31", "title": "Diagonal adaptation keeps proposal variances positive", "statement": "RMMetropolisDiagStepsize keeps every proposal variance strictly positive for ever, and its running mean stays in the convex hull of the visited values.", "quantifier": "for every history of states", "why_tests_cant": "Every adaptation history.", "anchors": ["mocat/src/abc/mcmc.py:RMMetropolisDiagStepsize"]}
{"id": "C32", "title": "No random key is used twice in a run of an MCMC or SMC sampler", "statement": "In a run of RandomWalk with Metropolis, of RandomWalkABC, and of SMC, all draws use pairwise different keys, none of which is an ancestor of another draw's key, across all iterations.", "quantifier": "for every number of iterations and particles", "why_tests_cant": "Key collisions over unboundedly many iterations are invisible statistically.", "anchors": ["mocat/src/mcmc/standard_mcmc.py:RandomWalk.proposal", "mocat/src/mcmc/metropolis.py:Metropolis.correct", "mocat/src/transport/smc.py:SMCSampler.update", "mocat/src/abc/mcmc.py:RandomWalkABC.proposal"]}
{"id": "C33", "title": "Particle filters draw resampling and proposal noise from different keys", "statement": "Within one propagation of a particle filter the key used for resampling is not used, nor split, for anything else.", "quantifier": "for every number of particles and steps", "why_tests_cant": "A reuse leaves output plausible; no sampled test detects the dependence.", "anchors": ["mocat/src/ssm/filtering.py:propagate_particle_filter", "mocat/src/ssm/filtering.py:run_particle_filter_for_marginals", "mocat/src/ssm/online_smoothing.py"]}
{"id": "C34", "title": "The BFGS square-root products are adjoint and mutually inverse", "statement": "For any sequence of stored vectors the product and transpose-product are adjoint with respect to the dot product; the inverse-Hessian factor built from (p, q) and the Hessian factor built from (u, t) are inverse transposes of one another, so hess(hess_inv(z)) = z.", "quantifier": "for every dimension, number of stored pairs and vectors, whatever pairs are skipped", "why_tests_cant": "All dimensions and memory lengths.", "anchors": ["mocat/src/utils.py:bfgs_sqrt_prod", "mocat/src/utils.py:bfgs_sqrt_transpose_prod", "mocat/src/utils.py:bfgs_sqrt_pqut"]}
{"id": "C35", "title": "The BFGS approximation satisfies the secant equation and stays positive definite", "statement": "The product form computes the textbook dense BFGS recursion from the squared initial diagonal over the damped pairs, skipping exactly those flagged off, of non-positive curvature or tiny; after each used pair the approximation maps s to y; the result is symmetric positive semi-definite, positive definite when the diagonal is non-zero; the damping makes the curvature of every pair with s' D^2 s >= 1e-10 at least r times s' D^2 s, and adds no more than needed.", "quantifier": "for every dimension, history of positions and gradients, flags and finite damping r", "why_tests_cant": "All histories.", "anchors": ["mocat/src/utils.py:_bfgs_sqrt_pqut"]}
{"id": "C36", "title": "The BFGS determinant is the determinant of the factor", "statement": "bfgs_sqrt_det returns the determinant of the matrix applied by bfgs_sqrt_prod, and bfgs_sqrt_log_abs_det its log absolute value.", "quantifier": "for every dimension, stored vectors and initial diagonal (scalar or vector)", "why_tests_cant": "All dimensions.", "anchors": ["mocat/src/utils.py:bfgs_sqrt_det"]}
{"id": "C37", "title": "Gaussian potentials agree across all ways of giving the precision", "statement": "gaussian_potential returns the same value, the negative log density of the Gaussian, whether the precision is given as scalar, vector, matrix or square root (prec = sqrt_prec sqrt_prec'), given the determinant when the argument is a matrix; without the determinant of a matrix the value is off by a constant independent of the point; batched evaluation equals evaluation one by one.", "quantifier": "for every dimension, point, mean and positive definite precision", "why_tests_cant": "All dimensions and matrices.", "anchors": ["mocat/src/utils.py:gaussian_potential"]}
{"id": "C38", "title": "State-space models evaluate the Gaussian density of the covariance they were given", "statement": "After setting a covariance on a linear Gaussian model, its potential is the negative log density of a Gaussian with that covariance, the same one its sampler draws from.", "quantifier": "for every positive definite covariance (scalar, diagonal vector or matrix)", "why_tests_cant": "Wrong only for non-diagonal matrices; tests with diagonal ones cannot see it.", "anchors": ["mocat/src/utils.py:reset_covariance", "mocat/src/ssm/linear_gaussian/linear_gaussian.py:LinearGaussian"]}
{"id": "C39", "title": "The Kalman update is exact Bayesian conditioning", "statement": "The updated mean and covariance are those of the conditional Gaussian: the posterior precision is prior precision plus H'R^{-1}H and the posterior mean solves the normal equations; prediction propagates mean and covariance exactly; the product of prior and likelihood densities equals the posterior density times a constant independent of x.", "quantifier": "for every dimension, prior, observation matrix, noise covariance and observation", "why_tests_cant": "A matrix identity over all sizes.", "anchors": ["mocat/src/ssm/linear_gaussian/kalman.py:run_kalman_filter_for_marginals"]}
{"id": "C40", "title": "The Kalman filter starts from the model's initial covariance", "statement": "The covariance used before the first observation is the model's initial covariance.", "quantifier": "for every model", "why_tests_cant": "Identity covariances hide it.", "anchors": ["mocat/src/ssm/linear_gaussian/kalman.py:run_kalman_filter_for_marginals"]}
{"id": "C41", "title": "The Kalman smoother is the exact backward recursion", "statement": "The smoother's marginals satisfy the Rauch-Tung-Striebel recursion from the filter's marginals, ending at the last filter marginal, for every length, and its lag-one cross moments are those of the joint smoothing distribution.", "quantifier": "for every length and model", "why_tests_cant": "All lengths and dimensions.", "anchors": ["mocat/src/ssm/linear_gaussian/kalman.py:run_kalman_smoother_for_marginals"]}
{"id": "C42", "title": "The smoothing potential of a state-space model is the sum of its parts", "statement": "For a trajectory of any length T >= 1 the smoothing potential is initial + sum of transitions + sum of likelihood potentials, and grad_smoothing_potential is its gradient with respect to every state.", "quantifier": "for every T, model, trajectory and data", "why_tests_cant": "Every T; a special branch exists for T = 1 and T = 2.", "anchors": ["mocat/src/ssm/ssm.py:StateSpaceModel.smoothing_potential", "mocat/src/ssm/ssm.py:StateSpaceModel.grad_smoothing_potential"]}
{"id": "C43", "title": "A particle filter keeps its weights, ancestry and shapes consistent", "statement": "At every step each particle of the new marginal was proposed from a particle with positive weight of the previous marginal (itself when not resampling), the new log weight is the old one (zero after resampling) plus the incremental weight, the number of particles is constant, and the recorded effective sample size is that of the recorded weights.", "quantifier": "for every model, proposal, threshold, number of steps and random stream", "why_tests_cant": "Every execution.", "anchors": ["mocat/src/ssm/filtering.py"]}
{"id": "C44", "title": "Backward simulation only recombines filter particles", "statement": "Every trajectory returned by backward simulation takes at each time one of the filter's particles at that time with positive weight, and the last one is drawn from the final weights; the rejection variant has the same support whatever the number of rejections, and evaluates the transition only finitely often.", "quantifier": "for every length, number of particles and of trajectories, bound, inflation, number of rejections and random stream, when each recorded weight vector has a positive weight and each particle of positive weight can be reached from one of the time before", "why_tests_cant": "Every execution of an unbounded loop.", "anchors": ["mocat/src/ssm/backward.py"]}
{"id": "C45", "title": "Fixed-lag smoothing never rewrites the past beyond the lag", "statement": "Stitching keeps every trajectory's states older than the lag exactly as they were, and continues each with states of one recent trajectory.", "quantifier": "for every positive lag, number of particles, length of run and random stream, with and without backward simulation and rejection (without backward simulation from when the lag is first reached)", "why_tests_cant": "Every execution.", "anchors": ["mocat/src/ssm/online_smoothing.py:fixed_lag_stitching", "mocat/src/ssm/online_smoothing.py:propagate_particle_smoother_bs"]}
{"id": "C46", "title": "Kernel derivatives are the derivatives of the kernel", "statement": "For every supplied kernel, the gradient functions return the derivatives of the kernel function itself and the mixed second-derivative diagonal likewise.", "quantifier": "for every dimension, bandwidth and pair of points", "why_tests_cant": "An analytic identity at all points; constant factors and signs vanish at special points.", "anchors": ["mocat/src/kernels.py"]}
{"id": "C47", "title": "The kernelised Stein discrepancy uses the Stein kernel of the target", "statement": "The pairwise terms summed by ksd are the Langevin Stein kernel of the target exp(-potential), so their expectation under the target is zero.", "quantifier": "for every target and kernel", "why_tests_cant": "A sign error changes the value smoothly; only the algebraic identity pins it.", "anchors": ["mocat/src/metrics.py:ksd"]}
{"id": "C48", "title": "Autocorrelation equals its definition for every series and lag", "statement": "autocorrelation returns, for each lag up to the maximum, the lag-k sum of products of the centred series divided by the lag-0 sum.", "quantifier": "for every series length and maximum lag", "why_tests_cant": "Wrap-around in the transform only matters for particular length/lag combinations.", "anchors": ["mocat/src/metrics.py:autocorrelation", "mocat/src/metrics.py:_next_pow_two"]}
{"id": "C49", "title": "The Gaspari-Cohn taper is a valid localisation", "statement": "The taper matrix is symmetric, one on the diagonal, non-negative, zero beyond twice the radius, non-increasing and continuous in distance and invariant under cyclic shifts.", "quantifier": "for every dimension and every positive radius", "why_tests_cant": "All real distances and all dimensions.", "anchors": ["mocat/src/utils.py:gc_matrix", "mocat/src/utils.py:_gc"]}
{"id": "C50", "title": "Epidemic and population simulators conserve what they should", "statement": "In the SIR simulator counts stay non-negative and the population is conserved or shrinks as removals are recorded, times increase, and once the infection is extinct nothing changes any more.", "quantifier": "for every rate, random stream and number of steps", "why_tests_cant": "Every trajectory.", "anchors": ["mocat/src/abc/scenarios/SIR.py"]}
{"id": "C51", "title": "Leave-one-out indices are all the others, in order", "statement": "leave_one_out_indices(n, i) lists 0..n in increasing order with exactly i removed for every 0 <= i <= n.", "quantifier": "for every n and i", "why_tests_cant": "All n and i.", "anchors": ["mocat/src/utils.py:leave_one_out_indices"]}
{"id": "C52", "title": "The Lorenz-96 model is cyclically symmetric and its advection conserves energy", "statement": "Rotating the state rotates the time derivative, and the quadratic term is orthogonal to the state.", "quantifier": "for every dimension and state", "why_tests_cant": "All dimensions.", "anchors": ["mocat/src/ssm/scenarios/lorenz96.py"]}
{"id": "C53", "title": "Runs that share an initial_extra object do not influence one another", "statement": "Passing the same initial_extra object to two runs gives each run the settings it would have had with a fresh copy; run does not write its sampler's parameters into the caller's object.", "quantifier": "for every sampler, keyword arguments and pair of runs", "why_tests_cant": "Depends on the history of earlier runs and on which keys each of them touched; any finite test fixes one history.", "anchors": ["mocat/src/sample.py: Sampler.startup", "mocat/src/sample.py: run"]}
{"id": "C54", "title": "SMC particles carry the gradients of their own values", "statement": "At every step of a Metropolised SMC run on a scenario with gradients, each particle's stored grad_prior_potential, grad_likelihood_potential and grad_potential are the gradients at its value.", "quantifier": "for every inner sampler, schedule, run length and random stream", "why_tests_cant": "Invariant over all executions; only visible when an inner sampler ignores the gradient fields.", "anchors": ["mocat/src/transport/smc.py:MetropolisedSMCSampler.forward_proposal", "mocat/src/transport/smc.py:TemperedSMCSampler.adapt"]}
{"id": "C55", "title": "The Robbins-Monro SMC step size stays positive and moves towards the target acceptance", "statement": "The average acceptance is a weighted average of the particles' acceptance probabilities; the next step size is positive, larger exactly when the average exceeds the target, and changes by at most the factor exp(rm * distance to the target).", "quantifier": "for every ensemble, log weights, step size, target and rm_stepsize", "why_tests_cant": "All real weights and acceptance vectors.", "anchors": ["mocat/src/transport/smc.py:RMMetropolisedSMCSampler.adapt"]}
{"id": "C56", "title": "A scheduled ABC-SMC run uses exactly its threshold schedule", "statement": "The thresholds recorded by a run with a threshold schedule are the schedule's entries in order, each once, up to the step at which the run stops; assigning or clearing the schedule leaves a usable sampler.", "quantifier": "for every schedule, ensemble, inner sampler and termination step", "why_tests_cant": "Every schedule length and stopping time.", "anchors": ["mocat/src/abc/smc.py:ABCSMCSampler", "mocat/src/abc/smc.py:MetropolisedABCSMCSampler"]}
{"id": "C57", "title": "The Gaussian toy scenario has the density of its covariance", "statement": "The likelihood potential of the Gaussian scenario is, up to a constant, the negative log density of the Gaussian with the mean and covariance given.", "quantifier": "for every dimension, mean, positive definite covariance given as vector or matrix, and point", "why_tests_cant": "All matrices; a transposed Cholesky factor shows only off the diagonal.", "anchors": ["mocat/src/scenarios/toy_examples.py:Gaussian"]}
{"id": "C58", "title": "The mixture scenario has the density of its mixture", "statement": "The density of the GaussianMixture scenario is proportional to the weighted sum of its components' Gaussian densities.", "quantifier": "for every number of components, weights and covariances", "why_tests_cant": "Wrong only when components differ in determinant; the tests use identity covariances.", "anchors": ["mocat/src/scenarios/toy_examples.py:GaussianMixture"]}
{"id": "C59", "title": "Stochastic volatility transitions are evaluated as they are sampled", "statement": "The transition potential is, up to a constant, the negative log density of the distribution transition_sample draws from.", "quantifier": "for every time step, transition matrix and covariance", "why_tests_cant": "Unit time steps hide it.", "anchors": ["mocat/src/ssm/scenarios/stochastic_volatility.py:StochasticVolatility"]}
{"id": "C60", "title": "Nonlinear Gaussian transitions are drawn from the covariance given", "statement": "transition_sample draws from a Gaussian with the transition covariance, the same one transition_potential evaluates.", "quantifier": "for every covariance matrix", "why_tests_cant": "Diagonal covariances hide it.", "anchors": ["mocat/src/ssm/nonlinear_gaussian.py:NonLinearGaussian"]}
{"id": "C61", "title": "Stochastic volatility observations are evaluated as they are sampled", "statement": "The likelihood potential is, up to a constant independent of the state, the negative log density of independent Gaussians with variances v_i exp(x_i), and likelihood_sample draws from it.", "quantifier": "for every state, observation and likelihood covariance argument, including the default", "why_tests_cant": "The missing term depends on the state only; a fixed state hides it.", "anchors": ["mocat/src/ssm/scenarios/stochastic_volatility.py:StochasticVolatility"]}
{"id": "C62", "title": "Simulating a state-space model follows its recursion with unrelated keys", "statement": "simulate draws the first state from the initial law, every later state from the transition given the state just before it and the two times, every observation given the state of its time, and the 2T draws use pairwise unrelated random keys.", "quantifier": "for every number of times, times, samplers and key", "why_tests_cant": "Key reuse and an off-by-one between states, times and keys give plausible trajectories; only a statement over all T and all samplers rules them out.", "anchors": ["mocat/src/ssm/ssm.py:StateSpaceModel.simulate"]}
{"id": "C63", "title": "Value-and-gradient slots agree with the potentials", "statement": "After construction, each of initial/transition/likelihood _potential_and_grad returns the value of that potential and what the corresponding gradient attribute returns.", "quantifier": "for every model without gradients of its own, state, observation and time", "why_tests_cant": "The slots are set by name in the constructor and only some of them are called by the package's samplers.", "anchors": ["mocat/src/ssm/ssm.py:StateSpaceModel.__init__"]}
{"id": "C64", "title": "A particle filter records one observation per time", "statement": "After any number of steps the filter's record of observations has one row for each recorded time, equal to the observation used at that time.", "quantifier": "for every observation dimension, number of steps and entry point", "why_tests_cant": "Shapes depend on the number of steps and on the entry point used; a flattened record still has plausible numbers.", "anchors": ["mocat/src/ssm/filtering.py:propagate_particle_filter", "mocat/src/ssm/filtering.py:run_particle_filter_for_marginals"]}
{"id": "C65", "title": "Particle filter weights are importance weights", "statement": "Between resamplings the weight of every path times the density with which the filter proposed it equals the model's density of the path and its data (initial states drawn from the model), and the bootstrap filter's shortcut weight is that of its own proposal.", "quantifier": "for every model, proposal, number of particles and steps and random stream", "why_tests_cant": "A sign or a missing term in one of three potentials biases every estimate while runs look normal.", "anchors": ["mocat/src/ssm/filtering.py:ParticleFilter.intermediate_log_weight", "mocat/src/ssm/filtering.py:BootstrapFilter"]}
{"id": "C66", "title": "One valid bound at the end of a rejection round", "statement": "When rejection backward sampling ends, a single bound serves every target: each returned candidate either passed the test u <= density / bound with the density no larger than the bound, for its own uniform draw, or was drawn from the exact conditional weights with an unused key.", "quantifier": "for every number of candidates and targets, random stream, maximum number of rejections and inflation factor at least 1, when the given bound is positive or some candidate of the first round has positive density; for backward sampling and for stitching", "why_tests_cant": "The bound is raised during the loop at data-dependent rounds, and a candidate accepted under an old bound is only seen on particular streams.", "anchors": ["mocat/src/ssm/backward.py:rejection_proposal_all", "mocat/src/ssm/backward.py:rejection_resampling"]}
{"id": "C67", "title": "Simulated trajectories follow the transition", "statement": "Consecutive states of every trajectory returned by backward simulation have positive transition density.", "quantifier": "for every filter output with positive weights whose particles can be reached, every random stream with uniforms strictly between 0 and 1, and every setting of the rejection parameters", "why_tests_cant": "Needs a first round without any possible candidate.", "anchors": ["mocat/src/ssm/backward.py:backward_simulation", "mocat/src/ssm/backward.py:rejection_resampling"]}
{"id": "C68", "title": "Stitching weights are conditional smoothing weights", "statement": "Stitching without rejection picks the recent trajectory for early trajectory j with a key of its own, from weights equal to the recent weight times the transition density from the end of j, divided by the density the recent trajectory was extended with.", "quantifier": "for every number of particles, block lengths, weights and potentials", "why_tests_cant": "A wrong sign or a missing division still gives plausible trajectories; the error is only in their distribution.", "anchors": ["mocat/src/ssm/online_smoothing.py:full_stitch", "mocat/src/ssm/online_smoothing.py:fixed_lag_stitching"]}
{"id": "C69", "title": "The online smoother holds one row of states for each time", "statement": "After any number of updates the smoother records, for every time and observation, one row of n states.", "quantifier": "for every number of updates, lag, number of particles and random stream", "why_tests_cant": "Only small lags and particular lengths reach every branch.", "anchors": ["mocat/src/ssm/online_smoothing.py:propagate_particle_smoother_pf", "mocat/src/ssm/online_smoothing.py:propagate_particle_smoother_bs"]}
{"id": "C70", "title": "The online smoother uses the new observation", "statement": "After an update the particles are weighted by the likelihood of the new observation or were drawn according to it.", "quantifier": "for every lag, filter and random stream", "why_tests_cant": "Ignoring an observation leaves plausible particles.", "anchors": ["mocat/src/ssm/online_smoothing.py:propagate_particle_smoother_pf"]}
{"id": "C71", "title": "Proposals and stitching use different keys", "statement": "Within one update of the online smoother the keys used to propose new states, to simulate backwards and to stitch are distinct and none is split from another that is used.", "quantifier": "for every number of particles and lag", "why_tests_cant": "A reuse leaves output plausible; no sampled test detects the dependence.", "anchors": ["mocat/src/ssm/online_smoothing.py:propagate_particle_smoother_pf", "mocat/src/ssm/online_smoothing.py:propagate_particle_smoother_bs"]}
{"id": "C72", "title": "The kernelised Stein discrepancy ignores normalisation and labels", "statement": "With all indices, adding a constant to every log weight or relabelling the sample leaves the discrepancy unchanged.", "quantifier": "for every kernel, sample, gradients, log weights, constant and permutation", "why_tests_cant": "All permutations and shifts.", "anchors": ["mocat/src/metrics.py:ksd"]}
{"id": "C73", "title": "The kernelised Stein discrepancy is the square root of a number that is not negative", "statement": "For the Gaussian kernel the weighted double sum under the square root is not negative, so the discrepancy is a number.", "quantifier": "for every dimension, sample, gradients, weights and choice of batches", "why_tests_cant": "Needs positive definiteness of the Stein kernel; a test sees finitely many samples.", "anchors": ["mocat/src/metrics.py:ksd", "mocat/src/kernels.py:Gaussian"]}
{"id": "C74", "title": "Repulsions of SVGD cancel", "statement": "With the full batch and the Gaussian kernel the sum of the directions of all particles is minus the kernel-smoothed sum of the potential's gradients: pairwise repulsions cancel.", "quantifier": "for every dimension, bandwidth, ensemble and gradients", "why_tests_cant": "An identity over all ensembles.", "anchors": ["mocat/src/transport/svgd.py:kernelised_grad_matrix"]}
{"id": "C75", "title": "Autocorrelations are bounded and ignore location and scale", "statement": "Every finite autocorrelation returned is between -1 and 1, the first is 1, and an affine change of the series changes nothing.", "quantifier": "for every series, maximum lag, non-zero scale and offset", "why_tests_cant": "All series, also those that wrap around in the transform.", "anchors": ["mocat/src/metrics.py:autocorrelation"]}
{"id": "C76", "title": "The integrated autocorrelation time is summed up to the first lag exceeding five times it", "statement": "integrated_autocorrelation_time returns one plus twice the sum of autocorrelations up to the given lag, or up to the first lag larger than five times the time so far, or up to the last lag if there is none.", "quantifier": "for every series and maximum lag", "why_tests_cant": "Depends on which lag first satisfies an inequality.", "anchors": ["mocat/src/metrics.py:integrated_autocorrelation_time"]}
{"id": "C77", "title": "The effective sample size is between zero and the length", "statement": "ess_autocorrelation is positive, finite and at most the length of the series.", "quantifier": "for every non-constant series", "why_tests_cant": "Only particular correlation signs break it.", "anchors": ["mocat/src/metrics.py:ess_autocorrelation"]}
{"id": "C78", "title": "Squared jumping distance and lag-one autocorrelation agree", "statement": "The number of jumps times the mean squared jump is twice the lag-0 minus lag-1 sums, less the squared deviations of the end points.", "quantifier": "for every series of length at least two", "why_tests_cant": "An identity between two metrics over all series.", "anchors": ["mocat/src/metrics.py:squared_jumping_distance"]}
{"id": "C79", "title": "The matrices regularised in ensemble Kalman inversion are positive definite", "statement": "With a positive nugget, every matrix that an update inverts or factorises (the particles' covariance, the conditional covariance of the data and the tempered covariance, each plus the nugget) is positive definite, so the inverses are inverses, the Cholesky factor exists and the gain solves its equation; the covariances are the unbiased sample covariances and the conditional covariance is positive semi-definite.", "quantifier": "for every ensemble of every size and dimension, also with fewer particles than dimensions, every positive nugget and every step with alph at least zero", "why_tests_cant": "Rank-deficient ensembles are measure-zero in random tests.", "anchors": ["mocat/src/transport/teki.py:TemperedEKI.update", "mocat/src/transport/teki.py:calculate_covariances"]}
{"id": "C80", "title": "Ensemble Kalman inversion is exact for linear Gaussian models", "statement": "If at each update the simulated data are linear in the particles with exact sample moments of the noise and standardised perturbations, and the nugget is zero, then after any number of updates the sample mean and covariance are those of the Gaussian posterior at the temperature reached, whatever the temperature steps.", "quantifier": "for every linear model, dimension, ensemble, number of updates and temperatures", "why_tests_cant": "Equality of moments needs exact arithmetic and all step sequences.", "anchors": ["mocat/src/transport/teki.py:TemperedEKI.update"]}
{"id": "C81", "title": "Temperatures of ensemble Kalman inversion increase and end exactly at the maximum", "statement": "Without a schedule the temperatures start at 0, strictly increase, each by at most 1, and the last one is the maximum temperature; the adaptive rule always moves strictly towards the maximum, never beyond it, and either reaches it or has an effective sample size within the tolerance of its threshold.", "quantifier": "for every ensemble, data, threshold, tolerance and number of updates", "why_tests_cant": "All ensembles and iteration counts; ties and equal likelihoods are edge cases.", "anchors": ["mocat/src/transport/teki.py:TemperedEKI.startup", "mocat/src/transport/teki.py:AdaptiveTemperedEKI.next_temperature"]}
{"id": "C82", "title": "The taper matrix is positive semi-definite", "statement": "The quadratic form of the taper matrix is non-negative, so that the elementwise product with a covariance is a covariance.", "quantifier": "for every dimension, positive radius and vector", "why_tests_cant": "All dimensions, radii and vectors; random vectors rarely hit the negative direction.", "anchors": ["mocat/src/utils.py:gc_matrix"]}
{"id": "C83", "title": "Lorenz-96 trajectories are bounded", "statement": "Along every solution of the coded equations the squared norm approaches the ball of squared radius dimension times squared forcing at least exponentially with rate one; the ball is never left.", "quantifier": "for every dimension, forcing and exact trajectory", "why_tests_cant": "All dimensions, all times.", "anchors": ["mocat/src/ssm/scenarios/lorenz96.py:lorenz96_dynamics"]}
{"id": "C84", "title": "The Lorenz-63 field has its symmetry, contraction, equilibria and trapping ball", "statement": "Changing the sign of the first two coordinates commutes with the field; its divergence is minus sigma + 1 + beta; with positive parameters its zeros are the origin and the two points with x = y, z = rho - 1, x^2 = beta (rho - 1); every solution of the coded equations is bounded by the stated exponential.", "quantifier": "for every parameter, state and exact trajectory", "why_tests_cant": "All states and all times.", "anchors": ["mocat/src/ssm/scenarios/lorenz63.py:lorenz63_dynamics"]}
{"id": "C85", "title": "The predator-prey simulator returns the counts in force at the requested times", "statement": "Every step is a birth, predation or death chosen in proportion to its rate after an exponential waiting time; the simulator returns, for each requested time, the non-negative counts in force then in one such trajectory.", "quantifier": "for every positive rate, initial count, requested time and random stream", "why_tests_cant": "All trajectories, and the reads of the padded stack.", "anchors": ["mocat/src/abc/scenarios/lotka_volterra.py:lotka_volterra_single_step", "mocat/src/abc/scenarios/lotka_volterra.py:lotka_volterra_simulate"]}
{"id": "C86", "title": "The exponential rate priors sample and score the same distribution", "statement": "A prior draw is the exponential quantile of its uniform, lies in the support, and the transformed potential is that of the logarithm of the exponential variable.", "quantifier": "for every rate and uniform", "why_tests_cant": "Rare uniforms near one.", "anchors": ["mocat/src/abc/scenarios/SIR.py:SIR.prior_sample", "mocat/src/abc/scenarios/SIR.py:TransformedSIR.prior_potential", "mocat/src/abc/scenarios/lotka_volterra.py:LotkaVolterra.prior_sample"]}
{"id": "C87", "title": "The Ricker simulator follows its map and stays bounded", "statement": "The simulated sizes start at the initial size and follow the noisy Ricker map with one key per step; they stay non-negative and below r exp(sd z - 1); observations are non-negative, one per index, and use a separate key.", "quantifier": "for every parameter, number of steps and random stream", "why_tests_cant": "All trajectories.", "anchors": ["mocat/src/abc/scenarios/ricker.py:ricker_simulate", "mocat/src/abc/scenarios/ricker.py:Ricker.likelihood_sample"]}
{"id": "C88", "title": "The g-and-k scenarios sample the g-and-k family", "statement": "Observations are g-and-k quantiles of their uniforms, strictly increasing in them; the one-parameter scenarios are the same family with their stored B, g and k; the prior potential is finite exactly in the box and prior draws lie in it; the transformed scenario is the same model in transformed coordinates.", "quantifier": "for every parameter and uniform, |c| at most 0.8 for monotonicity", "why_tests_cant": "All real parameters and uniforms.", "anchors": ["mocat/src/abc/scenarios/gk.py:GKUniformPrior", "mocat/src/abc/scenarios/gk.py:GKTransformedUniformPrior", "mocat/src/abc/scenarios/gk.py:GKOnlyAUniformPrior", "mocat/src/abc/scenarios/gk.py:GKOnlyATransformedUniformPrior"]}
{"id": "C89", "title": "Optimal particle filter proposes from the conditional law", "statement": "For a nonlinear Gaussian model the optimal particle filter draws each new state from the law of the state given the previous state of the particle and the new observation, its covariance being the same for all particles; the log weight is the log density of the observation given the previous state whatever state was drawn; the vectorised method agrees with the methods for one particle; each step of a run resamples exactly when the effective sample size is below the threshold and then applies this proposal; and proposal_potential is the negative log density of that proposal.", "quantifier": "all dimensions, transition functions, positive definite matrix covariances, observation matrices, particles, times, observations, draws, thresholds and run lengths", "why_tests_cant": "The law is a statement about all states and draws; tests see finitely many draws and cannot compare a Gaussian density with a sampler.", "anchors": ["mocat/src/ssm/nonlinear_gaussian.py:134-281", "mocat/src/ssm/filtering.py:255-324", "mocat/src/utils.py:476-484"]}
{"id": "C90", "title": "Initial particles of the nonlinear Gaussian filters follow the law given the first observation", "statement": "The optimal particle filter and the ensemble Kalman filter draw their first particles from the law of the initial state given the first observation, the initial potential is the negative log density of that law, and the matrix that is factorised is positive definite.", "quantifier": "all dimensions, positive definite initial and observation covariances, observation matrices, observations and draws", "why_tests_cant": "Only the mean can be checked with a few particles; a wrong covariance factor shows only for non-diagonal covariances.", "anchors": ["mocat/src/ssm/nonlinear_gaussian.py:154-224", "mocat/src/ssm/nonlinear_gaussian.py:297-323"]}
{"id": "C91", "title": "Ensemble Kalman filter is the Kalman filter on sample moments", "statement": "The analysis of the ensemble Kalman filter uses the gain of the sample covariance of the forecast, moves every particle within the span of the deviations and moves the mean by the gain times the mean innovation; a run never resamples for thresholds up to 1, keeps zero log weights and full effective sample size, and takes all draws from different keys. For linear transitions, when the draws have the sample moments of the standard normal law, the sample mean and covariance are those of the exact filtering law at every step; and for runs with more and more particles, whose draws have sample moments that tend to those of independent standard normal draws, the sample mean and covariance of the run tend to those of the exact filtering law at every step.", "quantifier": "all ensembles of at least two particles, dimensions, observation matrices, positive definite covariances (diagonal initial and observation covariances for the initial ensemble, see C90), transition functions, observation sequences of any length and draws", "why_tests_cant": "The identity between sample moments and the filtering law holds only under exact moment conditions that random tests never meet.", "anchors": ["mocat/src/ssm/nonlinear_gaussian.py:284-350", "mocat/src/ssm/filtering.py:173-324", "mocat/src/utils.py:476-484"]}
{"id": "C92", "title": "A run of SVGD moves against the Stein direction with fresh keys", "statement": "A run has max_iter + 1 states and starts at the given (or prior-drawn) particles; every state holds the potential and gradient at its own particles, evaluated with keys that are never used twice, nor for a batch, nor for the initial draws; each move is one optimiser step against the averaged Stein direction of the previous state; the default bandwidth is the mean pairwise distance over sqrt(2 ln n) and positive.", "quantifier": "all numbers of particles, optimisers, kernels, adaptations, batches, potentials, initial values, keys and run lengths", "why_tests_cant": "Key reuse and off-by-one states show no failure in single runs; the bandwidth fails only for degenerate ensembles.", "anchors": ["mocat/src/transport/svgd.py:35-146", "mocat/src/transport/sampler.py:15-51", "mocat/src/sample.py:110-148"]}
{"id": "C93", "title": "AdaGrad moves in SVGD are bounded by the step size", "statement": "Each entry follows AdaGrad with momentum on its own; a move is at most the step size times 1 - momentum^t whatever the gradients; entries with zero gradients never move and the unit of the gradients does not matter; in a default SVGD run every coordinate obeys these bounds and the first move is a tenth of the step size along the sign of the Stein direction.", "quantifier": "all gradients, potentials, step size schedules, particles and run lengths", "why_tests_cant": "A bound for all gradients, including extreme ones.", "anchors": ["mocat/src/transport/svgd.py:42-146"]}
{"id": "C94", "title": "Default SVGD runs are equivariant", "statement": "Relabelling the particles, moving the origin and changing the unit of the space (step size in the new unit, gradients divided by it) transform every state of a default SVGD run in the same way.", "quantifier": "all permutations, shifts, positive units, potentials that do not use their key, step size schedules, initial ensembles and run lengths", "why_tests_cant": "A relation between two whole runs for all transformations.", "anchors": ["mocat/src/transport/svgd.py:18-146", "mocat/src/kernels.py:226-229"]}
{"id": "C95", "title": "A run of ensemble Kalman inversion simulates from its own particles and stops at the first stopping state", "statement": "A run starts at the given particles with temperature zero; the simulated data of every state are drawn from that state's particles with keys used once and never for the perturbations; every next ensemble is the perturbed-observation analysis of the previous one for the change of temperature, by sample moments; the run ends at the first state that reached the maximal temperature or iteration count or collapsed in every coordinate.", "quantifier": "all numbers of particles above one, dimensions, likelihoods, data, nuggets above zero, temperature rules, keys, thresholds and run lengths", "why_tests_cant": "Simulating from stale particles or stopping one state late looks plausible in any single run.", "anchors": ["mocat/src/transport/teki.py:69-150", "mocat/src/sample.py:110-148"]}
{"id": "C96", "title": "Toy potentials are the densities they are named after", "statement": "The double well has least value -d/4 exactly at the points with all coordinates plus or minus one, gradient x^3 - x, and does not depend on signs or order of the coordinates. Rastrigin (non-negative amplitude) lies between the paraboloid and the paraboloid plus 2 a d, is zero exactly at the origin and equals the paraboloid on integer points. The banana is the standard normal potential through a bijection of the plane with constant Jacobian. Neal's funnel is the joint density of x1 ~ N(0,3), x0 | x1 ~ N(0, exp(x1/2)) up to a constant.", "quantifier": "for all dimensions, points, amplitudes, curvatures and positive length scales", "why_tests_cant": "tests evaluate a potential at a few points; they do not show where all minima are or which law the density belongs to", "anchors": ["mocat/src/scenarios/toy_examples.py:119-149", "mocat/src/scenarios/twodim/toy_examples.py:28-45"]}
{"id": "C97", "title": "The one-dimensional benchmark state space model", "statement": "The potentials of the initial, transition and observation laws are the negative log densities of the laws sampled by the corresponding samplers; simulated paths stay within 41 + 2 b sd of zero (plus a geometrically vanishing part of the start) when the draws are bounded by b; the likelihood ignores the sign of the state and the transition mean is odd apart from its periodic forcing of period 5 pi / 3.", "quantifier": "for all standard deviations, times, states, observations and draws, and paths of any length", "why_tests_cant": "paths of all lengths and all noise sequences cannot be enumerated", "anchors": ["mocat/src/ssm/scenarios/nonlinear1d.py:12-81", "mocat/src/utils.py:49-105"]}
{"id": "C98", "title": "The linear Gaussian inverse problem for ABC", "statement": "The prior and likelihood samplers draw from N(m, P) and N(H x, V); the potentials are the negative log densities of these laws, so that their sum is the potential of the exact posterior up to the evidence; the distance is zero exactly when the data is met; and the constructor finds the dimension.", "quantifier": "for all means, covariances, observation matrices, data and points, in all dimensions", "why_tests_cant": "the laws are continuous: agreement of density and sampler is a statement about all points and all draws", "anchors": ["mocat/src/abc/scenarios/linear_gaussian.py:16-88", "mocat/src/utils.py:240-262", "mocat/src/abc/abc.py:36-38"]}
{"id": "C99", "title": "Automatic axes limits for two-dimensional scenarios", "statement": "When the search returns, the limits contain every grid point whose density exceeds a tenth of the grid maximum, lie strictly inside the grid, and are attained by such points; it returns at once when the border of the grid has low density; it returns for every density; the returned limits include a margin.", "quantifier": "for all non-negative densities, grid sizes of at least two points and positive starting limits, all recursion depths", "why_tests_cant": "termination and containment are claims over all densities and recursion depths", "anchors": ["mocat/src/scenarios/twodim/vectorise.py:18-89"]}
{"id": "C100", "title": "The quasi-Newton memory and the approximation made from it", "statement": "The memory of the quasi-Newton sampler holds the last m visited states in order, behind unfilled rows while there are fewer; pairs with an unfilled row are never used; the Hessian approximation is the one of the visited states alone, at the temperature of the call; with sort_bfgs it is the one of the same states in the order of their potentials.", "quantifier": "for all memory lengths, sequences of visited states with finite gradients, temperatures, dampings and initial diagonals, in all dimensions", "why_tests_cant": "the states visited, their number against the memory length and their order are unbounded inputs; runs with the default memory of thirty never look at the first pairs", "anchors": ["mocat/src/mcmc/qn_underdamped.py:72-133", "mocat/src/utils.py:318-372"]}
{"id": "C101", "title": "The SMC normalising-constant estimate is unbiased", "statement": "With a fixed temperature schedule, particles drawn from the prior, categorical resampling on the recorded weights whenever the effective sample size is below the threshold, and inner moves by a kernel that leaves the tempered density of the current temperature invariant, the expected value of exp(log_norm_constant) after J updates is the mass of the tempered density at the J-th temperature divided by the mass of the prior density; with a test function, exp(log_norm_constant) times the weighted average over the particles has expected value the unnormalised integral of that function divided by the prior mass.", "quantifier": "for all numbers of particles, numbers of updates, positive temperature schedules, resampling thresholds, real prior and likelihood potentials, finite supports, kernels with rows summing to one that leave the tempered densities invariant, and test functions", "why_tests_cant": "unbiasedness is an average over all draws of all particles and steps; a run gives one draw, and a wrong order of resampling, weighting and moving gives a bias of the size of the Monte Carlo error", "anchors": ["mocat/src/transport/smc.py:61-99", "mocat/src/transport/smc.py:193-225", "mocat/src/transport/smc.py:337-373"]}
{"id": "C102", "title": "Particle filters are properly weighted", "statement": "When the initial states, the resampling indices and the proposals are drawn independently given the past from the initial law, the categorical law of the recorded weights and the proposal law, the evidence computed from the recorded log weights and effective sample sizes (mean first weight, then sums of new weights over sums of the weights each step started from) has expected value the likelihood of the observations by the forward recursion; times the weighted average of a test function at the last time it has expected value the unnormalised filtering expectation.", "quantifier": "for all finite hidden Markov models with real potentials, normalised proposals (bootstrap included), numbers of particles, thresholds, numbers of observations, times and test functions", "why_tests_cant": "unbiasedness is an average over all draws of all particles and times; a run gives one draw, and forgetting to reset or to carry over weights gives errors that look like Monte Carlo error", "anchors": ["mocat/src/ssm/filtering.py:42-78", "mocat/src/ssm/filtering.py:98-139", "mocat/src/ssm/filtering.py:173-199", "mocat/src/ssm/filtering.py:280-311"]}
{"id": "C103", "title": "ABC-MCMC leaves the ABC posterior invariant", "statement": "A step of RandomWalkABC (even noise scaled by the square root of the stepsizes, data simulated at the proposed parameter, Metropolis acceptance of the prior ratio times the ball indicator) satisfies detailed balance for prior times likelihood times ball indicator on (parameter, data) pairs, so any number of steps leaves that law invariant and the parameter keeps the ABC posterior, prior times the probability that simulated data fall in the ball.", "quantifier": "for all finite sets of parameters and data, prior potentials (finite or +inf), likelihoods, distances, thresholds, even noise laws, positive stepsizes and numbers of steps", "why_tests_cant": "invariance is an identity between laws on all states; a chain's histogram cannot tell a slightly wrong acceptance from slow mixing", "anchors": ["mocat/src/abc/mcmc.py:56-76", "mocat/src/mcmc/metropolis.py:48-70"]}
{"id": "C104", "title": "Underdamped proposals preserve volume", "statement": "The map from (position, momenta) to the proposed (position, momenta), any number of leapfrog steps followed by a momentum flip, has a Frechet derivative everywhere whose determinant is 1 or -1, plain and quasi-Newton (for any memory), so that no Jacobian factor is missing from the acceptance probability.", "quantifier": "for all dimensions, numbers of steps, stepsizes, temperatures, memories, initial factors and deterministic targets with differentiable gradient", "why_tests_cant": "a determinant of the derivative of a composed map at every point; finite differences on examples cannot see a factor that differs from one elsewhere", "anchors": ["mocat/src/utils.py:108-156", "mocat/src/mcmc/standard_mcmc.py:125-143", "mocat/src/mcmc/qn_underdamped.py:168-199", "mocat/src/mcmc/qn_underdamped.py:226-261"]}
{"id": "C105", "title": "Quasi-Newton moves are undone by the sampler's own reverse move", "statement": "Starting from the proposed state with the memory the sampler would have there (the arrived state appended), the quasi-Newton proposal returns to the starting state and the two acceptance probabilities balance the densities.", "quantifier": "for all targets, memories, numbers of steps and momenta", "why_tests_cant": "needs all memories; the chain looks healthy whether or not its moves are reversible", "anchors": ["mocat/src/mcmc/qn_underdamped.py:106-166", "mocat/src/mcmc/qn_underdamped.py:168-223"]}
{"id": "C106", "title": "Refreshing the momenta keeps the Gaussian of the current memory", "statement": "If the momenta have the Gaussian law of the memory before the update, the refreshed momenta have the covariance of the memory after it, for which the acceptance probability is made.", "quantifier": "for all dimensions, memories, frictions, stepsizes and standardised independent draws", "why_tests_cant": "a statement about the law of the momenta after each change of the memory", "anchors": ["mocat/src/mcmc/qn_underdamped.py:135-166"]}
{"id": "C107", "title": "Backward simulation draws from the smoothing law", "statement": "The trajectories returned by backward simulation are independent draws from the forward-filtering backward-sampling law: last state by its weight, each earlier particle by weight times transition density to the state chosen after it. This holds for full resampling and for rejection resampling with any number of allowed rejections.", "quantifier": "for all state-space models with finite potentials, filter outputs, numbers of trajectories, allowed rejections, bounds, keys and samplers of the right law", "why_tests_cant": "a statement about the probability law of the output, over all random streams", "anchors": ["mocat/src/ssm/backward.py:92-171", "mocat/src/ssm/backward.py:175-270"]}
{"id": "C108", "title": "Random-walk runs are Metropolis chains that keep the target", "statement": "The points and potentials recorded by a run of the random-walk sampler are a Markov chain with the Metropolis kernel: symmetric steps, one evaluation of the potential per proposal, acceptance probability min(1, ratio). Started from the target, every recorded state has the law of the target; with a random potential, of its expected density.", "quantifier": "for all random streams with independent values at distinct keys, potentials (random or not, infinite allowed), stepsizes, starting points, keys and numbers of samples; finite supports", "why_tests_cant": "a statement about the joint law of the whole output; reuse of a key would change it without changing any single draw", "anchors": ["mocat/src/mcmc/sampler.py:32-61", "mocat/src/mcmc/sampler.py:92-111", "mocat/src/mcmc/metropolis.py:48-70", "mocat/src/mcmc/standard_mcmc.py:31-65"]}
{"id": "C109", "title": "ABC-MCMC runs are Metropolis chains that keep the ABC posterior", "statement": "The parameters, prior potentials and data recorded by a run of random-walk ABC are a Markov chain with the ABC Metropolis kernel. Started from the ABC posterior, every recorded state has that law.", "quantifier": "for all random streams with independent values at distinct keys, prior potentials, simulators, distances, thresholds, vector stepsizes, starting points, keys and numbers of samples; finite supports", "why_tests_cant": "a statement about the joint law of the whole output, over simulated data as well", "anchors": ["mocat/src/abc/mcmc.py:15-76", "mocat/src/abc/abc.py:43-63"]}
{"id": "C110", "title": "An SMC run from one key gives unbiased normalising constants", "statement": "In a tempered SMC run with random-walk Metropolis moves, computed from one random key, every recorded normalising constant is an unbiased estimate of the ratio of normalising constants at its temperature. The same holds for weighted averages of any function.", "quantifier": "for all random streams with independent values at distinct keys, prior and likelihood potentials on a finite support, increasing temperature schedules, numbers of particles and inner steps, stepsizes, resampling thresholds and keys", "why_tests_cant": "an expected value over all streams; a key used twice anywhere in startup, resampling or moves would bias it without any failing run", "anchors": ["mocat/src/transport/smc.py:61-99", "mocat/src/transport/smc.py:128-225", "mocat/src/transport/smc.py:267-373", "mocat/src/transport/sampler.py:22-33", "mocat/src/mcmc/standard_mcmc.py"]}
{"id": "C111", "title": "A particle filter computed from one key is unbiased", "statement": "Over the random streams, the evidence read off the output of run_particle_filter_for_marginals (mean weight at the first time, then sums of new weights over sums of the weights each step started from) has expected value the likelihood of the observations; times the weighted average of a test function at the last time it has expected value the unnormalised filtering expectation. The initial states, the resampling indices and the proposals are those the code computes from the keys it splits from its one key.", "quantifier": "for all finite hidden Markov models with real potentials, normalised proposals (bootstrap included), samplers of the right law, numbers of particles, thresholds, data, keys and test functions", "why_tests_cant": "a statement about the law of the output over all random streams; a key used for two draws that must be independent leaves every single run plausible", "anchors": ["mocat/src/ssm/filtering.py:173-199", "mocat/src/ssm/filtering.py:255-324"]}
{"id": "C112", "title": "Filtering and backward simulation from one key are properly weighted for the smoothing law", "statement": "Over the random streams, the evidence of the filter that forward_filtering_backward_simulation runs, times the average of a function of whole trajectories over the trajectories it returns, has expected value the unnormalised smoothing expectation of that function (initial density times transition densities times likelihoods, summed over paths). The filter and the simulation use the two keys split from the one key given.", "quantifier": "for all finite hidden Markov models with real potentials, normalised proposals (bootstrap included), samplers of the right law, numbers of particles and trajectories, thresholds, data, keys, functions of trajectories; full backward resampling, or rejection with any number of rounds and a bound at least every transition density", "why_tests_cant": "a statement about the law of the output over all random streams, for every number of particles; a wrong backward weight or a reused key changes only the law", "anchors": ["mocat/src/ssm/backward.py:273-315", "mocat/src/ssm/backward.py:20-270", "mocat/src/ssm/filtering.py:255-324"]}
{"id": "C113", "title": "Importance-sampling ABC estimates the ABC posterior", "statement": "The samples of a run are independent draws from proposal and simulator, and over the random streams the average of weight times a test function has expected value the unnormalised ABC posterior expectation (prior times probability of data within the threshold), for rejection ABC and for any proposal with its potential.", "quantifier": "for all finite priors, proposals and simulator laws, distances, thresholds, numbers of samples, keys and test functions", "why_tests_cant": "a bias of one sample among many is invisible in any run", "anchors": ["mocat/src/abc/importance.py:14-121", "mocat/src/abc/abc.py:43-63"]}
{"id": "C114", "title": "An ABC-SMC run is properly weighted for the ABC posterior", "statement": "Over the random streams, the product of the shares of particles that survive each threshold, times the average of a test function over the survivors at any recorded ensemble, has expected value the prior expectation of the test function on simulated data within that threshold; in particular the product of the shares is an unbiased estimate of the probability of meeting the threshold.", "quantifier": "for all finite priors, simulator laws, distances, non-increasing threshold schedules, numbers of particles and of inner steps, resampling thresholds, keys, recorded ensembles and test functions, with a step size that is not adapted and without early termination", "why_tests_cant": "a bias of the estimate is not visible in any one run and small beside its variance", "anchors": ["mocat/src/abc/smc.py:24-245", "mocat/src/transport/smc.py:23-99", "mocat/src/transport/sampler.py:22-33", "mocat/src/abc/mcmc.py:26-76"]}
{"id": "C115", "title": "Underdamped runs are Hamiltonian Monte Carlo chains that keep exp(-energy)", "statement": "The positions and momenta recorded by a run of the underdamped sampler with the Metropolis correction are a Markov chain with the Hamiltonian Monte Carlo kernel: momenta reversed, damped and refreshed, a leapfrog trajectory with reversed final momenta, acceptance probability min(1, exp(energy difference)). Started from the law proportional to exp(-energy), every recorded point has that law; the gradient need not be that of the potential.", "quantifier": "for all random streams with independent values at distinct keys, potentials and gradients without noise (infinite potentials allowed), temperatures, stepsizes, frictions (also infinite), leapfrog lengths, dimensions, starting points with or without momenta, keys and numbers of samples; finite supports, and for the second part any reference measure that the trajectory map and the refreshment keep", "why_tests_cant": "a statement about the joint law of the whole output; an omitted reversal of the momenta or a reused key changes it without changing any single draw", "anchors": ["mocat/src/mcmc/standard_mcmc.py:86-153", "mocat/src/utils.py:108-156", "mocat/src/mcmc/sampler.py:32-61", "mocat/src/mcmc/sampler.py:92-111", "mocat/src/mcmc/metropolis.py:48-70"]}
{"id": "C116", "title": "Underdamped with infinite friction and one leapfrog step is the Metropolis-adjusted Langevin algorithm", "statement": "With infinite friction and one leapfrog step the positions recorded by the underdamped sampler are by themselves a Markov chain: an Euler step of the overdamped Langevin diffusion, accepted with the Metropolis-Hastings probability of its Gaussian proposal density. Started from the target, every recorded position has the law of the target.", "quantifier": "for all random streams with independent values at distinct keys, potentials and gradients without noise, temperatures, non-zero stepsizes, dimensions, starting points with or without momenta, keys and numbers of samples; finite supports, and for the second part proposals whose masses on the support are proportional to the Gaussian density", "why_tests_cant": "the claim is a comment in the source; the two algorithms compute their acceptance probabilities from different quantities", "anchors": ["mocat/src/mcmc/standard_mcmc.py:68-153", "mocat/src/utils.py:108-156", "mocat/src/mcmc/sampler.py:32-61", "mocat/src/mcmc/sampler.py:92-111", "mocat/src/mcmc/metropolis.py:48-70"]}
{"id": "C117", "title": "Propagated particles are properly weighted paths", "statement": "When a particle filter is propagated observation by observation with resample_full (the default), the column of each particle is a whole path, and evidence times the weighted average of any function of the path has as expected value the sum of that function over all paths against the joint density of initial state, transitions and likelihoods.", "quantifier": "for every finite model with real potentials, proposal with a normalised potential or bootstrap filter, number of particles, threshold, number of observations, list of unrelated keys and function of the path", "why_tests_cant": "The claim is about an average over all random streams for every function of the path; a run sees one stream, and resampling the wrong rows of the history changes only correlations between times.", "anchors": ["mocat/src/ssm/filtering.py:202-217", "mocat/src/ssm/filtering.py:220-252"]}
{"id": "C118", "title": "Adapted random-walk runs have the law of the Robbins-Monro chain and keep their target once adaptation stops", "statement": "A run of RandomWalk with RMMetropolis, recorded as (stepsize, point, potential), has the law of the Markov chain on (iteration, stepsize, point, potential) whose step proposes from the current stepsize, accepts with the Metropolis probability a of the sampler's own potential evaluation, and then, if the iteration is at most the cut-off, moves the stepsize (or its log) by scale * iteration^-power * (a - target); it starts from the stepsize given, or 2.38^2/dim. After the cut-off the rest of the run is a RandomWalk run with the stepsize reached and its kernel keeps exp(-potential). The full claim, that a run started from its target keeps it at every iteration, is false while the stepsize adapts: for every acceptance target in (0,1), scale > 0, exponent and cut-off >= 1 (the defaults included), a run started from a two-point target has left it after two steps.", "quantifier": "every law of the random stream, potential (with fresh noise per evaluation), starting rule, stepsize given or defaulted, dimension, log or plain update, scale, power, target, cut-off and number of iterations; the uniform draws need to be right only at acceptance probabilities the run can meet", "why_tests_cant": "Needs the joint law of a whole adapted trajectory with stepsizes depending on earlier acceptance probabilities; a bias of adapted chains is far below the noise of a test run", "anchors": ["mocat/src/mcmc/metropolis.py:73-161", "mocat/src/mcmc/standard_mcmc.py:19-65", "mocat/src/mcmc/sampler.py:32-61", "mocat/src/mcmc/sampler.py:92-111"]}
{"id": "C119", "title": "SMC runs moved by Underdamped are unbiased", "statement": "A tempered SMC run computed from one key, with Underdamped (infinite friction, its default) and Metropolis as inner sampler, records unbiased estimates: at every temperature of the schedule, the expected value over the random stream of the recorded normalising constant, and of that constant times the weighted average of any function, are the ratio of the tempered to the prior normalising constant and the tempered integral over the prior one. Gradients and momenta carried by the particles from one update to the next do not disturb this.", "quantifier": "every number of particles, of inner steps and of leapfrog steps, stepsize, resampling threshold, increasing positive schedule, prior with finitely many support points (proposals may leave it), finite likelihood, and law of the random stream whose momenta are canonical for the trajectories (with exp(-energy) as density with respect to a measure the trajectories keep) and whose uniform and categorical draws are right where the run can meet them", "why_tests_cant": "An expected value over all keys of a run of random length and resampling history; a wrong gradient, momentum or temperature passed to the inner sampler shifts it by less than the noise of a test run", "anchors": ["mocat/src/transport/smc.py:61-99", "mocat/src/transport/smc.py:267-296", "mocat/src/transport/smc.py:337-373", "mocat/src/mcmc/standard_mcmc.py:72-153"]}
{"id": "C120", "title": "Stitched trajectories have the law of their stitching weights", "statement": "The trajectories returned by fixed-lag stitching are the early trajectories, each independently continued by one recent trajectory, drawn by weight times the transition density from its own end divided by the transition density the recent trajectory was made with. This holds without rejection and with rejection for any number of allowed rejections.", "quantifier": "for all state-space models with potentials finite along the recent trajectories, numbers of trajectories, block lengths, weights, allowed rejections, bounds, keys and samplers of the right law", "why_tests_cant": "A statement about the joint law of all trajectories for every model and every number of rejection rounds; tests see one seed and cannot tell the rejection law from the right one.", "anchors": ["mocat/src/ssm/online_smoothing.py:21", "mocat/src/ssm/online_smoothing.py:129", "mocat/src/ssm/online_smoothing.py:178"]}
{"id": "C121", "title": "One update of the online smoother with backward simulation has the law of its steps", "statement": "After one observation, online smoothing with backward simulation leaves trajectories, filter particles and filter weights with this joint law: the filter makes one step (resampling only below the threshold, then independent proposals, then the weights multiplied by those of the moves); given the filter, as many trajectories as before are drawn backwards through the last lag times; given those, every old trajectory up to the stitching time is independently continued by one of them with its stitching weight. When fewer times than the lag have passed, the trajectories are drawn backwards through all times.", "quantifier": "for all filters with finite weight increments, finite transition potentials, numbers of filter particles and times, positive lags, thresholds, keys and samplers of the right law where they are used; without rejection and a number of trajectories other than four (there two draws share a key, C71), or with any number of rejection rounds and a valid bound", "why_tests_cant": "It is the joint law of three kinds of draws with keys split in several places for every model and lag; a test sees single seeds, and dependence between draws made from related keys is invisible in any of them.", "anchors": ["mocat/src/ssm/online_smoothing.py:284", "mocat/src/ssm/online_smoothing.py:21", "mocat/src/ssm/filtering.py:220"]}
{"id": "C122", "title": "Particle filter estimates converge at rate one over the number of particles", "statement": "For a run of run_particle_filter_for_marginals with n particles and positive ESS threshold, over the random streams: the run never raises, the expected squared difference between evidence times weighted average and the unnormalised filtering expectation is at most (steps + 1)(b^(steps + 1) B)^2 / (min(1, threshold) n), and the expected squared difference between the weighted average at the last time and the filtering expectation is at most four times that over the squared likelihood; b bounds the weights and B the test function.", "quantifier": "For every number of particles, threshold, data, key, bounded test function and bounded weights; base-class filter with any normalised proposal and bootstrap filter.", "why_tests_cant": "A statement about the mean over all random streams for every n; any tolerance used in a sampling test must be chosen from a bound like this one, and a resampling bug that only inflates the variance passes tests of the mean.", "anchors": ["mocat/src/ssm/filtering.py:173-199", "mocat/src/ssm/filtering.py:255-324"]}
{"id": "C123", "title": "SMC estimates converge at rate one over the number of particles", "statement": "For a tempered SMC run with n particles and positive resampling threshold, moved by random-walk Metropolis or by Underdamped, over the random streams: at position J of the schedule the expected squared error of the recorded constant times the weighted average of a function bounded by B is at most c = (J + 1)(exp(m t_J) B)^2 / (min(1, threshold) n), and that of the weighted average itself is at most 4 c over the squared ratio of normalising constants; -m bounds the likelihood potential from below.", "quantifier": "for all random streams with independent values at distinct keys, prior and likelihood potentials on a finite support, nondecreasing temperature schedules, numbers of particles and inner steps, stepsizes, thresholds, bounded functions and keys", "why_tests_cant": "a statement about the mean over all random streams for every n; a bug that only makes the particles dependent or skips resampling passes tests of the mean", "anchors": ["mocat/src/transport/smc.py:61-99", "mocat/src/transport/smc.py:128-225", "mocat/src/transport/smc.py:267-373", "mocat/src/transport/sampler.py:22-33"]}
{"id": "C124", "title": "Ensemble Kalman inversion tends to the exact posterior", "statement": "For a linear model with Gaussian noise and a schedule of temperatures that starts at 0 and grows by at most 1 in each step, runs of ensemble Kalman inversion with more and more particles and nuggets tending to 0 make exactly one update for each temperature, and at every temperature the sample mean and covariance of the ensemble tend to those of the Gaussian posterior at that temperature, when the sample moments of the initial ensemble tend to those of the prior and those of the draws to those of independent standard normal draws; all draws come from different keys.", "quantifier": "all dimensions, observation matrices, positive definite noise and prior covariances, data, schedules of any length, sequences of numbers of particles of at least two, sequences of positive nuggets tending to 0, initial ensembles and draws with the stated limits", "why_tests_cant": "A test sees one finite ensemble with random error; that the error vanishes in the limit for every schedule and model is not observable.", "anchors": ["mocat/src/transport/teki.py:19-35", "mocat/src/transport/teki.py:56-148", "mocat/src/sample.py:90-148"]}
{"id": "C125", "title": "Importance-sampling ABC estimates converge at rate one over the number of samples", "statement": "For rejection ABC the expected squared error of the weighted average of any function is exactly the ABC posterior mass of its square less the square of its mass, divided by the number of samples, and the average over accepted samples has squared error at most a constant over acceptance probability times number of samples. For any proposal, although the first value is drawn from the prior and weighted as if it came from the proposal, the squared error of the weighted average is the deviation of that sample plus n-1 times that of a sample from the proposal, over n squared, and with bounded weights that of the self-normalised average is at most a constant over n.", "quantifier": "for every number of samples, finitely supported prior, proposal and simulator law, distance, threshold, key and (bounded, for normalised averages) function", "why_tests_cant": "A rate in the number of samples holds for all numbers at once, and is an average over all random streams.", "anchors": ["mocat/src/abc/importance.py:ImportanceABC.update", "mocat/src/abc/importance.py:ImportanceABC.startup", "mocat/src/abc/importance.py:VanillaABC"]}
{"id": "C126", "title": "One-dimensional scenarios accept points in any array shape", "statement": "A scenario of dimension one evaluates its potential, prior and likelihood at every entry of an array of any shape, a scalar for a single entry, for functions that map the rows of an (n, 1) array to n values; they can be called like those of other dimensions, with or without a random key; initialising a scenario again changes nothing.", "quantifier": "for every user-supplied potential, prior and likelihood (implemented or not), temperature, array and key", "why_tests_cant": "All shapes and all combinations of implemented functions; attributes are looked up when called, so calls can refer to themselves.", "anchors": ["mocat/src/core.py:clean_1d", "mocat/src/core.py:Scenario.__init__"]}
{"id": "C127", "title": "The default ABC-SMC step size follows the particles", "statement": "In a run of Metropolised ABC-SMC with default settings the proposal variance of each coordinate is 2.38^2/d times the variance of the particles that have weight, is zero only when all particles agree there, never stays zero, and changing the unit or origin of a parameter changes the run by exactly that change.", "quantifier": "for every run, dimension, number of particles (at least two), threshold rule, scenario and random stream", "why_tests_cant": "Tests run a few steps on one scenario with one unit; that a whole run commutes with every change of units, and that a collapsed coordinate can never recover, concern all runs.", "anchors": ["mocat/src/abc/smc.py:94-98", "mocat/src/abc/smc.py:114-116", "mocat/src/abc/smc.py:228-245", "mocat/src/abc/mcmc.py:64-76"]}
{"id": "C128", "title": "Bandwidth rules give a pair at the typical distance the weight one over n", "statement": "For two or more particles, a pair of points whose distance is the median (or mean) of the entries of the distance matrix has Gaussian kernel weight exactly 1/n under the median (or mean) bandwidth; the median splits the ordered pairs in half; the median bandwidth does not depend on the order or origin of the particles and scales with them; and it is positive unless all particles agree.", "quantifier": "all dimensions, all n >= 2, all particle positions, all relabellings, shifts and scales", "why_tests_cant": "A test tries a few sets of particles; the weight 1/n, the order and unit independence and the exact condition for a zero bandwidth are claims about all of them.", "anchors": ["mocat/src/kernels.py:220-229", "mocat/src/utils.py:437-439"]}
