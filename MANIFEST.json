{
 "claims": [
  {
   "property": "C01",
   "status": "proved",
   "theorems": [
    "C01_run_is_while_loop",
    "C01_raw_stack_padding",
    "C01_chain_assembly"
   ],
   "note": "Any state/extra types, criterion, update, start and limit; chain assembly on cdicts."
  },
  {
   "property": "C02",
   "status": "proved",
   "theorems": [
    "C02_mcmc_run_length",
    "C02_counted_run_length",
    "C02_resumed_run_length"
   ],
   "note": "Metropolis, Uncorrected and RMMetropolis corrections; a counter carried over in initial_extra shortens the run."
  },
  {
   "property": "C03",
   "status": "proved",
   "theorems": [
    "C03_getitem_every_attribute",
    "C03_getitem_error",
    "C03_gather_compose",
    "C03_gather_rows",
    "C03_integer_row",
    "C03_slice_rows"
   ],
   "note": "Non-mutation of the indexed cdict needs a heap model (not yet)."
  },
  {
   "property": "C04",
   "status": "partial",
   "theorems": [
    "C04_add_attributes",
    "C04_add_none",
    "C04_add_assoc_partial",
    "C04_split_and_add",
    "C04_add_assoc_refuted",
    "C04_split_zero_dim_refuted"
   ],
   "note": "Associativity fails when attribute names differ; split/rejoin fails for 0-d arrays."
  },
  {
   "property": "C05",
   "status": "proved",
   "theorems": [
    "C05_flatten_unflatten",
    "C05_tree_map"
   ],
   "note": "static_cdict is a leaf."
  },
  {
   "property": "C06",
   "status": "partial",
   "theorems": [
    "C06_save_then_load",
    "C06_no_silent_overwrite",
    "C06_history_partial",
    "C06_distinct_names_refuted"
   ],
   "note": "Finding: names with the same stem denote the same file."
  },
  {
   "property": "C07",
   "status": "partial",
   "theorems": [
    "C07_crash_safe_refuted",
    "C07_crash_partial"
   ],
   "note": "Finding: unlink before write."
  },
  {
   "property": "C08",
   "status": "partial",
   "theorems": [
    "C08_assignments_partial",
    "C08_assign_potential_refuted",
    "C08_tempered_partial"
   ],
   "note": "Finding: assigning potential leaves a stale gradient. At any other temperature too."
  },
  {
   "property": "C09",
   "status": "partial",
   "theorems": [
    "C09_construct_partial",
    "C09_potential_and_prior_refuted",
    "C09_temperature_keyword_refuted"
   ],
   "note": "Findings: potential+prior double counts; temperature keyword ignored."
  },
  {
   "property": "C10",
   "status": "partial",
   "theorems": [
    "C10_precedence_partial",
    "C10_rm_overwrites_extra_refuted",
    "C10_leapfrog_steps_refuted",
    "C10_svgd_stepsize_refuted",
    "C10_init"
   ],
   "note": "Precedence holds for the base startup; RMMetropolis overwrites initial_extra and Underdamped ignores its leapfrog_steps (findings); SVGD ignores a stepsize of initial_extra. C10_init: keywords of the constructor."
  },
  {
   "property": "C100",
   "status": "partial",
   "theorems": [
    "C100_window",
    "C100_flags",
    "C100_full_partial",
    "C100_filling_partial",
    "C100_filling_exact_partial",
    "C100_damping_refuted",
    "C100_sorted_partial",
    "C100_sorted_temperature_zero_refuted"
   ],
   "note": "Window, flags, full memory and sorting at positive temperature are proved in full. While the memory fills, the pair from the zero row to the first state takes part in the choice of the damping although it is not used (refuted for every memory length above two; exact when the first state satisfies the curvature condition). With sort_bfgs at temperature zero unfilled rows have potential NaN and sort last, so the flags mark the wrong pairs (refuted for every memory length above three)."
  },
  {
   "property": "C101",
   "status": "proved",
   "theorems": [
    "C101_unbiased",
    "C101_weighted_average"
   ],
   "note": "Draws are summed over explicitly: finite support for the values, finite laws for prior, categorical and inner-kernel draws. Adaptive temperatures and Robbins-Monro step sizes are not part of the claim."
  },
  {
   "property": "C102",
   "status": "proved",
   "theorems": [
    "C102_general",
    "C102_bootstrap"
   ],
   "note": "The draws of one step are independent in the statement; in the code a resampling step derives the indices and the proposals from one key (C33)."
  },
  {
   "property": "C103",
   "status": "proved",
   "theorems": [
    "C103_abc_mcmc_invariant"
   ],
   "note": "on finite parameter and data spaces, fixed threshold and stepsizes (the adaptive correction changes them until its cut-off)"
  },
  {
   "property": "C104",
   "status": "proved",
   "theorems": [
    "C104_underdamped",
    "C104_quasi_newton"
   ],
   "note": "exact reals; the gradient is differentiable everywhere"
  },
  {
   "property": "C105",
   "status": "partial",
   "theorems": [
    "C105_same_preconditioner_partial",
    "C105_reverse_refuted"
   ],
   "note": "true when appending the arrived state does not change the preconditioner; false in general: the memory contains the current state, so the reverse move uses another mass matrix"
  },
  {
   "property": "C106",
   "status": "partial",
   "theorems": [
    "C106_refresh_mixture",
    "C106_refresh_partial",
    "C106_refresh_refuted",
    "C106_metric"
   ],
   "note": "the covariance is a mixture of the old and the new memory's; right exactly for infinite friction or unchanged covariance, wrong for the default friction; C106_metric: with infinite friction the kinetic energy of the drawn momenta is half the squared length of the standardised draw, for every memory"
  },
  {
   "property": "C107",
   "status": "partial",
   "theorems": [
    "C107_full_partial",
    "C107_bounded_partial",
    "C107_default_bound_refuted"
   ],
   "note": "Exact for full resampling and for rejection with a valid bound. With the default bound 0 the bound is taken from the candidates it is used to judge and the law is wrong."
  },
  {
   "property": "C108",
   "status": "proved",
   "theorems": [
    "C108_run_law",
    "C108_run_keeps_target"
   ],
   "note": "Laws over finite random streams; no adaptation. The uniforms are assumed right only at the acceptance probabilities the run can meet, so potentials with infinitely many values are covered."
  },
  {
   "property": "C109",
   "status": "proved",
   "theorems": [
    "C109_run_law",
    "C109_run_keeps_posterior"
   ],
   "note": "Laws over finite random streams; no adaptation. The uniforms are assumed right only at the acceptance probabilities the run can meet."
  },
  {
   "property": "C11",
   "status": "proved",
   "theorems": [
    "C11_metropolis_correction"
   ],
   "note": ""
  },
  {
   "property": "C110",
   "status": "proved",
   "theorems": [
    "C110_unbiased",
    "C110_weighted_average"
   ],
   "note": "Whole run from one key: prior draws, startup, resampling, random-walk Metropolis moves, reweighting, with the kernel of the moves computed from the draws. Draws assumed: symmetric steps, uniforms, multinomial resampling at the weights that can occur. Finite supports; fixed stepsize and schedule."
  },
  {
   "property": "C111",
   "status": "proved",
   "theorems": [
    "C111_general",
    "C111_bootstrap"
   ],
   "note": "Keys are free: a key and the keys split from it give independent values (the filter uses a step's key for the categorical draw and splits it, C33)."
  },
  {
   "property": "C112",
   "status": "proved",
   "theorems": [
    "C112_general",
    "C112_bootstrap"
   ],
   "note": "Exact for every number of particles, not a limit. The default bound parameter 0 of the rejection step is not a valid bound (C107). Keys are free: a key and the keys split from it give independent values."
  },
  {
   "property": "C113",
   "status": "partial",
   "theorems": [
    "C113_independent",
    "C113_vanilla",
    "C113_after_first_partial",
    "C113_first_sample_refuted"
   ],
   "note": "Rejection ABC is proved for every number of samples. With another proposal the first value comes from the prior but is weighted as if it came from the proposal: refuted for every number of samples; the samples after the first are right."
  },
  {
   "property": "C114",
   "status": "partial",
   "theorems": [
    "C114_any_sampler",
    "C114_metropolis_partial",
    "C114_mass_partial",
    "C114_tie_refuted"
   ],
   "note": "Proved for every inner sampler that keeps the prior restricted to distances within the threshold, and for RandomWalkABC with Metropolis when no distance equals a threshold. Refuted when a distance equals a threshold: the particle survives but the inner sampler accepts no proposal there."
  },
  {
   "property": "C115",
   "status": "proved",
   "theorems": [
    "C115_run_law",
    "C115_run_keeps_target",
    "C115_trajectory_involution"
   ],
   "note": "Laws over finite random streams; no adaptation. The reference measure plays the part of Lebesgue measure, whose preservation by the leapfrog steps is C104; the change of variables for it is not formalised."
  },
  {
   "property": "C116",
   "status": "proved",
   "theorems": [
    "C116_run_law",
    "C116_run_keeps_target"
   ],
   "note": "Laws over finite random streams; no adaptation."
  },
  {
   "property": "C117",
   "status": "proved",
   "theorems": [
    "C117_general",
    "C117_bootstrap"
   ],
   "note": "A step with resample_full is the step of a particle filter whose states are paths; its draws are laws over the random streams. States have decidable equality and the list of possible states has no repetition."
  },
  {
   "property": "C118",
   "status": "proved",
   "theorems": [
    "C118_run_law",
    "C118_frozen",
    "C118_keeps_target_refuted"
   ],
   "note": "C118_keeps_target_refuted is the last part of the statement: while the stepsize adapts the target is not kept, with the defaults of the code too (in the nature of the method)."
  },
  {
   "property": "C119",
   "status": "proved",
   "theorems": [
    "C119_unbiased",
    "C119_weighted_average"
   ],
   "note": "Finite friction is outside the statement: the particles' momenta start at zero, not from their stationary law."
  },
  {
   "property": "C12",
   "status": "proved",
   "theorems": [
    "C12_detailed_balance",
    "C12_random_walk_balance",
    "C12_invariance"
   ],
   "note": "Finding: mh_acceptance_probability calls sampler.proposal_potential, which no MCMC sampler of the library defines."
  },
  {
   "property": "C120",
   "status": "partial",
   "theorems": [
    "C120_full_partial",
    "C120_bounded_partial",
    "C120_default_bound_refuted"
   ],
   "note": "Exact without rejection (the default) and for rejection with a valid bound. With rejection and the default bound 0 the bound is taken from the candidates it is used to judge and the law is wrong."
  },
  {
   "property": "C121",
   "status": "proved",
   "theorems": [
    "C121_update"
   ],
   "note": "All trajectories counts with rejection; without rejection all but four, where the filter's resampling and the second stitched trajectory share a key (C71_four_particles_refuted). With rejection the bound must be valid; for the default bound see C120_default_bound_refuted."
  },
  {
   "property": "C122",
   "status": "proved",
   "theorems": [
    "C122_general",
    "C122_bootstrap"
   ],
   "note": "Finitely many states, exact real arithmetic, draws as laws; multinomial resampling assumed at the states the run can visit. Bounds on the weights and on the test function are hypotheses."
  },
  {
   "property": "C123",
   "status": "proved",
   "theorems": [
    "C123_random_walk",
    "C123_underdamped"
   ],
   "note": "Finite support and random streams as in C110 and C119; squared errors of the unnormalised estimates and of the weighted averages, at every recorded temperature."
  },
  {
   "property": "C124",
   "status": "proved",
   "theorems": [
    "C124_limit"
   ],
   "note": "Steps of at most 1 as in C80, where larger steps are refuted."
  },
  {
   "property": "C125",
   "status": "proved",
   "theorems": [
    "C125_rejection",
    "C125_accepted",
    "C125_importance"
   ],
   "note": ""
  },
  {
   "property": "C126",
   "status": "partial",
   "theorems": [
    "C126_entries",
    "C126_other_dimensions",
    "C126_missing_key_refuted",
    "C126_reinitialised_refuted"
   ],
   "note": "Values are right for every shape when a key is given, and always for potential. False: in one dimension prior and likelihood raise without a random key, and a second __init__ makes the potential call itself for ever."
  },
  {
   "property": "C127",
   "status": "partial",
   "theorems": [
    "C127_stepsize_partial",
    "C127_units",
    "C127_collapse_absorbing",
    "C127_dead_counted_refuted",
    "C127_collapse_refuted"
   ],
   "note": "Proved: the step is 2.38^2/d times the variance over all particles, and runs commute with changes of units. Refuted: particles without weight count; and once all particles agree in a coordinate (reachable) they never move in it again."
  },
  {
   "property": "C128",
   "status": "partial",
   "theorems": [
    "C128_median",
    "C128_mean",
    "C128_units",
    "C128_positive",
    "C128_positive_refuted"
   ],
   "note": "Weight, halving, units proved for all inputs. Positivity is refuted: the distance matrix includes each particle with itself and repeats, so when more than half of the ordered pairs coincide (three particles at one place and one elsewhere) the median bandwidth is zero; C128_positive gives the exact condition."
  },
  {
   "property": "C13",
   "status": "proved",
   "theorems": [
    "C13_random_walk_support",
    "C13_minus_infinity_trap"
   ],
   "note": "-inf potentials are accepted and then trap the chain (second theorem)."
  },
  {
   "property": "C14",
   "status": "proved",
   "theorems": [
    "C14_leapfrog_reversible",
    "C14_path_shape"
   ],
   "note": ""
  },
  {
   "property": "C15",
   "status": "proved",
   "theorems": [
    "C15_chain_coherent",
    "C15_proposal_involution",
    "C15_momenta"
   ],
   "note": ""
  },
  {
   "property": "C16",
   "status": "proved",
   "theorems": [
    "C16_qn_proposal",
    "C16_memory_window",
    "C16_chain_coherent"
   ],
   "note": ""
  },
  {
   "property": "C17",
   "status": "proved",
   "theorems": [
    "C17_robbins_monro",
    "C17_update_direction"
   ],
   "note": ""
  },
  {
   "property": "C18",
   "status": "proved",
   "theorems": [
    "C18_bisect",
    "C18_converges",
    "C18_brackets_root",
    "C18_zero_tolerance_refuted"
   ],
   "note": "All real functions, intervals in either order, limits; the tolerance must be positive (with 0 the finder divides by zero, C18_zero_tolerance_refuted)."
  },
  {
   "property": "C19",
   "status": "proved",
   "theorems": [
    "C19_resampled_particles",
    "C19_resample_cdict"
   ],
   "note": "Particle-wise and on the cdict model with any stacked attributes."
  },
  {
   "property": "C20",
   "status": "partial",
   "theorems": [
    "C20_schedule_followed",
    "C20_whole_schedule",
    "C20_assignment_consistent",
    "C20_clearing_refuted"
   ],
   "note": "Followed exactly for every schedule; every assignment history ending in a schedule is consistent. Refuted: clearing a schedule keeps its final temperature and resets max_iter to 10000."
  },
  {
   "property": "C21",
   "status": "partial",
   "theorems": [
    "C21_between_partial",
    "C21_progress_partial",
    "C21_progress_refuted"
   ],
   "note": "Monotone and bounded in every run; progress and retained effective sample size under stated conditions. Refuted without them: with a constant likelihood the temperature stays 0 and the potentials become NaN. The objective is modelled over the reals, so infinite likelihood potentials in adaptive mode are not covered."
  },
  {
   "property": "C22",
   "status": "proved",
   "theorems": [
    "C22_increment",
    "C22_run"
   ],
   "note": "One step with minus-infinite log weights and infinite likelihood potentials allowed; whole runs for real-valued potentials."
  },
  {
   "property": "C23",
   "status": "proved",
   "theorems": [
    "C23_ess_formula",
    "C23_ess_bounds",
    "C23_ess_k_equal",
    "C23_ess_shift",
    "C23_all_dead"
   ],
   "note": "Finite or minus-infinity log weights, not all minus infinity; in the excluded case the result is NaN (C23_all_dead)."
  },
  {
   "property": "C24",
   "status": "proved",
   "theorems": [
    "C24_potentials_consistent",
    "C24_random_walk"
   ],
   "note": "For all positive temperatures; the inner sampler condition is proved for RandomWalk with Metropolis."
  },
  {
   "property": "C25",
   "status": "partial",
   "theorems": [
    "C25_schedule_partial",
    "C25_schedule_refuted",
    "C25_increments",
    "C25_span",
    "C25_clear_refuted"
   ],
   "note": "Refuted: the first entry of a schedule is never used, because the iteration number is increased before the schedule is read; a schedule starting with 0 is followed exactly. The span claim and the sum of the increments are proved. Setting the schedule to None afterwards leaves a temperature function that fails."
  },
  {
   "property": "C26",
   "status": "partial",
   "theorems": [
    "C26_relabel",
    "C26_one_particle",
    "C26_reuse_partial",
    "C26_reuse_refuted"
   ],
   "note": "Equivariance and the one-particle case are proved. Reuse with another number of particles is refuted: startup stores the first run's number as the batch size; runs with one number are proved to use all particles."
  },
  {
   "property": "C27",
   "status": "proved",
   "theorems": [
    "C27_abc_mcmc_stays"
   ],
   "note": ""
  },
  {
   "property": "C28",
   "status": "proved",
   "theorems": [
    "C28_vanilla_run",
    "C28_acceptance_rate"
   ],
   "note": "Weight is the strict test below the threshold. The bound on the number of samples weighted one holds also with ties."
  },
  {
   "property": "C29",
   "status": "proved",
   "theorems": [
    "C29_weights",
    "C29_dead_unmoved",
    "C29_nan_distance_refuted",
    "C29_extinct_refuted"
   ],
   "note": "The refuted theorems record what happens outside the quantifier: a NaN distance gets weight one, and with no survivor the effective sample size is NaN and the run is frozen."
  },
  {
   "property": "C30",
   "status": "partial",
   "theorems": [
    "C30_nonincreasing_partial",
    "C30_increase_refuted"
   ],
   "note": "False for small ensembles: two particles with the default parameters go from 0.9 to 0.9175. Proved for 1 <= resample_threshold * n * (1 - retain), i.e. at least 20 particles with the defaults, with RandomWalkABC inside and real distances."
  },
  {
   "property": "C31",
   "status": "proved",
   "theorems": [
    "C31_diagonal_adaptation"
   ],
   "note": ""
  },
  {
   "property": "C32",
   "status": "partial",
   "theorems": [
    "C32_random_walk_keys",
    "C32_abc_keys",
    "C32_smc_keys",
    "C32_teki_keys",
    "C32_smc_startup_refuted"
   ],
   "note": "All iterations of the samplers, and ensemble Kalman inversion with its startup. Refuted for the startup of SMC: one key is used for every particle's potential. The startup of ABC-SMC is not covered."
  },
  {
   "property": "C33",
   "status": "partial",
   "theorems": [
    "C33_propagate_refuted",
    "C33_marginals_refuted",
    "C33_no_resampling_partial",
    "C33_between_steps_partial"
   ],
   "note": "A resampling step uses its key for the categorical draw and splits the same key for the proposals; different steps and steps without resampling use unrelated keys. The online smoothers are treated in C71."
  },
  {
   "property": "C34",
   "status": "partial",
   "theorems": [
    "C34_adjoint",
    "C34_linear",
    "C34_inverse",
    "C34_no_nan",
    "C34_negative_curvature_refuted"
   ],
   "note": "Adjointness and linearity hold for all stored vectors; mutual inversion holds whenever numbers are returned, always so for finite r. With the default r = -inf a pair of negative curvature gives NaN factors (refuted)."
  },
  {
   "property": "C35",
   "status": "proved",
   "theorems": [
    "C35_damping",
    "C35_textbook",
    "C35_secant"
   ],
   "note": "Equality with the dense textbook recursion, positive definiteness, inverse, secant equation at every used pair, damping bound and minimality."
  },
  {
   "property": "C36",
   "status": "partial",
   "theorems": [
    "C36_det_partial",
    "C36_scalar_factor_partial",
    "C36_scalar_refuted"
   ],
   "note": "Holds for a vector diagonal; for a scalar diagonal in dimension d > 1 the result lacks d-1 factors (refuted)."
  },
  {
   "property": "C37",
   "status": "proved",
   "theorems": [
    "C37_precision",
    "C37_precision_batch",
    "C37_square_root",
    "C37_square_root_batch",
    "C37_default",
    "C37_unnormalised"
   ],
   "note": "Real arithmetic."
  },
  {
   "property": "C38",
   "status": "partial",
   "theorems": [
    "C38_matrix_partial",
    "C38_diagonal_partial",
    "C38_scalar_partial",
    "C38_sampler",
    "C38_refuted",
    "C38_scalar_refuted",
    "C38_vector_refuted"
   ],
   "note": "The potential uses inv(L) where gaussian_potential expects inv(L)', so it is that of covariance L'L; wrong determinants for numbers in d>1 and for vectors. Right for diagonal matrices and for numbers in d=1; the sampler is right."
  },
  {
   "property": "C39",
   "status": "proved",
   "theorems": [
    "C39_update_bayes",
    "C39_update_information",
    "C39_predict",
    "C39_filter_marginals",
    "C39_filtering_unique"
   ],
   "note": "Stated with the Gaussian densities themselves; the whole-run theorem is for the model whose first covariance is the matrix the code starts from (see C40)."
  },
  {
   "property": "C40",
   "status": "partial",
   "theorems": [
    "C40_initial_covariance_refuted",
    "C40_initial_covariance_partial"
   ],
   "note": "False: kalman.py line 20 takes the covariance square root as the covariance. Exact when the square root is its own square."
  },
  {
   "property": "C41",
   "status": "partial",
   "theorems": [
    "C41_smoother_marginals_partial",
    "C41_pair_law_partial",
    "C41_smoothing_unique",
    "C41_lag_one_refuted"
   ],
   "note": "Marginals proved for every length, with the initial covariance the code uses (C40). The lag-one moments returned are false (filter mean used where the predicted mean is needed); the true pair law is given."
  },
  {
   "property": "C42",
   "status": "partial",
   "theorems": [
    "C42_smoothing_potential_partial",
    "C42_two_states_refuted",
    "C42_gradient"
   ],
   "note": "The sum holds for every T but 2, where smoothing_potential indexes a number and raises; the gradient is right for every T."
  },
  {
   "property": "C43",
   "status": "partial",
   "theorems": [
    "C43_marginals",
    "C43_propagate",
    "C43_paths",
    "C43_recorded_ess_refuted"
   ],
   "note": "All of it holds for a run for marginals; propagate_particle_filter leaves a stale effective sample size at the time whose weights it resets."
  },
  {
   "property": "C44",
   "status": "proved",
   "theorems": [
    "C44_support",
    "C44_ffbs"
   ],
   "note": "Both variants of backward simulation, and filtering followed by backward simulation with positive densities. The evaluation counts are bounded too."
  },
  {
   "property": "C45",
   "status": "proved",
   "theorems": [
    "C45_stitching",
    "C45_backward_run",
    "C45_backward_step",
    "C45_filter_run",
    "C45_filter_step"
   ],
   "note": "One call, one update and whole runs, with and without backward simulation."
  },
  {
   "property": "C46",
   "status": "partial",
   "theorems": [
    "C46_gaussian",
    "C46_preconditioned_partial",
    "C46_preconditioned_diag_refuted",
    "C46_imq_partial",
    "C46_imq_grad_x_refuted",
    "C46_imq_diag_refuted"
   ],
   "note": "Gaussian proved. PreconditionedGaussian: gradients proved, mixed derivatives refuted beyond one dimension. IMQ: the gradient in the second argument proved, in the first refuted (bandwidth missing), the mixed derivative refuted (sign)."
  },
  {
   "property": "C47",
   "status": "partial",
   "theorems": [
    "C47_terms_partial",
    "C47_divergence_partial",
    "C47_positive_mean_refuted"
   ],
   "note": "ksd adds the cross terms with a plus sign, which is the Stein kernel of exp(+U). With gradients of minus the potential the terms are proved to be the Stein kernel and a divergence; with the potential's gradient the mean is proved positive for a normal target."
  },
  {
   "property": "C48",
   "status": "partial",
   "theorems": [
    "C48_next_pow_two",
    "C48_fits_partial",
    "C48_short_partial",
    "C48_wrap_refuted",
    "C48_constant_nan"
   ],
   "note": "Proved, through the discrete Fourier transform, when series and lag fit in twice the power of two, in particular whenever all lags are asked for; refuted for longer series, which wrap around or are cut. Constant series give NaN."
  },
  {
   "property": "C49",
   "status": "proved",
   "theorems": [
    "C49_matrix",
    "C49_function",
    "C49_zero_radius_refuted",
    "C49_negative_argument_refuted"
   ],
   "note": "The two refutations show that the radius must be positive and that the helper is wrong for negative distances, which the matrix never uses."
  },
  {
   "property": "C50",
   "status": "partial",
   "theorems": [
    "C50_step",
    "C50_path",
    "C50_counts",
    "C50_extinction",
    "C50_times_partial",
    "C50_times_refuted",
    "C50_padding_refuted",
    "C32_sim_keys"
   ],
   "note": "Events, counts, extinction within 2 S + I events and the law of a step are proved for all positive rates. Refuted: a uniform above 1 - 1e-6 gives a negative waiting time; after extinction the returned arrays return to the initial counts and time 0 (padding)."
  },
  {
   "property": "C51",
   "status": "proved",
   "theorems": [
    "C51_leave_one_out",
    "C51_leave_one_out_beyond"
   ],
   "note": ""
  },
  {
   "property": "C52",
   "status": "proved",
   "theorems": [
    "C52_rotation",
    "C52_energy",
    "C52_divergence"
   ],
   "note": ""
  },
  {
   "property": "C53",
   "status": "partial",
   "theorems": [
    "C53_initial_extra_reuse_refuted",
    "C53_fresh_extra_partial"
   ],
   "note": "Refuted: startup writes parameters into the caller's initial_extra; with a fresh extra each run uses its own keywords."
  },
  {
   "property": "C54",
   "status": "partial",
   "theorems": [
    "C54_stale_gradient_refuted"
   ],
   "note": "Refuted for RandomWalk as inner sampler: the gradient fields are those of an earlier value."
  },
  {
   "property": "C55",
   "status": "proved",
   "theorems": [
    "C55_rm_smc_step"
   ],
   "note": ""
  },
  {
   "property": "C56",
   "status": "partial",
   "theorems": [
    "C56_schedule_followed_partial",
    "C56_assignments_partial",
    "C56_schedule_repeated_refuted",
    "C56_clearing_twice_refuted",
    "C56_clearing_max_iter_refuted"
   ],
   "note": "The last threshold is used twice by a run that is not stopped early; clearing an already cleared schedule raises. Assignment histories without two clearings in a row are proved; clearing replaces the chosen number of iterations by the default."
  },
  {
   "property": "C57",
   "status": "proved",
   "theorems": [
    "C57_toy_gaussian"
   ],
   "note": ""
  },
  {
   "property": "C58",
   "status": "partial",
   "theorems": [
    "C58_identity_partial",
    "C58_refuted"
   ],
   "note": "The determinant of the precision enters without its square root. Right for identity covariances."
  },
  {
   "property": "C59",
   "status": "partial",
   "theorems": [
    "C59_sampler",
    "C59_unit_step_partial",
    "C59_refuted"
   ],
   "note": "The root of the precision is multiplied by sqrt(dt) instead of divided. Right for unit steps and diagonal covariances."
  },
  {
   "property": "C60",
   "status": "partial",
   "theorems": [
    "C60_transition_partial",
    "C60_refuted"
   ],
   "note": "z @ L has covariance L'L; the potential agrees with the sampler but not with the covariance given."
  },
  {
   "property": "C61",
   "status": "partial",
   "theorems": [
    "C61_likelihood",
    "C61_default_refuted"
   ],
   "note": "Exact for vectors and numbers; the default argument is a matrix, for which the state-dependent normalising term is dropped and the sampler has the wrong shape."
  },
  {
   "property": "C62",
   "status": "proved",
   "theorems": [
    "C62_simulate"
   ],
   "note": ""
  },
  {
   "property": "C63",
   "status": "partial",
   "theorems": [
    "C63_value_and_grad_partial",
    "C63_likelihood_refuted"
   ],
   "note": "likelihood_potential_and_grad differentiates initial_potential and raises when called."
  },
  {
   "property": "C64",
   "status": "partial",
   "theorems": [
    "C43_marginals",
    "C64_observations_partial",
    "C64_observations_refuted"
   ],
   "note": "A run for marginals keeps rows; propagate_particle_filter flattens the record from its first call."
  },
  {
   "property": "C65",
   "status": "proved",
   "theorems": [
    "C65_path_weight",
    "C65_bootstrap",
    "C65_bootstrap_paths"
   ],
   "note": ""
  },
  {
   "property": "C66",
   "status": "proved",
   "theorems": [
    "C66_one_bound",
    "C66_stitching",
    "C66_evaluations",
    "C66_kept"
   ],
   "note": "The loop invariant of the rejection sampler, with the sources of every candidate and uniform."
  },
  {
   "property": "C67",
   "status": "partial",
   "theorems": [
    "C67_full_partial",
    "C67_rejection_partial",
    "C67_default_bound_refuted"
   ],
   "note": "Holds for full resampling and for rejection with a positive initial bound. Refuted for rejection with the default bound 0: if every candidate of the first round has density 0, the ratio is 0/0 and all are accepted."
  },
  {
   "property": "C68",
   "status": "proved",
   "theorems": [
    "C68_stitching_weights"
   ],
   "note": "Finite transition density along the recent trajectories; the early ones may be impossible."
  },
  {
   "property": "C69",
   "status": "partial",
   "theorems": [
    "C69_rows_partial",
    "C69_lag_zero_refuted"
   ],
   "note": "Positive lags are proved. With lag 0 and backward simulation an update records a time and an observation but no row, for every model."
  },
  {
   "property": "C70",
   "status": "partial",
   "theorems": [
    "C70_weights_partial",
    "C70_lag_zero_refuted"
   ],
   "note": "Before the lag is reached the weights are those of the filter. With lag 0 and no backward simulation the weights are set to zero without resampling: the result is the same whatever the likelihood. Not stated here: the distribution after stitching for positive lags, see C68, C120 and, with backward simulation, C121."
  },
  {
   "property": "C71",
   "status": "partial",
   "theorems": [
    "C71_shared_key_refuted",
    "C71_four_particles_refuted"
   ],
   "note": "Fails for every number of particles without backward simulation and rejection, and for four particles with backward simulation."
  },
  {
   "property": "C72",
   "status": "proved",
   "theorems": [
    "C72_shift",
    "C72_relabel"
   ],
   "note": ""
  },
  {
   "property": "C73",
   "status": "partial",
   "theorems": [
    "C73_full_batch_partial",
    "C73_gaussian_kernel",
    "C73_batch_refuted"
   ],
   "note": "Proved with all indices; with a random batch the number can be negative."
  },
  {
   "property": "C74",
   "status": "proved",
   "theorems": [
    "C74_mean_direction"
   ],
   "note": ""
  },
  {
   "property": "C75",
   "status": "proved",
   "theorems": [
    "C75_bounds",
    "C75_affine"
   ],
   "note": ""
  },
  {
   "property": "C76",
   "status": "partial",
   "theorems": [
    "C76_given_lag",
    "C76_window_partial",
    "C76_no_window_refuted"
   ],
   "note": "Proved when all lags are asked for, where a window always exists; refuted for fewer lags when no lag qualifies: the first lag is used."
  },
  {
   "property": "C77",
   "status": "partial",
   "theorems": [
    "C77_positive_partial",
    "C77_negative_refuted",
    "C77_infinite_refuted"
   ],
   "note": "Proved without negative correlations up to the window; an alternating series gives -8 and a ramp gives infinity."
  },
  {
   "property": "C78",
   "status": "proved",
   "theorems": [
    "C78_jumps"
   ],
   "note": ""
  },
  {
   "property": "C79",
   "status": "proved",
   "theorems": [
    "C79_definite",
    "C79_covariances",
    "C79_zero_nugget_refuted"
   ],
   "note": "The last theorem shows the condition on the nugget is needed."
  },
  {
   "property": "C80",
   "status": "partial",
   "theorems": [
    "C80_linear_exact_partial",
    "C80_large_step_refuted"
   ],
   "note": "Proved for steps of at most 1; refuted for larger steps, where the perturbations are NaN and silently replaced by zero."
  },
  {
   "property": "C81",
   "status": "partial",
   "theorems": [
    "C81_default",
    "C81_default_overshoot_refuted",
    "C81_adaptive_between_partial",
    "C81_adaptive_progress_partial",
    "C81_adaptive_stuck_refuted"
   ],
   "note": "Proved for the default maximum 1. Refuted for other maxima without a schedule (overshoot) and for the adaptive rule when all particles fit the data equally well (no progress, division by zero)."
  },
  {
   "property": "C82",
   "status": "partial",
   "theorems": [
    "C82_psd_partial",
    "C82_psd_refuted"
   ],
   "note": "Refuted: four points with radius 2. Proved for radii up to one. Radii above one on large cycles are open."
  },
  {
   "property": "C83",
   "status": "proved",
   "theorems": [
    "C83_bounded",
    "C83_invariant_ball"
   ],
   "note": "Exact trajectories; the numerical integrator is not modelled."
  },
  {
   "property": "C84",
   "status": "proved",
   "theorems": [
    "C84_symmetry",
    "C84_divergence",
    "C84_bounded",
    "C84_equilibria"
   ],
   "note": "Exact trajectories; the numerical integrator is not modelled."
  },
  {
   "property": "C85",
   "status": "partial",
   "theorems": [
    "C85_step",
    "C85_output_partial",
    "C85_nonzero_start_refuted",
    "C85_limit_refuted",
    "C32_sim_keys",
    "C85_prey_partial"
   ],
   "note": "Proved for first time 0, uniforms below 1 - 1e-6 and a loop stopped before the limit. Refuted: a first time other than 0 (padding is not recognised); the limit reached exactly (times before the first event read the last state). The data are the prey."
  },
  {
   "property": "C86",
   "status": "partial",
   "theorems": [
    "C86_prior_partial",
    "C86_support_refuted",
    "C86_transformed_potential"
   ],
   "note": "The buffer makes draws above 1 - 1e-6 negative (NaN on the log scale) and cuts the right tail; both in C86_support_refuted."
  },
  {
   "property": "C87",
   "status": "proved",
   "theorems": [
    "C87_ricker",
    "C87_bounds",
    "C87_observations"
   ],
   "note": "The normal and Poisson draws are given functions of their keys."
  },
  {
   "property": "C88",
   "status": "partial",
   "theorems": [
    "C88_quantile",
    "C88_increasing",
    "C88_large_c_refuted",
    "C88_only_a_partial",
    "C88_only_a_refuted",
    "C88_prior_potential",
    "C88_prior_sample_partial",
    "C88_prior_sample_refuted",
    "C88_transform",
    "C88_transformed_potential"
   ],
   "note": "Refuted: the one-parameter scenarios use c as the exponent and ignore k; a zero uniform gives a prior draw of infinite prior potential. norm.ppf and norm.cdf are given functions."
  },
  {
   "property": "C89",
   "status": "partial",
   "theorems": [
    "C89_optimal",
    "C89_vectorised",
    "C89_run",
    "C89_proposal_potential_partial",
    "C89_proposal_potential_refuted"
   ],
   "note": "Proposal draws, weights, vectorised method and runs proved; the proposal potential is right only when the conditional covariance is diagonal (transposed factor), refuted otherwise."
  },
  {
   "property": "C90",
   "status": "partial",
   "theorems": [
    "C90_initial_partial",
    "C90_factor_partial",
    "C90_initial_refuted",
    "C90_definite_refuted"
   ],
   "note": "Proved for diagonal initial and observation covariances; refuted for others: S@S instead of S.T@S and A@A.T with the lower factor give a wrong or indefinite precision."
  },
  {
   "property": "C91",
   "status": "proved",
   "theorems": [
    "C91_analysis",
    "C91_run",
    "C91_kalman",
    "C91_kalman_initial",
    "C91_limit"
   ],
   "note": "The claims about the initial ensemble, and so the limit of whole runs, are for diagonal initial and observation covariances, as the statement says; C90 has what goes wrong for others."
  },
  {
   "property": "C92",
   "status": "partial",
   "theorems": [
    "C92_run",
    "C92_initial",
    "C92_bandwidth_partial",
    "C92_bandwidth_refuted"
   ],
   "note": "Proved for every optimiser, kernel and batch; the positivity of the default bandwidth needs two different particles: one particle gives 0/0 and coinciding particles give zero (refuted)."
  },
  {
   "property": "C93",
   "status": "proved",
   "theorems": [
    "C93_adagrad",
    "C93_bounded",
    "C93_entries",
    "C93_zero_gradient",
    "C93_svgd"
   ],
   "note": "adagrad is jax's, modelled from its documentation."
  },
  {
   "property": "C94",
   "status": "proved",
   "theorems": [
    "C94_equivariant"
   ],
   "note": "Exact real arithmetic."
  },
  {
   "property": "C95",
   "status": "proved",
   "theorems": [
    "C95_run"
   ],
   "note": "Exact real arithmetic; the rule that stops on NaN never fires there."
  },
  {
   "property": "C96",
   "status": "partial",
   "theorems": [
    "C96_double_well",
    "C96_rastrigin",
    "C96_banana",
    "C96_funnel_partial",
    "C96_funnel_refuted"
   ],
   "note": "The funnel's potential lacks the log standard deviation of x0 given x1: its density is that of x1 ~ N(3/4, 3), not N(0, 3). Everything else is proved in full."
  },
  {
   "property": "C97",
   "status": "partial",
   "theorems": [
    "C97_potentials_partial",
    "C97_normalised_refuted",
    "C97_bounded",
    "C97_symmetry"
   ],
   "note": "The potentials leave out the log of the standard deviation; exact for standard deviation one only (the initial and transition defaults are sqrt 2 and sqrt 10)."
  },
  {
   "property": "C98",
   "status": "partial",
   "theorems": [
    "C98_samplers",
    "C98_posterior_partial",
    "C98_posterior_refuted",
    "C98_vector_refuted",
    "C98_number_data_refuted",
    "C98_dimension_partial",
    "C98_default_refuted"
   ],
   "note": "Samplers in full for matrices and numbers. The potentials are right for diagonal covariances, wrong for other matrices (precision root on the wrong side); vector covariances break the sampler; number data changes the constant; the constructor raises with its default arguments."
  },
  {
   "property": "C99",
   "status": "partial",
   "theorems": [
    "C99_limits_partial",
    "C99_returns",
    "C99_total_refuted",
    "C99_margin_refuted"
   ],
   "note": "The search does not end for flat or vanishing densities, and the margin computed at the end is not stored."
  }
 ]
}
