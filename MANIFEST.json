{
 "claims": [
  {
   "property": "C01",
   "status": "partial",
   "theorems": [
    "C01_basis_columns_partial",
    "C01_basis_fine_grid",
    "C01_default_basis",
    "C01_identity_basis",
    "C01_basis_unit_volume_refuted",
    "C01_cosine_columns",
    "C01_identity_is_identity"
   ],
   "note": "REFUTED in general: CosineBasis(B=5,dt=1,dt_max=1) has a NaN column. Proved: every column is either all NaN or non-negative with dt*sum=1, row 0 zero; always proper on a fine grid, for the default configuration and for IdentityBasis. orth=True is not modelled."
  },
  {
   "property": "C02",
   "status": "proved",
   "theorems": [
    "C02_filter_is_causal_convolution",
    "C02_filter_empty_raises",
    "C02_filter_causal",
    "C02_filter_linear"
   ],
   "note": "FFT modelled as the exact full convolution"
  },
  {
   "property": "C03",
   "status": "proved",
   "theorems": [
    "C03_filtered_mass"
   ],
   "note": ""
  },
  {
   "property": "C04",
   "status": "proved",
   "theorems": [
    "C04_compute_rate",
    "C04_compute_rate_filtered",
    "C04_compute_rate_proc"
   ],
   "note": "full rate formula for every bin/process; single-process column incl. negative indices"
  },
  {
   "property": "C05",
   "status": "proved",
   "theorems": [
    "C05_stored_rate",
    "C05_stored_rate_index",
    "C05_bad_index_raises"
   ],
   "note": ""
  },
  {
   "property": "C06",
   "status": "partial",
   "theorems": [
    "C06_generate_rate",
    "C06_generate_draws_partial",
    "C06_generate_draws_refuted"
   ],
   "note": "returned rates always equal compute_rate on returned counts; draws use dt*rate only when the basis has no lag-0 effect (default); refuted for an instantaneous basis"
  },
  {
   "property": "C07",
   "status": "proved",
   "theorems": [
    "C07_generate_causal",
    "C07_prefix_determined"
   ],
   "note": ""
  },
  {
   "property": "C08",
   "status": "proved",
   "theorems": [
    "C08_generate_keep",
    "C08_generate_succeeds"
   ],
   "note": ""
  },
  {
   "property": "C09",
   "status": "proved",
   "theorems": [
    "C09_heldout_log_likelihood",
    "C09_no_side_effects",
    "C09_filtered_same",
    "C09_zero_rate_is_NaN_refuted"
   ],
   "note": "exact for positive rates; a zero rate with no event gives NaN (separate counterexample)"
  },
  {
   "property": "C10",
   "status": "proved",
   "theorems": [
    "C10_training_bounds_exact"
   ],
   "note": "counts below 2^32"
  },
  {
   "property": "C100",
   "status": "partial",
   "theorems": [
    "C100_assignments_are_the_sweep",
    "C100_interrupted_partial",
    "C100_forbidden_edge_refuted"
   ],
   "note": "True except that the serial spike-and-slab sampler tries A=1 in place: for every pair (also disallowed self edges) some interruption leaves that edge in the model; a complete sweep removes it again (and a second one the self-attributed parents). Interruptions between assignments of array entries; NumPy, Cython calls and single assignments are atomic."
  },
  {
   "status": "partial",
   "theorems": [
    "C101_in_process_invariant_partial",
    "C101_continuous_in_process_invariant_partial",
    "C101_same_worker_partial",
    "C101_forked_workers_share_draws_refuted",
    "C101_continuous_forked_workers_refuted"
   ],
   "note": "False of the default (parallel) update on a multi-core machine: joblib's multiprocessing workers fork with a copy of NumPy's generator, so for every model, data set and schedule in which two workers each meet a free edge in their first column, both edges are decided by the same number, which is also the caller's next number; a combination of positive posterior probability never occurs. Proved: in the calling process (serial update, one core, no data) the draws are consecutive and the posterior is invariant; edges served by one worker use different numbers. Assumes the fork start method (Linux default) and that joblib does not reseed.",
   "property": "C101"
  },
  {
   "status": "partial",
   "theorems": [
    "C102_fits_own_data_partial",
    "C102_plain_data_partial",
    "C102_mixture_valid",
    "C102_spike_slab_valid",
    "C102_argument_required_refuted",
    "C102_features_ignored_refuted",
    "C102_minibatch_history_dropped_refuted",
    "C102_self_edge_refuted"
   ],
   "note": "Parameters valid, data untouched, fit no worse than the background start for every state and optimiser; features equal the stored ones for whole recordings filtered with the default basis. False of the code: the argument is required by the public classes; a custom basis or supplied features are ignored; minibatches are refiltered without their history (with one-bin minibatches all features are 0); self edges appear although disallowed.",
   "property": "C102"
  },
  {
   "status": "partial",
   "theorems": [
    "C103_row_maximises",
    "C103_never_lowers",
    "C103_euler",
    "C103_reported_bound_drops_refuted",
    "C103_fixed_sparsity_refuted"
   ],
   "note": "Proved: optimality (unique) per row and monotonicity of the true bound for every K, C, state and step size; with Euler's functions all tables are means (integrals). False of the code: the value reported by get_vlb can strictly drop (self pairs are averaged over two independent labels, C93), and a fixed-sparsity model's label update ignores the given probabilities and can strictly lower the true bound.",
   "property": "C103"
  },
  {
   "status": "partial",
   "theorems": [
    "C104_block_model",
    "C104_block_weights_refuted",
    "C104_background_and_impulses",
    "C104_weights",
    "C104_edge_probability_refuted",
    "C104_erdos_renyi_partial",
    "C104_erdos_renyi_refuted",
    "C104_continuous",
    "C104_nonlinear_default_penalty",
    "C104_nonlinear_penalty",
    "C104_initialised_background",
    "C104_erdos_renyi_one_block"
   ],
   "note": "Proved for every component except three where the code departs from the claim: MeanFieldSBM initialises mf_pi to ones whatever pi is (C104_block_weights_refuted), GammaMixtureWeights starts every edge (self edges included) at probability 0.999 whatever the network says (C104_edge_probability_refuted), and ErdosRenyiModel cannot be constructed for two or more nodes (C104_erdos_renyi_refuted; the single-node case is C104_erdos_renyi_partial).",
   "property": "C104"
  },
  {
   "status": "partial",
   "theorems": [
    "C105_exact_weight_ss",
    "C105_expected_events",
    "C105_units_refuted"
   ],
   "note": "Proved after multiplying by dt. The code omits dt, so the returned value itself is the intended one divided by dt (C105_units_refuted): the two statistics, offered by the docstring for comparison, agree only for unit bins.",
   "property": "C105"
  },
  {
   "status": "proved",
   "theorems": [
    "C106_standard_model",
    "C106_block_models",
    "C106_nonlinear_add_data",
    "C106_parent_sampler",
    "C106_continuous_add_data",
    "C106_discrete",
    "C106_gradient_with_self_weights",
    "C106_initialise_from_standard",
    "C106_erdos_renyi_bound",
    "C106_rate_of_one_process",
    "C106_parent_sampler_gsl",
    "C106_generators",
    "C106_assign_into_non_array",
    "C106_mean_field_steps",
    "C106_mean_field_parents",
    "C106_block_tables",
    "C106_counts",
    "C106_parent_row",
    "C106_bound_refused",
    "C106_constructors",
    "C106_erdos_renyi_update",
    "C106_inversion_beyond_mass",
    "C106_bernoulli",
    "C106_no_processes",
    "C106_one_data_set",
    "C106_counts_exact",
    "C106_conversions",
    "C106_wrong_length_or_empty"
   ],
   "note": "The classes include refusals that are themselves defects (check_stability never works, labels cannot be given); those are stated as refutations in C32, C47, C71.",
   "property": "C106"
  },
  {
   "status": "partial",
   "theorems": [
    "C107_complete_queries",
    "C107_heldout_partial",
    "C107_heldout_histories_partial",
    "C107_copy_partial",
    "C107_unchanged_refuted"
   ],
   "note": "False as stated. Proved: parameters and older data sets never change, at most the held-out recording is added (history version too), and copy_sample leaves either everything or an empty data list. Refuted on every model: the held-out recording stays as training data, copy_sample loses all data, nonlinear nodes get out of step. heldout_log_likelihood of the discrete-time network models writes nothing (C09).",
   "property": "C107"
  },
  {
   "status": "proved",
   "theorems": [
    "C108_assignments_are_the_step",
    "C108_interrupted",
    "C108_resume",
    "C108_window",
    "C108_initial"
   ],
   "note": "Step size 0 is excluded (C38_zero_step_refuted). The two assignments of a wrapping sgd_offset are separate crash points.",
   "property": "C108"
  },
  {
   "status": "partial",
   "theorems": [
    "C109_initialised_partial",
    "C109_ready_to_sample",
    "C109_wrong_model_refused",
    "C109_fitting_gives_fitted",
    "C109_failed_call_changes_model_refuted",
    "C109_self_edge_refuted",
    "C109_some_edge_dropped_refuted",
    "C109_threshold_per_pair",
    "C109_single_process"
   ],
   "note": "Proved: stored rates and weights, threshold adjacency with edge counts, delay parameters fit no worse, non-negative (positive if the start beats no response) precisions, settings/data/network kept, wrong class or size refused unchanged. False of the code: a call that fails at the threshold (block network with 1 < C <> K) has already replaced all delay parameters; allow_self_connections=False is ignored; the weakest connection is dropped even at p = 1.",
   "property": "C109"
  },
  {
   "property": "C11",
   "status": "proved",
   "theorems": [
    "C11_network_minibatch_invariance",
    "C11_standard_minibatch_invariance"
   ],
   "note": "Network and standard models; minibatch size > 0 (0 raises, negative sizes silently drop data: see C46)."
  },
  {
   "status": "partial",
   "theorems": [
    "C110_assignments_are_the_sweep",
    "C110_interrupted_partial",
    "C110_resume_ignores_leftovers",
    "C110_stale_statistics_refuted"
   ],
   "note": "Everything holds at every interruption point except that the stored statistics belong to the stored parents: resample replaces the arrays by zeros before filling them, so a stop in between leaves statistics according to which no event happened (C110_stale_statistics_refuted); after the parents phase, and after the next complete sweep, they are consistent.",
   "property": "C110"
  },
  {
   "status": "partial",
   "theorems": [
    "C111_reference_request",
    "C111_reference_sampler_partial",
    "C111_agrees_with_the_compiled_sampler",
    "C111_simultaneous_events_refuted",
    "C111_absent_edge_refuted",
    "C111_impulse_update_refuted"
   ],
   "note": "False of the code in three ways, each proved: (1) it uses W instead of the effective weights, so an absent edge with W > 0 gets positive mass where the compiled sampler gives 0; (2) two events at the same time make it raise AssertionError whatever is drawn (NaN response); (3) it leaves a K x K array of delay sums where the impulse update expects count / sum / squares, so the update reads the sum as the count and its request can leave the domain. Proved true part: without ties or a delay exactly dt_max the requested masses are lambda0 and W * density, the run never raises, every parent is the background or an earlier event in the window with positive weight, the counts are the counts of these attributions and balance with the number of events; and on fully connected models with delays clear of the ends the masses agree with the compiled sampler's up to the common constant kappa_c.",
   "property": "C111"
  },
  {
   "status": "partial",
   "theorems": [
    "C112_add_data_is_sound",
    "C112_positive_histories",
    "C112_trained_from_background_partial",
    "C112_silent_process_stuck_refuted",
    "C112_silent_process_nan_refuted",
    "C112_float_log_likelihood",
    "C112_nan_weights_refused"
   ],
   "note": "False when a process has no events: its background rate is initialised to 0, and gradient steps in log space leave it at 0 or NaN for ever, also after data in which it fires is added; if some bin has no filtered input (first bin of a recording under a causal basis; rounding of the FFT is not modelled, but a recording without any events has exactly zero input) a single step turns the whole row, and the log likelihood, into NaN; the log-space fit starts at -inf. Proved when every process has an event: all histories keep positive numbers and coincide with the real-valued steps of C47/C51/C55.",
   "property": "C112"
  },
  {
   "status": "partial",
   "theorems": [
    "C113_counts_may_be_reused",
    "C113_filtered_may_be_reused_partial",
    "C113_supplied_filtered_refuted",
    "C113_standard_add",
    "C113_standard_overwritten",
    "C113_standard_counts_refuted",
    "C113_ct_add",
    "C113_ct_resample",
    "C113_ct_likelihood",
    "C113_ct_labels_refuted"
   ],
   "note": "Network models: proved for every history in which the caller supplies only counts (all answers), and for every history, supplied F included, for everything except compute_rate(index) and the exact statistic, which read the caller's F (models.py 922, parents.py 189): refuted with the exact value returned. Standard model: (S, F) is kept by reference, so after overwriting S the likelihood is that of the new counts under the old rates, which is that of neither data set (refuted). Continuous-time model: S and C are kept by reference and only the counts per process are copied, so after relabelling events every parent update raises when any count differs (refuted for all draws), and the likelihood is off by the stated amount. Not covered: the nonlinear model, initialize_with_standard_model (which reads data.S), interrupted calls.",
   "property": "C113"
  },
  {
   "status": "partial",
   "theorems": [
    "C114_network_drawing",
    "C114_network_update",
    "C114_adjacency_drawing",
    "C114_adjacency_update_partial",
    "C114_adjacency_scale_refuted",
    "C114_rates_drawing",
    "C114_rates_update",
    "C114_updated_drawing",
    "C114_stem_in_bin_partial",
    "C114_stem_position_refuted",
    "C114_curve_span_refuted",
    "C114_rates_without_axes_refuted",
    "C114_other_recording_refuted"
   ],
   "note": "Proved: the drawing of the network, of the weights and of the rates, and that a drawing updated any number of times equals a new drawing of the last model (same recording). False of the code: events are drawn at t + dt/2 (bin number plus half a bin in time units) and the horizontal limits are bin numbers while the curve is at dt*t, so for dt different from 1 the events of all late bins lie outside their bins; an updated weight image keeps the colour scale of the first drawing; plot_rates() without axes raises AttributeError; updating with another data_index keeps the first recording's events. Self-connections are never drawn (stated in C114_network_drawing).",
   "property": "C114"
  },
  {
   "status": "partial",
   "theorems": [
    "C115_generate_law",
    "C115_table_probability",
    "C115_total_probability",
    "C115_simulation_matches_likelihood_partial",
    "C115_simulation_matches_likelihood_refuted"
   ],
   "note": "True whenever no basis function acts at lag 0 (allow_instantaneous=False, the default) and every count is below 1000: the probability of the table is exp(heldout_log_likelihood) times the parameter-free factor. Proved for all models, T and tables, with total mass 1. Missing because false of the code: (1) with allow_instantaneous=True the simulator draws a bin before adding that bin's own effect while the likelihood scores it after (refuted on a one-bin model: e^-1 against 2e^-2); (2) tables with 1000 or more events in a bin are never returned, the run stops in the debugger (models.py 839-841).",
   "property": "C115"
  },
  {
   "status": "partial",
   "theorems": [
    "C116_check_stability_partial",
    "C116_stable_is_bounded",
    "C116_ct_cascades_partial",
    "C116_large_networks_partial",
    "C116_ct_large_networks_partial",
    "C116_large_networks_refuted",
    "C116_instantaneous_refuted"
   ],
   "note": "For fewer than 100 processes the test is exact: True if and only if expected simulated counts (discrete, no effect within a bin) or mean cascades (continuous) are bounded. Missing because false of the code: (1) with 100 or more processes only one eigenvalue of largest modulus is computed and its real part compared with 1; when a negative eigenvalue ties with the Perron root (two processes exciting each other) the answer can be True although activity explodes (refuted); there False is always right, and True is right when one eigenvalue strictly dominates. (2) With effects inside a bin True is right, but False can be wrong for the simulator, which draws a bin before adding that bin's own effect (refuted). The eigenvalue solvers are trusted to return the eigenvalues in exact arithmetic; the standard model's check_stability raises (C54).",
   "property": "C116"
  },
  {
   "status": "proved",
   "theorems": [
    "C117_likelihood_is_marginal",
    "C117_resample_is_conditional",
    "C117_joint_is_complete_likelihood",
    "C117_model_likelihood"
   ],
   "note": "The generators are trusted to draw multinomials with the number of trials and probabilities they are passed; real arithmetic.",
   "property": "C117"
  },
  {
   "status": "proved",
   "theorems": [
    "C118_probabilities_accurate",
    "C118_never_refused"
   ],
   "note": "The accuracy part assumes that non-zero inputs are at least 2^-300 (no underflow in the products); the acceptance part does not. NumPy's acceptance test is external: it is assumed to refuse only entries outside [0,1] or partial sums above 1 + 9e-13 (its threshold is 1 + 1e-12 on a compensated sum).",
   "property": "C118"
  },
  {
   "status": "partial",
   "theorems": [
    "C119_round_trip_partial",
    "C119_own_or_next_bin",
    "C119_no_failure_refuted",
    "C119_round_trip_refuted",
    "C119_binning_refuted"
   ],
   "note": "False of the code as it stands: a draw of 1-2^-53 in the last of three unit bins makes the assertion S_ct < T fail (C119_no_failure_refuted); followed by another bin, the event comes back in that bin (C119_round_trip_refuted); and binning [1, 1.3) with width 0.1 raises ValueError because np.arange's points pass the end (C119_binning_refuted). Proved: exact round trip when no draw is within T*2^-51 of one, and own-or-next bin with totals preserved for all draws. Overflow is outside (bin width at most 2^900).",
   "property": "C119"
  },
  {
   "property": "C12",
   "status": "proved",
   "theorems": [
    "C12_sum_over_data",
    "C12_order_irrelevant",
    "C12_index_list",
    "C12_sum_over_processes"
   ],
   "note": ""
  },
  {
   "status": "proved",
   "theorems": [
    "C120_rates",
    "C120_rate_of_process",
    "C120_likelihood",
    "C120_add_data",
    "C120_simulation",
    "C120_parent_request",
    "C120_gibbs_requests",
    "C120_edge_update",
    "C120_network_view",
    "C120_network_requests",
    "C120_log_probability",
    "C120_mf_step",
    "C120_vlb",
    "C120_relabelled_exists"
   ],
   "note": "Proved per update, not per sweep: a Gibbs sweep visits edges and block labels in label order, so with the same random stream two sweeps differ even though each visited conditional is the relabelled one. The mean-field step is proved for the Erdos-Renyi network; for a block model the soft labels are updated one after the other in label order (the bound get_vlb is proved for every network).",
   "property": "C120"
  },
  {
   "status": "partial",
   "theorems": [
    "C121_complete_paths_partial",
    "C121_slope",
    "C121_scored_density",
    "C121_late_children",
    "C121_late_children_refuted",
    "C121_lost_children_refuted"
   ],
   "note": "Proved for runs in which every drawn event falls before T: the density of the draws, siblings unordered, is the density of the path with its causes (summed over causes it is the likelihood, C99_marginal) times the derivative of times in the draws, which C121_slope checks by differentiation; C121_scored_density relates it to the density the compiled code evaluates (window margins, decimal sqrt(2 pi)). False of the code otherwise: children after T are silently discarded but the likelihood still charges the full weight, so the law of the output is not the likelihood's (C121_late_children_refuted, and C121_lost_children_refuted gives the exact factor exp(-w(1-q)) instead of exp(-w)).",
   "property": "C121"
  },
  {
   "status": "proved",
   "theorems": [
    "C122_cosine_basis",
    "C122_identity_basis",
    "C122_rates",
    "C122_add_data",
    "C122_simulation",
    "C122_likelihood",
    "C122_gibbs_requests",
    "C122_parameter_requests",
    "C122_edge_update",
    "C122_parallel_edge_update",
    "C122_mean_field"
   ],
   "note": "Exact arithmetic (reals with infinities). Holds for normalised bases, the default; an un-normalised basis is not a density and is out of the statement. The Gamma prior of the background rates has a rate parameter that is a duration, so it must be stated in the new unit too.",
   "property": "C122"
  },
  {
   "status": "partial",
   "theorems": [
    "C123_rates_partial",
    "C123_likelihood_partial",
    "C123_parents_partial",
    "C123_sweep_partial",
    "C123_parameter_requests",
    "C123_add_data",
    "C123_simulation",
    "C123_impulses",
    "C123_margins_refuted"
   ],
   "note": "Holds without restriction for data, simulation, impulse responses and the parameter draws. Rates, likelihood, parents and whole sweeps: proved when no delay between events falls, in either unit, within 1e-8 of an end of the response window (clear_of_margins). False of the code otherwise: the compiled helpers ignore delays within a fixed 1e-8 of either end, whatever the unit, so events a nanosecond apart interact in milliseconds but not in seconds (C123_margins_refuted).",
   "property": "C123"
  },
  {
   "status": "partial",
   "theorems": [
    "C124_bias_rvs_partial",
    "C124_other_components_refuted",
    "C124_size_ignored_refuted",
    "C124_block_impulses_refuted",
    "C124_background_table"
   ],
   "note": "True only of the background rates (both time models): one gamma variate per process, with the density log_likelihood reports. False of the code elsewhere: size is ignored everywhere, spike-and-slab weights raise TypeError after drawing (size is called as a function), impulse responses return None, the mixture weights, continuous-time weights, networks and parents raise NotImplementedError, and SBMDirichletImpulseResponses cannot be constructed at all.",
   "property": "C124"
  },
  {
   "status": "proved",
   "theorems": [
    "C125_rates",
    "C125_likelihood",
    "C125_parents",
    "C125_requests",
    "C125_edge_update",
    "C125_add_data",
    "C125_relabelled_exists"
   ],
   "note": "Updates of the network itself (blocks, labels) are shared with discrete time: C120_network_requests. A sweep visits edges in label order, so the same seed gives different numbers to different edges: the theorem compares each update with the same random number, not whole sweeps. Simulation asks for cascades in label order and is not compared draw by draw; its law is C121.",
   "property": "C125"
  },
  {
   "status": "proved",
   "theorems": [
    "C126_additive",
    "C126_one_more_event",
    "C126_monotone",
    "C126_simulation_monotone",
    "C126_ct_monotone",
    "C126_ct_one_more_event"
   ],
   "note": "The simulation comparison assumes the count drawn with given random numbers grows with its mean (as inversion does); the domain conditions are those Gibbs histories maintain (C44, C45).",
   "property": "C126"
  },
  {
   "status": "partial",
   "theorems": [
    "C127_update_accurate_partial",
    "C127_vague_prior_refuted"
   ],
   "note": "Holds when E[ln lambda0] >= -700 (and, for the relative accuracy, no expected log below -190) and inputs are doubles below 2^300. False as stated: with a vague gamma prior (shape about 0.001 or less, so that E[ln lambda0] <= -1000) exp underflows to 0, the row of the first event is 0/0 and the very first mean-field step fails with AssertionError for every data set containing an event (C127_vague_prior_refuted).",
   "property": "C127"
  },
  {
   "status": "partial",
   "theorems": [
    "C128_sweep_law",
    "C128_posterior_partial",
    "C128_posterior_refuted"
   ],
   "note": "Exact answer for every model: the sweep leaves invariant the posterior times the likelihood of every self pair once more (twice more when self-connections are disallowed), because resample_c counts the pair (k,k) in both the row and the column (its TODO). So the posterior is invariant when all blocks agree on p[a,a] and v[a,a], and not in general (refuted: odds 3:2 become 9:4).",
   "property": "C128"
  },
  {
   "status": "partial",
   "theorems": [
    "C129_small_steps_climb_partial",
    "C129_stays_exactly_at_the_maximum",
    "C129_fixed_step_refuted"
   ],
   "note": "True for every sufficiently small positive step (the bound depends on the data) and the fixed-point half holds for every non-zero step; REFUTED for any fixed step size including the default 0.01: a freshly constructed model with one bin of n events overshoots for n large enough. Real arithmetic.",
   "property": "C129"
  },
  {
   "property": "C13",
   "status": "proved",
   "theorems": [
    "C13_training_finite",
    "C13_heldout_finite",
    "C13_added_data_ok"
   ],
   "note": ""
  },
  {
   "status": "partial",
   "theorems": [
    "C130_mean_direction_equal_lengths",
    "C130_unbiased_partial",
    "C130_unbiased_refuted",
    "C130_unequal_lengths_refuted"
   ],
   "note": "Exact for data sets of equal length: the mean direction is the posterior gradient of the model with its prior counted once per data set. Hence unbiased with one data set or a flat prior; REFUTED with two data sets (at the posterior maximum the mean step is not zero) and with unequal lengths (each gradient is divided by its own length).",
   "property": "C130"
  },
  {
   "status": "partial",
   "theorems": [
    "C131_accepted",
    "C131_object_or_hyperparameters",
    "C131_cosine_simulates_partial",
    "C131_identity_simulates_refuted",
    "C131_weight_meaning_partial",
    "C131_weight_meaning_refuted"
   ],
   "note": "REFUTED: generate raises TypeError for every model built on an IdentityBasis with floating-point dt, dt_max (its L is a float), and the constructor accepts a basis normalised for another bin width dt', which multiplies every weight's meaning by dt/dt'. Proved: cosine bases simulate, and the exact factor dt/dt' (1 when the widths agree). With integer dt and dt_max Python's // gives an int and generate works: outside this model, which takes floats.",
   "property": "C131"
  },
  {
   "status": "partial",
   "theorems": [
    "C132_each_model_as_if_alone",
    "C132_unshared_models_are_independent",
    "C132_sweeps_are_ordinary_partial",
    "C132_constructor_checks",
    "C132_shared_network_only_partial",
    "C132_impulses_own_partial",
    "C132_shared_network_refuted",
    "C132_given_weights_ignore_the_network_refuted",
    "C132_given_weights_refuted",
    "C132_given_impulses_refuted",
    "C132_background_unchecked_refuted"
   ],
   "note": "Proved: non-interference for every program without shared objects, ordinary sweeps for every program that passes no weights object, and the exact set of refused arguments. False of the code: a weights object passed to a second model keeps the first model's network (and, in the parallel sampler, the first model's rates), so the second model's network has no influence on its weights; model.impulses of a model built with another's impulse object shows the other's basis; a background object is accepted whatever its size; a shared network changes for both models (inherent in sharing). Exceptions inside a sweep leave the store unchanged in this model (interruptions: C100).",
   "property": "C132"
  },
  {
   "status": "partial",
   "theorems": [
    "C133_block_model_partial",
    "C133_block_model_ratio",
    "C133_block_model_reads_its_argument",
    "C133_fixed_sparsity",
    "C133_argument_form_refuted",
    "C133_erdos_renyi_own_scale_partial",
    "C133_erdos_renyi_ignores_argument_refuted"
   ],
   "note": "Block models: density up to the constant of C89 (0 for one block), differences exact. False: the block model refuses the documented (m,p,v), the fixed-sparsity one leaves out the labels and refuses four-tuples, and Erdos-Renyi ignores its argument (TypeError without a gamma prior). Tuples with entries of other shapes are not modelled.",
   "property": "C133"
  },
  {
   "status": "partial",
   "theorems": [
    "C134_log_likelihood",
    "C134_gibbs_histories",
    "C134_gibbs_sweep",
    "C134_mean_field",
    "C134_vlb",
    "C134_standard_model",
    "C134_ct_log_likelihood",
    "C134_ct_sweep_partial",
    "C134_ct_background_refuted"
   ],
   "note": "Proved in full for the discrete-time models. False of the continuous-time sampler: its background update reads the last recording only (bias.py 185-189), so a sweep is order-independent exactly as long as the last recording stays last (C134_ct_sweep_partial); swapping the last one changes the law of the background rates (C134_ct_background_refuted).",
   "property": "C134"
  },
  {
   "status": "proved",
   "theorems": [
    "C135_networks",
    "C135_mixture_networks",
    "C135_continuous_networks",
    "C135_labels",
    "C135_attributions"
   ],
   "note": "Exact arithmetic: in double precision a log odds ratio beyond the range of exp is rounded to a certainty. Continuous-time networks: given the weights drawn in the same sweep. Continuous variables (rates, weights) are not in the statement: their requests are Gamma/Beta/Dirichlet laws with full support.",
   "property": "C135"
  },
  {
   "status": "proved",
   "theorems": [
    "C136_networks",
    "C136_mixture_networks",
    "C136_continuous_networks",
    "C136_labels"
   ],
   "note": "The other blocks of the Gibbs sampler are held fixed (for the continuous-time model the weights as well). The density targeted by the label sweep is the posterior with self pairs counted once or twice too often (C31, C128_posterior_refuted). At least two blocks; with one block there is nothing to draw.",
   "property": "C136"
  },
  {
   "status": "proved",
   "theorems": [
    "C137_rates",
    "C137_heldout",
    "C137_training",
    "C137_silence_needed",
    "C137_gibbs_histories",
    "C137_gibbs_same_chain",
    "C137_mean_field",
    "C137_added_data"
   ],
   "note": "C137_training includes infinite and NaN values; C137_heldout assumes positive rates. C137_silence_needed: without the silence the rates differ. C137_gibbs_same_chain: with the same random numbers for the same bins the Gibbs chains (spike and slab, serial or parallel, and gamma mixture) agree in every parameter after every history, and attribute the same events to the same parents. C137_mean_field: coordinate-ascent steps give the same variational parameters and reported bounds; stochastic steps are not covered: sgd_step asserts that the model holds exactly one recording, so with the parts it always raises AssertionError.",
   "property": "C137"
  },
  {
   "status": "proved",
   "theorems": [
    "C138_rates",
    "C138_log_likelihood",
    "C138_add_data",
    "C138_parents",
    "C138_silence_needed",
    "C138_weights_update",
    "C138_impulse_update",
    "C138_bias_update_refuted"
   ],
   "note": "Rates and log likelihood need no assumption on the parameters (infinite and NaN values included). C138_parents assumes parameters in their domain, and gives the exact amount by which the per-recording squared deviations fall short of the pooled ones (the defect of C65). C138_silence_needed is the converse half: without the silence the rates differ. C138_weights_update: serial and parallel, every schedule. The other two updates are not claimed invariant: C138_impulse_update gives the exact difference in the requested rate, C138_bias_update_refuted shows that the background update differs (it reads the last recording only).",
   "property": "C138"
  },
  {
   "property": "C14",
   "status": "proved",
   "theorems": [
    "C14_one_parent_per_event",
    "C14_counts_overflow_refuted"
   ],
   "note": "both samplers; counts >= 2^32 are truncated (counterexample)"
  },
  {
   "property": "C15",
   "status": "proved",
   "theorems": [
    "C15_sufficient_statistics",
    "C15_statistics_meaning",
    "C15_resample_consistent"
   ],
   "note": ""
  },
  {
   "property": "C16",
   "status": "proved",
   "theorems": [
    "C16_no_absent_parents",
    "C16_absent_edge_statistics"
   ],
   "note": ""
  },
  {
   "property": "C17",
   "status": "partial",
   "theorems": [
    "C17_expected_counts",
    "C17_cython_same_array",
    "C17_compiled_call_raises_refuted"
   ],
   "note": "python update conserves events; the cython routine computes the same array for every row order, but the compiled call as written raises (dtype mismatch)"
  },
  {
   "property": "C18",
   "status": "proved",
   "theorems": [
    "C18_mean_field_optimal"
   ],
   "note": "among alternatives with no mass where filtered activity is zero (others have bound -infinity)"
  },
  {
   "property": "C19",
   "status": "proved",
   "theorems": [
    "C19_samplers_agree",
    "C19_same_result"
   ],
   "note": ""
  },
  {
   "property": "C20",
   "status": "proved",
   "theorems": [
    "C20_background_posterior",
    "C20_no_data_prior"
   ],
   "note": ""
  },
  {
   "property": "C21",
   "status": "proved",
   "theorems": [
    "C21_weight_posterior",
    "C21_exact_conditional"
   ],
   "note": ""
  },
  {
   "property": "C22",
   "status": "proved",
   "theorems": [
    "C22_impulse_posterior"
   ],
   "note": ""
  },
  {
   "property": "C23",
   "status": "partial",
   "theorems": [
    "C23_single_data_set_partial",
    "C23_only_last_data_set",
    "C23_pools_all_data_sets_refuted"
   ],
   "note": "REFUTED: with two or more data sets only the last one is used; correct for one data set"
  },
  {
   "property": "C24",
   "status": "proved",
   "theorems": [
    "C24_mixture_edge_update",
    "C24_mixture_edge_update_euler",
    "C24_weight_model_update"
   ],
   "note": "the factorisation holds for every w > 0 and every lgam; with Euler's log Gamma (L_Euler: the gamma density is normalised) the marginal likelihoods are the integrals of the joint density over the weight"
  },
  {
   "property": "C25",
   "status": "proved",
   "theorems": [
    "C25_acceptance_rule",
    "C25_both_impossible",
    "C25_edges_from_posterior"
   ],
   "note": ""
  },
  {
   "property": "C26",
   "status": "proved",
   "theorems": [
    "C26_serial_parallel_agree",
    "C26_no_data_prior"
   ],
   "note": "same uniform draw per edge, every completion order of the workers; that forked workers in fact share random numbers is C101"
  },
  {
   "property": "C27",
   "status": "partial",
   "theorems": [
    "C27_no_self_connections_partial",
    "C27_mixture_self_parent_refuted"
   ],
   "note": "A never has a self edge in any history (both models), and the spike-and-slab model never attributes an event to its own process. The mixture model ignores A when assigning parents, so the attribution claim is false there: refuted by a concrete history."
  },
  {
   "property": "C28",
   "status": "proved",
   "theorems": [
    "C28_deterministic_edges"
   ],
   "note": "spike-and-slab serial and parallel, and mixture"
  },
  {
   "property": "C29",
   "status": "proved",
   "theorems": [
    "C29_P_V_tables",
    "C29_erdos_renyi_tables",
    "C29_reading_P_V_is_pure",
    "C29_values",
    "C29_er_values"
   ],
   "note": "Tables for SBM and Erdos-Renyi networks; reads are functions of the state in this model, the aliasing half of 'reading changes nothing' is in the heap model."
  },
  {
   "property": "C30",
   "status": "partial",
   "theorems": [
    "C30_probabilities_partial",
    "C30_probabilities_no_self_partial",
    "C30_counts_forbidden_pairs_refuted",
    "C30_scales"
   ],
   "note": "Proved for scales and, with self-connections allowed, for probabilities. Without self-connections the code counts impossible self pairs as observed non-edges: refuted with the exact discrepancy (n_self extra failures)."
  },
  {
   "property": "C31",
   "status": "partial",
   "theorems": [
    "C31_label_request_partial",
    "C31_label_posterior_partial",
    "C31_self_pair_counted_twice_refuted",
    "C31_labels_in_range"
   ],
   "note": "Labels stay in range in every history. The log weight the code samples from is the conditional plus extra copies of the (k,k) self term: one extra when self-connections are allowed, two when they are not (exact discrepancy proved); so the draw is the conditional when the diagonal blocks agree, and not in general (refuted)."
  },
  {
   "property": "C32",
   "status": "partial",
   "theorems": [
    "C32_all_or_nothing",
    "C32_labels_rejected_refuted",
    "C32_probability_discarded_refuted"
   ],
   "note": "Construction keeps all three or none. False of the code in general: explicit labels raise ValueError for K>=2 and p/v alone are silently discarded."
  },
  {
   "property": "C33",
   "status": "partial",
   "theorems": [
    "C33_sparsity_kept",
    "C33_refuses_update",
    "C33_bound_refuted"
   ],
   "note": "Sparsity kept in every history and update refused; the bound is None (refuted)."
  },
  {
   "property": "C34",
   "status": "proved",
   "theorems": [
    "C34_variational_parameters_valid",
    "C34_initial_valid",
    "C34_expected_probability_valid",
    "C34_label_row_softmax"
   ],
   "note": "Invariant over every history of batch/SGD network updates."
  },
  {
   "property": "C35",
   "status": "partial",
   "theorems": [
    "C35_scale_settings",
    "C35_scale_update",
    "C35_fixed_scale_kept",
    "C35_mean_field_partial",
    "C35_mean_field_default_refuted",
    "C35_log_probability_refuted",
    "C35_erdos_renyi_model_refuted"
   ],
   "note": "Scale choice, posterior update and fixed scale proved; mean field raises with the default scale, log_probability always raises, ErdosRenyiModel cannot be built for K>=2 (refuted)."
  },
  {
   "property": "C36",
   "status": "partial",
   "theorems": [
    "C36_components",
    "C36_full_batch_step_partial",
    "C36_fixed_sparsity_refuted",
    "C36_stochastic_rule"
   ],
   "note": "Full-batch SGD (frac=1, step=1) equals the coordinate step for every component and for the whole model with an SBM or Erdos-Renyi network. False for FixedSparsity (refuted), where the p update differs."
  },
  {
   "property": "C37",
   "status": "proved",
   "theorems": [
    "C37_offsets",
    "C37_slices_tile"
   ],
   "note": "The offset recurrence and the tiling of [0,T) by one pass of minibatches."
  },
  {
   "property": "C38",
   "status": "partial",
   "theorems": [
    "C38_parameters_positive_partial",
    "C38_initial",
    "C38_zero_step_refuted"
   ],
   "note": "Every variational parameter stays in its domain along any history of batch and SGD steps with step in (0,1]; missing: step 0, where it is false (NaN on the diagonal, refuted)."
  },
  {
   "property": "C39",
   "status": "proved",
   "theorems": [
    "C39_expected_weights"
   ],
   "note": ""
  },
  {
   "property": "C40",
   "status": "proved",
   "theorems": [
    "C40_copy_is_snapshot",
    "C40_original_kept",
    "C40_copy_updates_leave_original",
    "C40_copy_exists"
   ],
   "note": "Heap model; deepcopy is a contract (fresh reachable set), shown satisfiable."
  },
  {
   "property": "C41",
   "status": "partial",
   "theorems": [
    "C41_snapshot_refuted",
    "C41_rebound_arrays_partial"
   ],
   "note": "False as stated: arrays updated in place (parents / G) show through an earlier get_parameters; proved for the arrays that are rebound."
  },
  {
   "property": "C42",
   "status": "partial",
   "theorems": [
    "C42_round_trip_refuted",
    "C42_eight_attributes_partial",
    "C42_set_parameters",
    "C42_shares_callers_arrays_refuted"
   ],
   "note": "False as stated; proved for the attributes that the setter does handle. The setter also keeps the caller's arrays (shared, not copied)."
  },
  {
   "property": "C43",
   "status": "proved",
   "theorems": [
    "C43_standard_heldout",
    "C43_nonlinear_heldout",
    "C43_continuous_heldout"
   ],
   "note": "standard, nonlinear and continuous-time models"
  },
  {
   "property": "C44",
   "status": "proved",
   "theorems": [
    "C44_gibbs_history"
   ],
   "note": "Every history of construction, add_data (accepted or rejected, any minibatch size) and Gibbs sweeps, all draws."
  },
  {
   "property": "C45",
   "status": "proved",
   "theorems": [
    "C45_sweep",
    "C45_construct",
    "C45_step",
    "C45_continuous_history"
   ],
   "note": "Invariant over every history of construction, add_data and sweeps, every outcome of the draws; T >= 0 is assumed of added data (an empty recording with negative T is accepted by add_data)."
  },
  {
   "property": "C46",
   "status": "proved",
   "theorems": [
    "C46_add_data_atomic",
    "C46_invalid_rejected",
    "C46_valid_accepted",
    "C46_negative_minibatch_drops_data_refuted"
   ],
   "note": "a negative minibatch size silently stores nothing"
  },
  {
   "property": "C47",
   "status": "proved",
   "theorems": [
    "C47_gradient",
    "C47_own_block"
   ],
   "note": "Derivative of log_posterior in each weight, any set of processes containing k; real arithmetic."
  },
  {
   "property": "C48",
   "status": "proved",
   "theorems": [
    "C48_rate_is_hawkes",
    "C48_reported_parameters"
   ],
   "note": ""
  },
  {
   "property": "C49",
   "status": "partial",
   "theorems": [
    "C49_reading_G_refuted",
    "C49_W_and_bias_partial",
    "C49_values",
    "C49_weight_table_shape"
   ],
   "note": "False as stated: reading G divides the stored weights in place."
  },
  {
   "property": "C50",
   "status": "partial",
   "theorems": [
    "C50_always_raises_refuted",
    "C50_one_process_partial"
   ],
   "note": "False as stated: a stray comma makes the call raise ValueError for every K >= 2; proved for K = 1."
  },
  {
   "property": "C51",
   "status": "proved",
   "theorems": [
    "C51_history_positive",
    "C51_rows_independent"
   ],
   "note": "Real arithmetic: floating-point underflow of exp is outside the model."
  },
  {
   "property": "C52",
   "status": "partial",
   "theorems": [
    "C52_valid_parameters",
    "C52_some_edge_dropped",
    "C52_standard_model_destroyed_refuted",
    "C52_number_of_edges",
    "C52_variational_expectations"
   ],
   "note": "Parameters are valid; but the standard model is changed (its weights are normalised in place), refuting that half. C52_number_of_edges: fewer than p(K^2-1)+1 edges are kept, at least p(K^2-1) when the weights are distinct."
  },
  {
   "property": "C53",
   "status": "partial",
   "theorems": [
    "C53_background_rate",
    "C53_maximises_homogeneous",
    "C53_log_likelihood",
    "C53_silent_process_is_NaN_refuted",
    "C53_nonlinear_background_rate",
    "C53_homogeneous_fit_is_mle",
    "C53_silent_exponential_refuted"
   ],
   "note": "Proved for the standard, linear, homogeneous and exponential models; false for the softplus node (its baseline is 1e-16 above), and a silent process gets a NaN log likelihood (standard, exponential)."
  },
  {
   "property": "C54",
   "status": "partial",
   "theorems": [
    "C54_not_callable_refuted",
    "C54_log_prior_of_processes_partial"
   ],
   "note": "False as stated: check_stability always raises, log_prior() raises TypeError; log_prior of explicit processes proved."
  },
  {
   "property": "C55",
   "status": "proved",
   "theorems": [
    "C55_concave",
    "C55_stationary_is_global_maximum"
   ],
   "note": ""
  },
  {
   "property": "C56",
   "status": "partial",
   "theorems": [
    "C56_links_invert",
    "C56_add_data_partial",
    "C56_relu_link_refuted",
    "C56_silent_rate_refuted",
    "C56_add_data_without_bias_refuted"
   ],
   "note": "False in the code for the softplus link and for filtered data without a bias column (hstack of a 1-d and a 2-d array always raises); the remaining cases are proved."
  },
  {
   "property": "C57",
   "status": "partial",
   "theorems": [
    "C57_objective",
    "C57_G_rows_sum_to_one_partial",
    "C57_rate_is_consistent",
    "C57_linear_fit_positive",
    "C57_default_node_objective_refuted",
    "C57_zero_rows_not_uniform_refuted",
    "C57_fresh_model_G_refuted"
   ],
   "note": "Objective, consistency with the rate and non-zero rows proved; rows with zero weight sum become NaN/inf (division before the test), so the uniform fallback is dead code: refuted."
  },
  {
   "property": "C58",
   "status": "proved",
   "theorems": [
    "C58_rate_is_intensity",
    "C58_weighted_impulses",
    "C58_masked_impulses_sum"
   ],
   "note": "exact with the compiled impulse (1e-8 trimming and float constant explicit in the statement)"
  },
  {
   "property": "C59",
   "status": "proved",
   "theorems": [
    "C59_parent_update",
    "C59_probabilities",
    "C59_schedule_independent",
    "C59_serial_sampler_agrees"
   ],
   "note": ""
  },
  {
   "property": "C60",
   "status": "proved",
   "theorems": [
    "C60_sufficient_statistics"
   ],
   "note": ""
  },
  {
   "property": "C61",
   "status": "proved",
   "theorems": [
    "C61_transform",
    "C61_impulse_is_density",
    "C61_interval_probabilities",
    "C61_total_mass_one",
    "C61_compiled_constant",
    "C61_compiled_impulse"
   ],
   "note": "total mass one proved as an improper integral"
  },
  {
   "property": "C62",
   "status": "proved",
   "theorems": [
    "C62_log_likelihood",
    "C62_additive_and_local"
   ],
   "note": ""
  },
  {
   "property": "C63",
   "status": "partial",
   "theorems": [
    "C63_actual_value",
    "C63_compute_rate_partial",
    "C63_compute_rate_refuted"
   ],
   "note": "False of the code: weights are ignored and only the last event of each parent in the window counts; exact value given, and correct when the weights are 1 and at most one event is in the window."
  },
  {
   "property": "C64",
   "status": "proved",
   "theorems": [
    "C64_generate"
   ],
   "note": "every outcome of the Poisson, normal and uniform draws; the events returned are exactly the cluster process the trace of calls describes"
  },
  {
   "property": "C65",
   "status": "partial",
   "theorems": [
    "C65_actual_request",
    "C65_posterior_iff_means_agree",
    "C65_single_dataset_partial",
    "C65_pooled_posterior_refuted",
    "C65_draw_factorises"
   ],
   "note": "Exact for one data set; with several, the between-data-set variation is lost (exact condition given and counterexample)."
  },
  {
   "property": "C66",
   "status": "partial",
   "theorems": [
    "C66_binning",
    "C66_round_trip_partial",
    "C66_round_trip_refuted"
   ],
   "note": "Exact up to the last process that has an event: trailing silent processes are dropped by the way back, and a recording without events raises (counterexample)."
  },
  {
   "property": "C67",
   "status": "partial",
   "theorems": [
    "C67_unique_names_partial",
    "C67_unique_names_refuted",
    "C67_pattern_meaning"
   ],
   "note": "Unique in every history that only creates names through the function (and touches unrelated names); false after a deletion, with name families sharing a prefix, and with brackets in the name."
  },
  {
   "property": "C68",
   "status": "proved",
   "theorems": [
    "C68_logistic_range_and_monotone",
    "C68_logit_inverts_logistic",
    "C68_logistic_inverts_logit"
   ],
   "note": ""
  },
  {
   "property": "C69",
   "status": "proved",
   "theorems": [
    "C69_inhomogeneous"
   ],
   "note": "including a draw equal to 0, where the negative index happens to give the first grid time"
  },
  {
   "property": "C70",
   "status": "proved",
   "theorems": [
    "C70_cross_correlation",
    "C70_zero_lag_diagonal",
    "C70_scores",
    "C70_moving_average",
    "C70_smoothed_scores",
    "C70_refused_lags"
   ],
   "note": "dtmax at most T+1"
  },
  {
   "property": "C71",
   "status": "partial",
   "theorems": [
    "C71_bernoulli_log_probability",
    "C71_bernoulli_negentropy",
    "C71_bernoulli_negentropy_refuted",
    "C71_gamma_log_probability",
    "C71_gamma_negentropy",
    "C71_discrete_onehot_partial",
    "C71_discrete_refuted",
    "C71_discrete_negentropy",
    "C71_dirichlet_single",
    "C71_dirichlet_rows_partial",
    "C71_beta_rows_refuted",
    "C71_dirichlet_negentropy",
    "C71_broadcast_negentropy_partial",
    "C71_broadcast_negentropy_refuted",
    "C71_valid_params",
    "C71_invalid_params_accepted_refuted",
    "C71_gamma_negentropy_integral",
    "C71_beta_negentropy_integral",
    "C71_dirichlet_negentropy_integral",
    "C71_dirichlet_needs_an_entry",
    "C71_dirichlet_boundary_refuted",
    "C71_dirichlet_means",
    "C71_beta_half_override_refuted"
   ],
   "note": "Proved for Bernoulli, Gamma and single-row Dirichlet; refuted for one-hot Discrete with a zero category (NaN), index form (raises), several rows (normaliser), and vacuous parameter assertions. Default negative entropies of gamma, beta and Dirichlet are the integrals of density times log density. A Dirichlet at a boundary point with concentration 1 gives NaN instead of a finite log density, and a single expectation passed to the Beta negative entropy is ignored."
  },
  {
   "property": "C72",
   "status": "partial",
   "theorems": [
    "C72_parallel_iff",
    "C72_thread_variable_refuted"
   ],
   "note": "False of the code: whenever OMP_NUM_THREADS is set the comparison of a string with 0 raises and the serial sampler is used; exact condition proved (Python 3)."
  },
  {
   "property": "C73",
   "status": "partial",
   "theorems": [
    "C73_sgd_honours_update_p",
    "C73_batch_ignores_update_p_refuted",
    "C73_batch_changes_p_refuted"
   ],
   "note": "The stochastic update honours update_p; the batch update tests update_c instead (refuted)."
  },
  {
   "property": "C74",
   "status": "proved",
   "theorems": [
    "C74_nodes_in_lockstep",
    "C74_fresh"
   ],
   "note": ""
  },
  {
   "property": "C75",
   "status": "partial",
   "theorems": [
    "C75_objective_convex_partial",
    "C75_softplus_not_convex_refuted"
   ],
   "note": "Convex for the linear, homogeneous and exponential nodes; a counterexample for the softplus node."
  },
  {
   "property": "C76",
   "status": "proved",
   "theorems": [
    "C76_edges_from_posterior",
    "C76_serial_parallel_agree",
    "C76_no_data_prior"
   ],
   "note": ""
  },
  {
   "property": "C77",
   "status": "proved",
   "theorems": [
    "C77_weight_posterior",
    "C77_no_children_without_edge"
   ],
   "note": ""
  },
  {
   "property": "C78",
   "status": "proved",
   "theorems": [
    "C78_add_data_accepts"
   ],
   "note": ""
  },
  {
   "property": "C79",
   "status": "partial",
   "theorems": [
    "C79_impulse_grid_is_density_refuted",
    "C79_interior_partial"
   ],
   "note": "The two end points of the grid are NaN; every interior point is the density."
  },
  {
   "property": "C80",
   "status": "proved",
   "theorems": [
    "C80_smoothed_rate",
    "C80_binned_rate",
    "C80_refused_grid",
    "C80_smoothing_kernel"
   ],
   "note": ""
  },
  {
   "property": "C81",
   "status": "proved",
   "theorems": [
    "C81_spike_and_slab_sweep",
    "C81_mixture_sweep",
    "C81_network_sweep"
   ],
   "note": "The whole-sweep functions of M_Sweep: each draw is conditioned on the values drawn earlier in the same sweep, not on stale ones."
  },
  {
   "property": "C82",
   "status": "proved",
   "theorems": [
    "C82_continuous_sweep"
   ],
   "note": "Every component of the post-sweep state is given as a function of exactly the old/new components it must be conditioned on. The background rates see only the last data set (finding of C23), which the theorem states explicitly."
  },
  {
   "property": "C83",
   "status": "partial",
   "theorems": [
    "C83_bound_increases_partial",
    "C83_histories_monotone_partial",
    "C83_bound_increases_euler_partial",
    "C83_histories_monotone_euler_partial"
   ],
   "note": "Proved for every number of data sets, processes, bins and steps when dt = 1, self-connections are allowed, and the network is Erdos-Renyi with 0<p<1 or an unfrozen block model with one block; up to the explicit effect of the 1e-32 inside the compiled bound's logarithms (the python routine: no slack). Otherwise false of the code: see C84_bias_dt_refuted (dt <> 1), C85_no_self_connections_refuted, C85_nan_refuted. The *_euler theorems hold of Euler's log-gamma and digamma (Gauss's limit; contract proved in L_Gamma), with no hypothesis on gammaln/psi."
  },
  {
   "property": "C84",
   "status": "partial",
   "theorems": [
    "C84_bias_maximises_partial",
    "C84_impulses_maximise",
    "C84_weights_maximise",
    "C84_block_model_maximises",
    "C84_erdos_renyi_maximises",
    "C84_bias_dt_refuted",
    "C84_bias_maximises_euler_partial",
    "C84_impulses_maximise_euler",
    "C84_weights_maximise_euler",
    "C84_block_model_maximises_euler",
    "C84_erdos_renyi_maximises_euler",
    "euler_gamma_functions"
   ],
   "note": "Every block except the background rates is unconditional given a finite bound (any number of blocks); the background rates' update is the maximiser only for dt = 1, C84_bias_dt_refuted proves that for any other dt it never is. The *_euler theorems hold of Euler's log-gamma and digamma (Gauss's limit; contract proved in L_Gamma), with no hypothesis on gammaln/psi."
  },
  {
   "property": "C85",
   "status": "partial",
   "theorems": [
    "C85_bound_finite_partial",
    "C85_histories_finite_partial",
    "C85_no_self_connections_refuted",
    "C85_nan_refuted",
    "C85_fixed_sparsity_raises_refuted"
   ],
   "note": "Finite for every valid state, and along every history of updates, when self-connections are allowed, probabilities lie inside (0,1) and the block model's sparsity is not fixed. Refuted otherwise: never finite with self-connections disallowed (NaN after one step on non-empty data), TypeError with the fixed-sparsity block model."
  },
  {
   "property": "C86",
   "status": "partial",
   "theorems": [
    "C86_bias_share",
    "C86_erdos_renyi_share",
    "C86_impulse_share_partial",
    "C86_impulse_share_refuted",
    "C86_bias_share_euler",
    "C86_erdos_renyi_share_euler",
    "C86_bias_share_integral",
    "C86_erdos_renyi_share_integral",
    "C86_impulse_share_integral_partial",
    "C86_weights_share_integral",
    "C86_block_model_share_partial"
   ],
   "note": "Exact for background rates and Erdos-Renyi scale. The impulse responses' share counts the prior's normalising constant once instead of K*K times: exact discrepancy proved, refuted for K >= 2. The *_euler theorems hold of Euler's log-gamma and digamma (Gauss's limit; contract proved in L_Gamma), with no hypothesis on gammaln/psi. The *_integral theorems state the divergences as integrals of density times log ratio of densities; the weights' and the block model's shares are covered too (the latter counts the sparsity prior's constant once instead of C*C times)."
  },
  {
   "property": "C87",
   "status": "partial",
   "theorems": [
    "C87_bias",
    "C87_spike_and_slab_partial",
    "C87_certain_edge_refuted",
    "C87_mixture_partial",
    "C87_mixture_no_self_refuted",
    "C87_impulses_partial",
    "C87_impulses_refuted"
   ],
   "note": "Proved exactly for background rates; for edges and weights when edge probabilities lie in [1e-32,1). False of the code: an edge of probability 1 makes the whole adjacency term vanish (nan_to_num of the sum), the mixture model with self-connections disallowed reports NaN, and the impulse-response normalising constant has the wrong sign."
  },
  {
   "property": "C88",
   "status": "partial",
   "theorems": [
    "C88_value_partial",
    "C88_differences_partial",
    "C88_ignores_rates_refuted",
    "C88_continuous_value_partial",
    "C88_continuous_ignores_weights_refuted"
   ],
   "note": "The reported value is log likelihood + edges/weights prior (discrete time) or + background prior (continuous time): equal to the joint up to a constant among states that share the rest; false in general, since the priors of the other blocks are left out."
  },
  {
   "property": "C89",
   "status": "partial",
   "theorems": [
    "C89_block_model_partial",
    "C89_block_normaliser_refuted",
    "C89_other_networks_raise_refuted"
   ],
   "note": "For a block model: log prior density plus an explicit constant, 0 for one block. False: the Beta normaliser is wrong for two or more blocks, and fixed-sparsity / Erdos-Renyi networks raise."
  },
  {
   "property": "C90",
   "status": "partial",
   "theorems": [
    "C90_parents",
    "C90_background",
    "C90_impulses",
    "C90_weights",
    "C90_edges",
    "C90_mixture",
    "C90_scales",
    "C90_block_weights",
    "C90_erdos_renyi",
    "C90_probabilities_partial",
    "C90_probabilities_refuted",
    "C90_labels_partial",
    "C90_labels_refuted",
    "C90_attributable"
   ],
   "note": "One joint density (Spec_Joint, complete_joint) for both models. Proved: parents (chain rule: complete-data likelihood = likelihood + log probability of the multinomials drawn + constant of the counts), background rates, impulse responses, weights, adjacency (with attributions resp. weights summed out), block scales, block weights, Erdos-Renyi scale are its conditionals; a parent update always leaves a state of positive density (C90_attributable). False of the code: connection probabilities when self-connections are disallowed (never the conditional), and node labels unless diagonal blocks agree (the pair (k,k) is counted too often)."
  },
  {
   "property": "C91",
   "status": "partial",
   "theorems": [
    "C91_parameters_from_posterior",
    "C91_network_from_posterior",
    "C91_weights_independent",
    "C91_shared_draw_refuted",
    "C91_self_connections_refuted",
    "C91_default_network_refuted",
    "C91_fixed_network_refuted",
    "C91_after_initialisation",
    "C91_after_mean_field",
    "C91_from_gibbs_sample"
   ],
   "note": "The requested laws and their means are proved for every parameter and network. False of the code: after initialize_from_gibbs all absent edges share one gamma draw; self edges and positive self weights occur with self-connections disallowed; with the class's default Erdos-Renyi network (no gamma prior on the scale) the call raises AttributeError after replacing the other parameters; a user-fixed block model is overwritten."
  },
  {
   "property": "C92",
   "status": "proved",
   "theorems": [
    "C92_mixed_histories"
   ],
   "note": "Invariant over every finite sequence of the seven kinds of calls (inductive reach, arguments may depend on the state); networks supporting mean field = block models, and Erdos-Renyi with a gamma prior on its scale."
  },
  {
   "property": "C93",
   "status": "partial",
   "theorems": [
    "C93_expectations_partial",
    "C93_diagonal_error",
    "C93_self_connection_refuted",
    "C93_fixed_expectations",
    "C93_expected_notp_partial"
   ],
   "note": "Proved for distinct nodes (any C) and for C = 1. On self pairs with C >= 2 the code averages over two independent labels of the same node: exact error formula and counterexample."
  },
  {
   "property": "C94",
   "status": "partial",
   "theorems": [
    "C94_fit_never_worse",
    "C94_start_within_bounds",
    "C94_rows_independent",
    "C94_rowwise_is_joint_optimum",
    "C94_stationary_is_global_optimum",
    "C94_gradient_of_objective",
    "C94_self_weights_raised_refuted"
   ],
   "note": "Proved except the last clause: with self-connections disallowed the placeholder self weights 1e-32 lie below the lower bound 1e-16 and are raised to it (refuted), which lowers nothing else. scipy's optimiser is any strategy meeting bounded_optimiser."
  },
  {
   "property": "C95",
   "status": "proved",
   "theorems": [
    "C95_logspace_fit",
    "C95_gradient_of_objective",
    "C95_stationary_is_global_optimum"
   ],
   "note": "exp/log over reals: overflow of exp and nan_to_num on it are not modelled."
  },
  {
   "property": "C96",
   "status": "partial",
   "theorems": [
    "C96_node_fit_never_worse",
    "C96_process_fit_never_worse",
    "C96_local_optimum_is_global",
    "C96_silent_node_refuted"
   ],
   "note": "Proved for nodes with at least one event; the local-to-global part for linear and exponential links (the softplus objective is not convex, C75). Refuted for a silent node: its objective is NaN at every point."
  },
  {
   "property": "C97",
   "status": "proved",
   "theorems": [
    "C97_adjacency_update_invariant",
    "C97_continuous_update_invariant",
    "C97_mixture_update_exact"
   ],
   "note": "Means over the K*K uniforms are iterated Riemann integrals (Spec_Invariance). The continuous-time statement conditions on the freshly drawn weights, as the code does (weights first, then edges). One independent uniform per edge is assumed; which numbers the code really uses is C101 (forked workers share them)."
  },
  {
   "property": "C98",
   "status": "partial",
   "theorems": [
    "C98_background",
    "C98_impulses",
    "C98_weights",
    "C98_erdos_renyi",
    "C98_block_model_partial",
    "C98_self_connection_refuted",
    "C98_model",
    "C98_block_weights"
   ],
   "note": "Improper (iterated) Riemann integrals with Euler's Gamma function (Spec_Moments); exact everywhere except the block model's diagonal, where the code averages over two independent labels of the same node (refuted)."
  },
  {
   "property": "C99",
   "status": "partial",
   "theorems": [
    "C99_parents",
    "C99_marginal",
    "C99_background_partial",
    "C99_background_refuted",
    "C99_weights",
    "C99_impulses_partial",
    "C99_impulses_refuted",
    "C99_edges",
    "C99_network_partial",
    "C99_network_refuted",
    "C99_erdos_renyi",
    "C99_legal"
   ],
   "note": "Joint density in Spec_CtJoint; parents as volumes of boxes of uniforms. True of parents, weights, edges, Erdos-Renyi scale; background rates only with one recording (refuted with two: only the last is used), impulse parameters exactly when the recordings' mean transformed delays agree for every pair (iff; refuted otherwise), block-model probabilities and labels under the C90 restrictions (refuted without). Delay density as the compiled code evaluates it (cut within 1e-8 of the ends); marginal and edges assume no two events exactly dt_max - 1e-8 apart."
  }
 ]
}
