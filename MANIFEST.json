{
 "claims": [
  {
   "property": "C01",
   "status": "proved",
   "theorems": [
    "C01_ordered_pass"
   ],
   "note": "API level: after any history, interleaved with any other calls, data level."
  },
  {
   "property": "C02",
   "status": "proved",
   "theorems": [
    "C02_shuffle_is_concatenation_of_permutations"
   ],
   "note": "For every generator whose choice without replacement is a permutation."
  },
  {
   "property": "C03",
   "status": "proved",
   "theorems": [
    "C03_in_epochs"
   ],
   "note": ""
  },
  {
   "property": "C04",
   "status": "proved",
   "theorems": [
    "C04_full_aligned_batches",
    "C04_device_random_batches"
   ],
   "note": "Also: all arrays of the data set are indexed by the same observations."
  },
  {
   "property": "C05",
   "status": "proved",
   "theorems": [
    "C05_cache_size_irrelevant_random",
    "C05_cache_size_irrelevant_ordered"
   ],
   "note": ""
  },
  {
   "property": "C06",
   "status": "proved",
   "theorems": [
    "C06_chain_isolation",
    "C05_cache_size_irrelevant_random"
   ],
   "note": ""
  },
  {
   "property": "C07",
   "status": "partial",
   "theorems": [
    "C07_checkpoint_restores_partial",
    "C07_checkpoint_reusable_refuted"
   ],
   "note": "Restoring is proved for one load; the clause that the checkpoint can be used again is false of the code (popitem empties it): refuted."
  },
  {
   "property": "C08",
   "status": "proved",
   "theorems": [
    "C08_register_random",
    "C08_register_ordered",
    "C08_construction"
   ],
   "note": ""
  },
  {
   "property": "C09",
   "status": "proved",
   "theorems": [
    "C09_batch_stream",
    "C09_same_as_direct_client"
   ],
   "note": "NumpyDataLoader underneath, device_count = 1, any interleaving with other accesses."
  },
  {
   "property": "C10",
   "status": "proved",
   "theorems": [
    "C10_full_map",
    "C10_full_map_unmasked",
    "C10_pointwise_results",
    "C10_reduction",
    "C14_concurrent_maps"
   ],
   "note": "Host loaders (NumpyDataLoader). C14_concurrent_maps adds full_data_mapper with concurrent callers."
  },
  {
   "property": "C12",
   "status": "proved",
   "theorems": [
    "C12_replicas"
   ],
   "note": "The loader underneath is any loader whose chains are independent streams (proved for NumpyDataLoader in C06)."
  },
  {
   "property": "C13",
   "status": "partial",
   "theorems": [
    "C13_outdated_token_partial",
    "C13_outdated_data_state",
    "C13_nonstrict_returns_data_refuted"
   ],
   "note": "Detection is proved for every history, for the request table and for an earlier copy of a data state in programs with any number of loaders, accesses and states (C13_outdated_data_state); the clause about verify_calls=False is false of the code (UnboundLocalError after the warning): refuted."
  },
  {
   "property": "C14",
   "status": "proved",
   "theorems": [
    "C14_concurrent_maps",
    "C14_caches_reused"
   ],
   "note": ""
  },
  {
   "property": "C11",
   "status": "partial",
   "theorems": [
    "C11_device_map_partial",
    "C11_rotation_is_permutation",
    "C11_device_results_partial",
    "C11_later_pass_in_order_refuted",
    "C11_batch_size_refuted"
   ],
   "note": "Every map covers each observation exactly once, but as a rotation of the data; order on later passes and the batch size clause are false of the code: refuted."
  },
  {
   "property": "C15",
   "status": "proved",
   "theorems": [
    "C15_restore",
    "C15_hdf5_loader_is_numpy_loader"
   ],
   "note": ""
  },
  {
   "property": "C16",
   "status": "proved",
   "theorems": [
    "C16_uuid_roundtrip",
    "C16_uuid_injective"
   ],
   "note": ""
  },
  {
   "property": "C50",
   "status": "proved",
   "theorems": [
    "C50_random_reference_data_sizes",
    "C50_host_access",
    "C50_host_full_access"
   ],
   "note": ""
  },
  {
   "property": "C17",
   "status": "partial",
   "theorems": [
    "C17_roundtrip_partial",
    "C17_dict_positions",
    "C17_long_list_refuted",
    "C17_namedtuple_refuted",
    "C17_empty_list_refuted"
   ],
   "note": "Holds for containers of at most 10 elements, alphabetical namedtuple fields and no empty lists; false otherwise (names are sorted as strings): refuted."
  },
  {
   "property": "C18",
   "status": "partial",
   "theorems": [
    "C18_names_partial",
    "C18_npz_file_partial",
    "C18_mislabelled_refuted",
    "C18_slash_clash_refuted"
   ],
   "note": "As C17; false for lists of more than 10 elements and keys with slashes: refuted."
  },
  {
   "property": "C19",
   "status": "proved",
   "theorems": [
    "C19_no_save"
   ],
   "note": ""
  },
  {
   "property": "C20",
   "status": "proved",
   "theorems": [
    "C20_save_equals_no_save",
    "C20_batched_callback"
   ],
   "note": "Includes overflow: both drop the samples after the last row."
  },
  {
   "property": "C21",
   "status": "partial",
   "theorems": [
    "C21_json_crash_partial",
    "C21_json_finalize",
    "C21_crash_in_finalize_refuted"
   ],
   "note": "True at every crash point except during finalize if w divides n (the complete file is truncated before it is rewritten): refuted."
  },
  {
   "property": "C22",
   "status": "partial",
   "theorems": [
    "C22_wait_partial",
    "C22_blocks_until_finalize",
    "C22_file_complete_refuted"
   ],
   "note": "The result is complete in every interleaving; the npz file may be missing when finished returns: refuted."
  },
  {
   "property": "C23",
   "status": "proved",
   "theorems": [
    "C23_hdf5_roundtrip",
    "C23_registration",
    "C23_slash_clash_rejected"
   ],
   "note": "Also for reading subtrees."
  },
  {
   "property": "C24",
   "status": "proved",
   "theorems": [
    "C24_schedule_of_iteration",
    "C24_defaults",
    "C28_polynomial",
    "C25_burn_in"
   ],
   "note": ""
  },
  {
   "property": "C25",
   "status": "proved",
   "theorems": [
    "C25_burn_in",
    "C25_kept_iterations",
    "C25_override"
   ],
   "note": ""
  },
  {
   "property": "C26",
   "status": "proved",
   "theorems": [
    "C26_thinning",
    "C26_positive_steps",
    "C26_any_steps",
    "C26_not_a_number_refuted"
   ],
   "note": "For every choice function that draws different positions of nonzero probability (a weight that is NaN or infinite counts as nonzero, as in jnp.count_nonzero). C26_not_a_number_refuted proves the last sentence of the statement, i.e. refutes that too many selections are always rejected."
  },
  {
   "property": "C27",
   "status": "proved",
   "theorems": [
    "C27_bound_thinning",
    "C27_default_thinning_exact",
    "C27_matching_thinning_exact",
    "C27_long_burn_in"
   ],
   "note": "A burn-in longer than the run announces a negative number (C27_long_burn_in)."
  },
  {
   "property": "C28",
   "status": "proved",
   "theorems": [
    "C28_polynomial",
    "C28_rejected",
    "C28_nan_rejected"
   ],
   "note": "Reals instead of floats."
  },
  {
   "property": "C29",
   "status": "partial",
   "theorems": [
    "C29_first_last_partial",
    "C29_rejected",
    "C29_equal_refuted",
    "C29_one_iteration_refuted"
   ],
   "note": "Proved for first>last and at least two iterations; false for first=last (NaN) and one iteration (AssertionError): refuted."
  },
  {
   "property": "C30",
   "status": "partial",
   "theorems": [
    "C30_adaptive_partial",
    "C30_scheduler",
    "C30_target_override_refuted",
    "C30_nan_refuted"
   ],
   "note": "All clauses but the override of the target acceptance rate, which the code ignores: refuted. A NaN acceptance ratio during burn-in makes the step size NaN for ever: C30_nan_refuted."
  },
  {
   "property": "C31",
   "status": "partial",
   "theorems": [
    "C31_collected_counter_partial",
    "C31_static",
    "C31_stateful_refuted"
   ],
   "note": "Proved for all schedulers of the library; false for user defined schedulers with state: refuted."
  },
  {
   "property": "C32",
   "status": "proved",
   "theorems": [
    "C32_returned_samples",
    "C32_burn_in",
    "C32_long_burn_in",
    "C32_deterministic"
   ],
   "note": "For every solver and scheduler the returned rows are get(state after update i) at the kept iterations in order, update i gets the schedules of iteration i, exactly `iterations` updates; rows beyond the announced number would be dropped, C27 bounds it. A burn-in longer than the run raises."
  },
  {
   "property": "C33",
   "status": "proved",
   "theorems": [
    "C33_chains_alone",
    "C33_collector",
    "C33_unknown_strategy"
   ],
   "note": "map strategy with no_save and with a MemoryCollector in any reachable state."
  },
  {
   "property": "C53",
   "status": "partial",
   "theorems": [
    "C53_vmap_no_save",
    "C53_vmap_collector_refuted",
    "C53_vmap_collector_example_refuted"
   ],
   "note": "vmap=map proved for no_save. Refuted for io.save: stop_vmap is the identity, the callback runs for every iteration and burn-in/thinned samples are stored instead of the kept ones (for one chain: exactly the first samples_collected iterations)."
  },
  {
   "property": "C34",
   "status": "partial",
   "theorems": [
    "C34_pair_partial",
    "C34_variance_mean",
    "C34_swap_inverted_refuted",
    "C34_example_refuted"
   ],
   "note": "Exchange-or-not, own schedules, running mean proved. The decision is inverted: the chains are exchanged iff NOT u < s: refuted."
  },
  {
   "property": "C35",
   "status": "proved",
   "theorems": [
    "C35_potential_of_position",
    "C35_step",
    "C35_nan_rejected"
   ],
   "note": "NaN energies are rejected, but then the reported ratio is NaN."
  },
  {
   "property": "C36",
   "status": "partial",
   "theorems": [
    "C36_potential_of_position",
    "C36_step_partial",
    "C36_nan_accepted_refuted"
   ],
   "note": "All clauses for finite energies; a NaN potential is accepted with ratio 1: refuted."
  },
  {
   "property": "C48",
   "status": "partial",
   "theorems": [
    "C48_roundtrip",
    "C48_list_vmap_partial",
    "C48_empty",
    "C48_fewer_leaves",
    "C48_no_leaves",
    "C48_mismatch_refuted"
   ],
   "note": "list_vmap = map proved for all lists of trees of one shape; an empty list or a tree with fewer leaves raises. Refuted: other structure mismatches are not rejected, the first structure is used, extra leaves dropped."
  },
  {
   "property": "C49",
   "status": "proved",
   "theorems": [
    "C49_add",
    "C49_multiply",
    "C49_mismatch",
    "C49_scale",
    "C49_dot",
    "C49_ravel",
    "C49_tensor",
    "C49_tensor_other"
   ],
   "note": "Broadcasting is not modelled."
  },
  {
   "property": "C37",
   "status": "proved",
   "theorems": [
    "C37_sgld_step",
    "C37_zero_temperature",
    "C37_preconditioned_step",
    "C37_one_batch_per_step"
   ],
   "note": ""
  },
  {
   "property": "C38",
   "status": "proved",
   "theorems": [
    "C38_covariance",
    "C38_energies"
   ],
   "note": "Expectation is an arbitrary linear functional; second moments."
  },
  {
   "property": "C39",
   "status": "proved",
   "theorems": [
    "C39_reversible_frictionless",
    "C39_reversible_friction",
    "C39_momentum_step",
    "C39_momentum_covariance"
   ],
   "note": "Gradients depending on position and batch only; with friction for diagonal masses."
  },
  {
   "property": "C54",
   "status": "proved",
   "theorems": [
    "C54_detailed_balance",
    "C54_reverse_map"
   ],
   "note": "Densities up to the common normalisation constant. Includes: density * acceptance probability is the minimum of both densities."
  },
  {
   "property": "C55",
   "status": "proved",
   "theorems": [
    "C55_detailed_balance",
    "C55_reverse_map"
   ],
   "note": "As C54. Note: sggmc does not negate the momentum after a rejection (C36_step_partial)."
  },
  {
   "property": "C56",
   "status": "partial",
   "theorems": [
    "C56_step_partial",
    "C56_noise_covariance",
    "C56_fluctuation_dissipation_refuted",
    "C56_momentum_resampled",
    "C56_default_friction_refuted"
   ],
   "note": "All clauses but the covariance, which is 2 eps C^2 instead of 2 eps C: refuted for every friction other than 0 and 1."
  },
  {
   "property": "C40",
   "status": "proved",
   "theorems": [
    "C40_langevin_keys",
    "C40_obabo_keys",
    "C40_friction_leapfrog_keys",
    "C40_reversible_leapfrog_keys",
    "C40_amagold_keys",
    "C40_sggmc_keys",
    "C40_parallel_tempering_keys",
    "C40_langevin_log_complete",
    "C40_obabo_log_complete",
    "C40_friction_leapfrog_log_complete",
    "C40_reversible_leapfrog_log_complete",
    "C40_amagold_log_complete",
    "C40_sggmc_log_complete",
    "C40_parallel_tempering_log_complete",
    "C40_device_loader_keys",
    "C40_default_keys_refuted",
    "C40_thinning_key_refuted",
    "C40_device_nonvacuous",
    "C40_keys_nonvacuous"
   ],
   "note": "within a solver run all keys of random.normal/random.uniform are pairwise independent; the key logs are proved complete. Beyond the statement: with explicit independent keys this also covers the batch selection on the device, with the default keys it does not (C40_default_keys_refuted: the key selecting the batch is the parent of the noise keys), and the default thinning key is an ancestor of all of them (C40_thinning_key_refuted)"
  },
  {
   "property": "C52",
   "status": "partial",
   "theorems": [
    "C52_same_noise_refuted",
    "C52_identical_chains_refuted",
    "C52_explicit_keys_partial",
    "C52_nonvacuous"
   ],
   "note": "refuted for the alias solvers: every chain is initialised with PRNGKey(0) and gets the same noise; proved for chains initialised with independent keys"
  },
  {
   "property": "C41",
   "status": "partial",
   "theorems": [
    "C41_minibatch_value",
    "C41_masked_value",
    "C41_strategies",
    "C41_new_state_single",
    "C41_new_state_batched",
    "C41_padding_refuted",
    "C41_batch_of_one_refuted"
   ],
   "note": "Value proved for every strategy and likelihood. Refuted: the mask of the mini batch is not looked at, padding rows of the last in-epoch batch do contribute; a batched likelihood with a batch of one observation raises."
  },
  {
   "property": "C42",
   "status": "proved",
   "theorems": [
    "C42_full_potential",
    "C42_concurrent",
    "C42_device"
   ],
   "note": "Host loader with full_reference_data and with full_data_mapper (any concurrency), and device loader (any start position), any number of evaluations."
  },
  {
   "property": "C43",
   "status": "partial",
   "theorems": [
    "C43_with_replacement",
    "C43_tuples_are_all",
    "C43_random_order",
    "C43_epoch",
    "C43_shuffled",
    "C43_padded_epoch_refuted"
   ],
   "note": "All sampling schemes of the loader. If mb does not divide N the in-epoch average is biased by the padding (outside the property as stated): refuted example. The batch size one with a batched likelihood is excluded (C41_batch_of_one_refuted)."
  },
  {
   "property": "C44",
   "status": "proved",
   "theorems": [
    "C44_rms_prop",
    "C44_second_moment_bounds",
    "C44_psgld_step"
   ],
   "note": "real arithmetic; composed with the langevin_diffusion step of C37"
  },
  {
   "property": "C45",
   "status": "partial",
   "theorems": [
    "C45_statistics",
    "C45_before_burn_in",
    "C45_initial",
    "C45_adapted",
    "C45_default_mass_refuted"
   ],
   "note": "proved for a given initial covariance; refuted for the documented default None (C45_default_mass_refuted: get raises)"
  },
  {
   "property": "C46",
   "status": "partial",
   "theorems": [
    "C46_diagonal",
    "C46_constant_coordinate",
    "C46_dense_refuted"
   ],
   "note": "diagonal proved wherever the samples vary; dense refuted: the root of the covariance is used instead of the root of its inverse"
  },
  {
   "property": "C47",
   "status": "partial",
   "theorems": [
    "C47_estimate",
    "C47_estimate_full",
    "C47_exact_partial",
    "C47_identical_refuted",
    "C47_split",
    "C47_small_friction_refuted",
    "C47_mixed_friction_refuted",
    "C47_dense_refuted",
    "C47_gradient"
   ],
   "note": "exact value of the estimate; refuted in general: the mean gradient is added instead of subtracted, so identical observations give nonzero noise; equal to the covariance only where the mean gradient vanishes"
  },
  {
   "property": "C51",
   "status": "partial",
   "theorems": [
    "C51_accepted_samples",
    "C51_too_few_iterations",
    "C51_no_thinning",
    "C51_adaptive_thinning",
    "C51_default_steps",
    "C51_defaults",
    "C51_sgld",
    "C51_default_steps_refuted",
    "C51_default_burn_in_refuted"
   ],
   "note": "The counts hold for all six functions (C51_sgld composes scheduler, integrator, adaption, solver and saving end to end). Refuted: with default arguments amagold and sggmc have NaN step sizes; sgld, sghmc, obabo with default arguments and any positive burn_in raise."
  },
  {
   "property": "C57",
   "status": "proved",
   "theorems": [
    "C57_batch_stream",
    "C57_direct",
    "C57_balanced",
    "C57_no_early_repetition",
    "C57_in_range",
    "C57_cache_one",
    "C57_epochs_refuted",
    "C57_rejected"
   ],
   "note": "tensorflow pipeline operations modelled from their documentation, with an arbitrary choice of the shuffle buffer element; C57_epochs_refuted records that no epoch structure is guaranteed"
  },
  {
   "property": "C58",
   "status": "proved",
   "theorems": [
    "C58_stationary",
    "C58_stationary_riemann",
    "C58_integrable",
    "C58_integral"
   ],
   "note": "C58_stationary: for any integral that is linear and invariant under compositions of shears, sign changes and exchanges of coordinates. C58_integral: the improper Riemann integral (RiemannSpec.v) is one. C58_stationary_riemann: stationarity for it; continuous stochastic gradient and potential, continuous integrable test functions; C58_integrable: bounded functions are integrable and the density has a positive integral if exp(-U) decays."
  },
  {
   "property": "C59",
   "status": "partial",
   "theorems": [
    "C59_stationary_partial",
    "C59_stationary_even",
    "C59_stationary_riemann",
    "C59_integrable",
    "C59_odd_refuted"
   ],
   "note": "sggmc keeps the momentum after a rejection instead of negating it: the exact defect of the stationarity is given; it vanishes for functions that are even in the momentum, e.g. functions of the position, for one step from the target distribution (C59_stationary_even, with the Riemann integral C59_stationary_riemann). For other functions stationarity is false, even with exact gradients: C59_odd_refuted (harmonic potential, every friction > 0 and step size < sqrt 2)."
  },
  {
   "property": "C60",
   "status": "proved",
   "theorems": [
    "C60_batches",
    "C60_same_format_as_initializer",
    "C60_get_batches",
    "C60_initializer_batch",
    "C60_device",
    "C60_dtypes"
   ],
   "note": "Histories without restoring a loader checkpoint; the conversion of single elements to a narrower dtype is an arbitrary function."
  },
  {
   "property": "C61",
   "status": "proved",
   "theorems": [
    "C61_streams",
    "C61_release",
    "C61_released_for_good"
   ],
   "note": "Precondition: nobody restores or draws from the chain of the data state directly at the loader."
  },
  {
   "property": "C62",
   "status": "proved",
   "theorems": [
    "C62_results",
    "C62_call",
    "C62_first_state_refuted",
    "C62_cache_reused_after_error_refuted"
   ],
   "note": "information=False; calls outside of jit. The documented behaviour for mb_size > 1 with a carry is refuted (C62_first_state_refuted)."
  },
  {
   "property": "C63",
   "status": "proved",
   "theorems": [
    "C63_obabo",
    "C63_sghmc"
   ],
   "note": "adapt_noise_model=False (the default) for sghmc. The noise term of SGHMC is friction * sqrt(2 eps) (see C56 for what this means)."
  },
  {
   "property": "C64",
   "status": "proved",
   "theorems": [
    "C64_sgld",
    "C64_obabo",
    "C64_sghmc"
   ],
   "note": "The rest of the program must not release the access, call the data state or advance the loader chain itself. Parameters of C51/C63 otherwise."
  },
  {
   "property": "C65",
   "status": "proved",
   "theorems": [
    "C65_messages",
    "C65_few_iterations",
    "C65_off"
   ],
   "note": "Burn-in and thinning must be constant schedules such as those of the library (C31_static); for others see C31_stateful_refuted. Float rounding of iterations / p and of the percentage is not modelled."
  },
  {
   "property": "C66",
   "status": "proved",
   "theorems": [
    "C66_amagold",
    "C66_sggmc"
   ],
   "note": "Real numbers; the full potential is finite (for NaN see C32/C33); without mass adaption; temperature one as set by the aliases."
  },
  {
   "property": "C67",
   "status": "partial",
   "theorems": [
    "C67_re_sgld_partial",
    "C67_re_sgld_refuted"
   ],
   "note": "The documented exchange is refuted (C67_re_sgld_refuted: the decision is inverted, see C34); with the exchange as implemented everything else is proved (C67_re_sgld_partial). Both are the same statement re_sgld_claim with a different exchange rule. Real numbers."
  },
  {
   "property": "C68",
   "status": "partial",
   "theorems": [
    "C68_isolated",
    "C68_writes_invisible",
    "C68_no_copy",
    "C68_shallow_copy_refuted"
   ],
   "note": "Proved for checkpoints used directly or copied with deepcopy. False for checkpoints copied with dict() (the obvious way to reuse a checkpoint, as load_state empties it, C07): the restored chains share the array random_indices and an epoch loses observations (C68_shallow_copy_refuted)."
  },
  {
   "property": "C69",
   "status": "partial",
   "theorems": [
    "C69_number_of_batches",
    "C69_number_of_batches_nat",
    "C69_shuffle_buffer",
    "C69_shuffle_buffer_nat",
    "C69_progress_period_partial",
    "C69_progress_period_nat_partial",
    "C69_progress_period_refuted",
    "C69_huge_data_refuted"
   ],
   "note": "The batch counts are proved for all sizes below 2^53 (beyond that false, C69_huge_data_refuted). The period of the progress bar is exact for less than 2^24 iterations only: with 41943059 iterations and the default 20 steps it is off by one (C69_progress_period_refuted)."
  },
  {
   "property": "C70",
   "status": "proved",
   "theorems": [
    "C70_stationary",
    "C70_mean",
    "C70_independent"
   ],
   "note": "mean_of_chain (ChainSpec.v) is the mean over the independent uniform numbers of the acceptance tests of the state after N calls of the solver's update; the integral (RiemannSpec.v) is over position, momentum and all N * steps random vectors. C70_mean: the means exist. C70_independent: batches drawn independently. Without mass adaption, real arithmetic."
  },
  {
   "property": "C71",
   "status": "proved",
   "theorems": [
    "C71_sgld",
    "C71_obabo",
    "C71_sghmc"
   ],
   "note": "JAX's value_and_grad is a parameter jgrad with the specification exact_gradients (a pytree like the argument with the partial derivatives wherever they exist); differentiability is only assumed along the trajectory, the samples, likelihoods and model states do not need it. Real arithmetic. A batched likelihood must not be used with batch size 1 (C41_batch_of_one_refuted)."
  },
  {
   "property": "C72",
   "status": "proved",
   "theorems": [
    "C72_diagonal",
    "C72_full",
    "C72_user"
   ],
   "note": "The deviation from the mean in the estimate uses the sign of the code (g_i - mean of the gradient of the potential, see C47: the code adds instead of subtracting), so the estimate is not the sample variance; the theorem states what the code computes. jax.numpy.linalg.svd is a parameter. Real arithmetic."
  },
  {
   "property": "C73",
   "status": "proved",
   "theorems": [
    "C73_amagold",
    "C73_sggmc",
    "C73_program",
    "C73_stateless"
   ],
   "note": "With a model state, observation i sees the state after the batches before its own (the code threads the state through the pass); C73_stateless shows that without a state the value is exactly the negative log posterior over T. JAX's gradient is assumed exact (exact_gradients). Real arithmetic. C73_program requires that no operation of the initialisation fails."
  },
  {
   "property": "C74",
   "status": "partial",
   "theorems": [
    "C74_user_partial",
    "C74_user_refuted"
   ],
   "note": "The full claim re_sgld_user_claim documented_exchange is false of the code (C74_user_refuted, same defect as C34, C67: the branches of lax.cond are swapped); C74_user_partial proves everything with the exchange that is implemented. JAX's gradient is assumed exact. Real arithmetic."
  },
  {
   "property": "C75",
   "status": "proved",
   "theorems": [
    "C75_collector",
    "C75_no_save",
    "C75_too_few_devices"
   ],
   "note": "The initialisation (registration of the chains) and the postprocessing are sequential in the code (solver.py:162-184), only the iterations interleave; every device executes its own iterations in order and a callback is atomic (it holds the collector's lock-free Python code under the GIL)."
  },
  {
   "property": "C76",
   "status": "proved",
   "theorems": [
    "C76_amagold",
    "C76_sggmc"
   ],
   "note": "initial_mass=None raises TypeError (C45), the dense adaption uses a wrong root (C46), a constant coordinate gives an infinite root (C46): these cases are excluded by the hypotheses.  C76_nonvacuous runs the adapted solver on a concrete case across the end of the burn-in."
  },
  {
   "property": "C77",
   "status": "proved",
   "theorems": [
    "C77_moments",
    "C77_vanishing_steps",
    "C77_polynomial",
    "C77_constant_step_bias"
   ],
   "note": "Expectations are arbitrary normalised linear functionals (no measure theory is needed for first and second moments). That minibatch gradients are unbiased is C43; that the noise of different steps comes from different keys is C40. C77_nonvacuous meets the hypotheses with coin tosses."
  },
  {
   "property": "C78",
   "status": "proved",
   "theorems": [
    "C78_sgld",
    "C78_obabo",
    "C78_sghmc",
    "C78_default_cache_refuted"
   ],
   "note": "The statement includes that the default cache_size cannot be used (C78_default_cache_refuted) and that chains share their minibatches. Hypotheses met: C78_nonvacuous."
  },
  {
   "property": "C79",
   "status": "proved",
   "theorems": [
    "C79_amagold",
    "C79_sggmc"
   ],
   "note": "That the pass uses batches of cache_size observations instead of batch_size is C11_batch_size_refuted; on the aliases it is harmless for the value of the potential. Hypotheses met: C79_nonvacuous."
  },
  {
   "property": "C80",
   "status": "proved",
   "theorems": [
    "C80_with_replacement",
    "C80_random_order",
    "C80_recorded_refuted",
    "C80_scale",
    "C80_single",
    "C80_full_batch_refuted"
   ],
   "note": "The documented meaning of the recorded variance is refuted (C80_recorded_refuted, C80_full_batch_refuted); the statement says what holds. That the integrator records the variance of the batch's log likelihoods is C37, that the exchange step uses its running mean is C34/C67/C74. Hypotheses met: C80_nonvacuous, W43."
  },
  {
   "property": "C81",
   "status": "partial",
   "theorems": [
    "C81_device_partial",
    "C81_device_refuted"
   ],
   "note": "Partial because the exchange of the code is the inverted one (C67): with the documented exchange the claim is false (C81_device_refuted); all other parts, in particular the shared minibatches, are proved in C81_device_partial. Hypotheses met: C81_nonvacuous."
  },
  {
   "property": "C82",
   "status": "partial",
   "theorems": [
    "C82_weights",
    "C82_monotone",
    "C82_proportional_partial",
    "C82_schedules",
    "C82_proportional_refuted"
   ],
   "note": "Weights, monotonicity and the schedules are proved for every number of selections; proportionality (the documentation of random_thinning) holds for one selection (C82_proportional_partial) and is false for more, because the selections are drawn without replacement: C82_proportional_refuted. Hypotheses met: C82_nonvacuous."
  },
  {
   "property": "C83",
   "status": "partial",
   "theorems": [
    "C83_polynomial",
    "C83_robbins_monro",
    "C83_first_last",
    "C83_defaults_refuted",
    "C83_first_last_refuted",
    "C83_constant_refuted"
   ],
   "note": "The totals and the characterisation 1/2 < gamma <= 1 are proved; the part about the defaults is refuted: gamma = 0.33 (default of polynomial_step_size), the constant default of init_scheduler (C83_defaults_refuted), and the schedule of the aliases for every gamma, because its last step size is fixed (C83_first_last_refuted), do not satisfy the conditions; nor does any constant schedule (C83_constant_refuted). Hypotheses met: C83_nonvacuous."
  },
  {
   "property": "C84",
   "status": "partial",
   "theorems": [
    "C84_sound",
    "C84_wrong_format_raises",
    "C84_complete",
    "C84_hdf5",
    "C84_hdf5_mismatch",
    "C84_tf",
    "C84_tf_unknown_dims",
    "C84_missing_mask",
    "C84_tf_mask",
    "C84_hdf5_shorter_refuted"
   ],
   "note": "All parts are proved except the last sentence, which is refuted: HDF5Loader.__init__ reads only the length of the first dataset; a shorter later dataset makes an access fail with IndexError in the middle of a run (C84_hdf5_shorter_refuted), whereas NumpyDataLoader raises ValueError for the same arrays. The runtime's rejection of arrays of another format (lax.cond, io_callback) is modelled from jax's documentation. Hypotheses met: C84_hdf5_nonvacuous, C84_hdf5_mismatch_nonvacuous, C84_tf_nonvacuous, C84_mask_nonvacuous."
  },
  {
   "property": "C85",
   "status": "partial",
   "theorems": [
    "C85_moments",
    "C85_vanishing_steps_refuted",
    "C85_polynomial_refuted",
    "C85_single_step",
    "C85_single_step_variance",
    "C85_single_step_ignores_data"
   ],
   "note": "The convergence of the mean is proved, the rest of the claim is refuted. Every integration draws a new momentum and each inner step moves the position before it updates the momentum, so that the last gradient of an integration is never used. With L >= 2 inner steps the mean tends to the posterior mean but the variance to L/(L-1) times the posterior variance (C85_vanishing_steps_refuted; 10/9 for the default of 10 integration steps), for the polynomial step sizes with gamma <= 1/2 in particular (C85_polynomial_refuted). With one inner step the positions are a random walk that does not depend on the data, the potential or the friction (C85_single_step, C85_single_step_ignores_data) and the variance is the sum of the squared step sizes over the mass (C85_single_step_variance). C85_moments gives the exact recursions of mean and variance. Hypotheses met: C85_nonvacuous."
  },
  {
   "property": "C86",
   "status": "proved",
   "theorems": [
    "C86_vanishing_steps",
    "C86_polynomial",
    "C86_constant_step"
   ],
   "note": "moments_tend_to states the limits of mean and second moments of position and momentum, uniformly in the coordinates and in the distribution of the random numbers. root_mass is the square root of the mass. Contrast with C85: OBABO keeps its momenta and uses every gradient. Hypotheses met: C86_nonvacuous."
  },
  {
   "property": "C87",
   "status": "proved",
   "theorems": [
    "C87_vanishing_steps",
    "C87_device",
    "C87_host",
    "C87_polynomial"
   ],
   "note": "independent_run (MinibatchSpec.v) states uniformity and independence with respect to polynomials in the earlier noise with coefficients that depend on the earlier index lists, so that true Gaussian noise qualifies. quadratic states the log densities; A is the posterior precision, mu solves A mu = right hand side. Hypotheses met for every number of steps, conclusion instantiated for a model with two observations: C87_nonvacuous."
  },
  {
   "property": "C88",
   "status": "proved",
   "theorems": [
    "C88_constant_step",
    "C88_unstable"
   ],
   "note": "batch_noise f g is N^2 / (mb Tp^2) times the population covariance pop_cov (MinibatchSpec.v) over the observations; the batches are drawn with replacement. Hypotheses met and conclusions instantiated for two observations and batches of one, for every number of steps: C88_nonvacuous_stable (variance 7/17 instead of 1/3), C88_nonvacuous_unstable."
  },
  {
   "property": "C89",
   "status": "proved",
   "theorems": [
    "C89_distance",
    "C89_vanishing_steps",
    "C89_constant_step",
    "C89_device_batches",
    "C89_host_batches"
   ],
   "note": "Concavity and Lipschitz continuity are stated for the gradients (ConcaveSpec.v: concave_gradient, lipschitz_gradient) of the user's log likelihood and log prior; JAX's gradients are exact (exact_gradients). Reals instead of floats. runs_ok: every batch is the selection of mb observations of the data set. Hypotheses met by Bayesian logistic regression with three observations and batches of two and the default polynomial step sizes: C89_nonvacuous."
  },
  {
   "property": "C90",
   "status": "proved",
   "theorems": [
    "C90_noise_bound",
    "C90_constant_step",
    "C90_vanishing_steps"
   ],
   "note": "m' = m / Tp, L = (N Ll + Lp) / Tp, S1 = batch_factor Ll^2, S2 = batch_factor spread. independent_steps (StabilitySpec.v) asks for independence only for functions of the position that are Lipschitz or sums of products of two Lipschitz functions. Hypotheses met by Bayesian logistic regression with two observations, batches of one and coins as randomness, for every number of steps: C90_nonvacuous."
  },
  {
   "property": "C91",
   "status": "proved",
   "theorems": [
    "C91_average",
    "C91_weighted_average",
    "C91_plain_average",
    "C91_polynomial",
    "C91_bounded_steps",
    "C91_constant_step"
   ],
   "note": "for_runs (PropertiesAverages.v) spells out the quantification over runs exactly as in C87_vanishing_steps; x k is the sample after k iterations, so burn_in = 1 averages the samples that the solver returns. Reals instead of floats. Hypotheses met for two observations, batches of one, coins as randomness and the default schedule: C91_nonvacuous."
  },
  {
   "property": "C92",
   "status": "proved",
   "theorems": [
    "C92_source",
    "C92_host",
    "C92_device"
   ],
   "note": "returned r k c (AverageAlias.v) reads coordinate c of 'variables' in row k of the returned samples. The threshold of the step sizes exists (e1) but is not computed; the default step sizes of the alias may lie above it for a given model. The independence hypothesis covers one step more than the run makes. Reals instead of floats. Hypotheses met on a host loader with two observations, batches of one, coins as randomness: C92_nonvacuous."
  },
  {
   "property": "C93",
   "status": "proved",
   "theorems": [
    "C93_coalesce",
    "C93_device"
   ],
   "note": "The theorems hold for every function in place of jax.random.normal and jax.random.randint. All iterations - burn_in samples are returned (accepted_samples). returned is defined in AverageAlias.v, distance2 and the hypotheses on the model in ConcaveSpec.v. That chains of the device loader see the same batches is C78. Reals instead of floats. Hypotheses met for two chains from 0 and 10 with rate 0.98: C93_nonvacuous."
  },
  {
   "property": "C94",
   "status": "proved",
   "theorems": [
    "C94_average",
    "C94_weighted_average",
    "C94_plain_average",
    "C94_polynomial",
    "C94_constant_step"
   ],
   "note": "for_runs4 (PropertiesSecondMoment.v) spells out the quantification over runs as in C91, plus the bound on the fourth moments of the noise. x k is the sample after k iterations. Both the centred products and the products are bounded in C94_average. Reals instead of floats. Hypotheses met for two observations, batches of one, coins as randomness and the default schedule: C94_nonvacuous."
  },
  {
   "property": "C95",
   "status": "proved",
   "theorems": [
    "C95_bounded_steps",
    "C95_source",
    "C95_host",
    "C95_device"
   ],
   "note": "sample_mean, sample_covariance and error_scale are defined at the head of PropertiesCovariance.v, returned in AverageAlias.v. All iterations - burn_in samples are returned (accepted_samples). The independence of the draws is assumed of the random number generators (independent_run). Reals instead of floats. Hypotheses met for every number of iterations with two observations, batches of one and coins as randomness: C95_nonvacuous."
  },
  {
   "property": "C96",
   "status": "proved",
   "theorems": [
    "C96_mean_error",
    "C96_mean_limit",
    "C96_vanishing_steps",
    "C96_polynomial"
   ],
   "note": "mean_position (PropertiesObaboAverage.v) is the average; at_ n w the state after n integrations, standard_noise as in C86. Reals instead of floats; the noise need not be independent or normal, only uncorrelated. Hypotheses met for every number of integrations, two inner steps each, coins as randomness, constant and polynomial steps: C96_nonvacuous."
  },
  {
   "property": "C97",
   "status": "proved",
   "theorems": [
    "C97_bounded_steps",
    "C97_alias"
   ],
   "note": "returned r k j (AverageAlias.v) is coordinate j of the variables in row k of what the alias returns for a chain; answer in C97_alias is the result of the run function. The gradient must be exact, i.e. the same for every batch. Reals instead of floats; the noise need not be independent or normal, only uncorrelated. Hypotheses met for every number of iterations and every burn in: C97_nonvacuous."
  },
  {
   "property": "C98",
   "status": "proved",
   "theorems": [
    "C98_bounded_steps",
    "C98_vanishing_steps",
    "C98_polynomial",
    "C98_alias"
   ],
   "note": "mean_sghmc is the average of coordinate i over the states at_ of C85; returned r k j (AverageAlias.v) is coordinate j of the variables in row k of what the alias returns for a chain. With one leapfrog step the positions are a random walk (C85), hence L >= 2. The gradient must be exact, i.e. the same for every batch. Reals instead of floats; the noise need not be independent or normal, only uncorrelated. Hypotheses met for every number of iterations and every burn in: C98_nonvacuous."
  },
  {
   "property": "C99",
   "status": "proved",
   "theorems": [
    "C99_sgld",
    "C99_obabo",
    "C99_sghmc",
    "C99_sgld_pooled",
    "C99_obabo_pooled",
    "C99_sghmc_pooled"
   ],
   "note": "C99_sgld, C99_obabo, C99_sghmc: the gap is chosen before the random numbers, data sources and histories; the ..._pooled theorems compare the variance of pooled_mean (all chains) with that of chain_mean (chain c). returned r k j (AverageAlias.v) is coordinate j of the variables in row k of what the alias returns for a chain. Follows up on C52 and C93. Reals instead of floats; the expectation is any linear functional with E 1 = 1. Hypotheses met: C99_nonvacuous (two chains of alias.obabo)."
  },
  {
   "property": "C101",
   "status": "proved",
   "theorems": [
    "C101_alias"
   ],
   "note": "The counterpart of C100 for SGLD at the level of the alias; C77, C87 and C88 treat langevin_diffusion with unbiased gradients and the limits of the moments. The eigenvector is a left eigenvector; A need not be symmetric or positive. variance E X = E (X - E X)^2; returned r k j is coordinate j of the variables in row k of the result of a chain. Reals instead of floats; the expectation is any linear functional with E 1 = 1. Hypotheses met on both sides of the limit: C101_nonvacuous."
  },
  {
   "property": "C100",
   "status": "proved",
   "theorems": [
    "C100_too_large",
    "C100_variance_unbounded",
    "C100_geometric",
    "C100_stable_bounded",
    "C100_alias"
   ],
   "note": "Complements C86 (limits of the moments for h^2 lam < 4 m). at_ n is the state after n integrations (integrator.py:317-338), as in C86. Reals instead of floats; the expectation is any linear functional with E 1 = 1. Hypotheses met for every number of integrations, with both sides of the limit: C100_nonvacuous (two coins for each inner step), and for a run of alias.obabo: C100_alias_nonvacuous."
  }
 ]
}