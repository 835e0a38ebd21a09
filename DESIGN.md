# Formal model of tummfm/jax-sgmc in Rocq (Coq 8.16.1)

## Method
* The code is read as text; every function that matters for a property is re-written as a total, computable
  Gallina function that mirrors the Python branch by branch.  Each definition carries a comment with file and lines.
* Exceptions are values (`Exc kind`), mutation becomes returning the new state, random generators / user functions /
  library primitives whose value is irrelevant become arguments (section variables that are closed by the section, so they
  are universally quantified in the theorems).
* Layout of `rocq/theories/`
  * `<Topic>.v`          – model only (definitions, no proofs)
  * `<Topic>Spec.v`      – small specification, independent of the model's helpers (where one is needed)
  * `<Topic>Proofs.v`    – lemmas
  * `Properties<Topic>.v`– only theorems `Theorem … . Proof. exact lemma. Qed. Print Assumptions …`, plus non-vacuity `Example`s.
* A property that is false of the code is proved false: `…_refuted : exists …`; the part that is true is proved too.
  A theorem which covers only a part of its property is called `…_partial`.

## Plan per property (what is modelled, how it is proved)
| id | model | proof |
|----|-------|-------|
| C01 | `NumpyLoader.v`: `_ordered_indices`, `get_batches` | induction over batches; closed form of batch k; epoch flattening lemma |
| C02 | ring buffer of `_shuffle_indices` as function on lists, permutation oracle | invariant: buffer window = pending stream; refinement to "infinite concatenation of permutations" |
| C03 | `_shuffle_in_epochs` | invariant over draws; epoch lemma |
| C04 | `_draw_indices` etc. | invariant: all buffer entries < N |
| C05 | `get_batches` with cache sizes | induction on list of cache sizes |
| C06 | loader = list of chains; ops register/get | induction over op list, projection of history on a chain |
| C07 | `save_state`, `load_state` incl. `popitem` on the shared checkpoint | round trip for every state; refutation of the second load |
| C08 | validation branches | case analysis |
| C09 | `_hcb_wrapper`, `Cache`-state machine on abstract host stream | refinement to stream |
| C10 | `_full_reference_data_host` loop + masks + truncation | uses C01, C09 |
| C11 | `_full_reference_data_device` | arithmetic of offsets; refutation of order and of batch size |
| C12,C13 | `_Requests` as state machine over requests with tokens; for C13 also the hub (Hub.v): an earlier copy of a data state used again (PropertiesOutdated.v) | invariant over op lists / all interleavings |
| C14 | `_FullDataHelper` pool machine | invariant |
| C15 | `unique` + inverse (specified sorted-dedup model) | list lemmas |
| C16 | four 32 bit words | bit lemmas on N |
| C17,C18,C23 | `PyTree.v`: trees, sorted flattening, dictionize rules | structural induction; counterexamples by computation |
| C19,C20,C21,C22 | collectors as state machines | invariants over op lists/interleavings |
| C24–C27, C31 | `Scheduler.v` | induction over updates; counting lemmas |
| C28–C30 | reals (`Rpower`) and extended floats for the degenerate cases | real analysis from stdlib |
| C32,C33,C53 | `Solver.v` mcmc loop generic in solver/scheduler/saving | induction over iterations |
| C34–C36 | parallel tempering / amagold / sggmc steps generic in integrator | invariants over histories |
| C37–C39, C54–C56 | integrators over pytrees of reals (`Integrator.v`), combined with the solvers (`MhIntegrators.v`) | algebra, induction over steps; covariances with a linear expectation functional |
| C40, C52 | symbolic keys (path in the split tree) | prefix-freeness by induction |
| C41–C43 | potentials over R | sums over lists |
| C44–C47 | adaption over R | induction over updates, `field`/`nra` |
| C48,C49 | list_map/tree_util on trees | structural induction |
| C50,C51 | validation, alias composition | uses C25–C29 |
| C58, C59 | the steps of amagold / sggmc as maps of the space of positions, momenta and noise (`VolumeSpec.v`, `PropertiesVolume.v`; integral: `RiemannSpec.v`, `PropertiesRiemann.v`; refutation: `SggmcOdd.v`, `PropertiesSggmc.v`) | decomposition into shears; palindromic structure gives the reverse map; exchange of accepted forward and backward moves |
| C60 | `ArrayData.v`: the loader, caches and callback again with arrays (dtype, shape, row-major elements) and the format check of the callback; `ArraySpec.v` | simulation by the index level model (`DataCore.v`), then C09's stream |
| C61 | `Hub.v`: several loaders, accesses, data states; the registry `_host_data_loaders` (release) and the shared request table; `HubSpec.v` | invariant on hub states (per data state: position in its stream; per access: liveness), each step only affects its own loader chain |
| C62 | `MapUnbatched.v`: the two definitions of batched_fun and the errors of mapper_fn on top of `FullMapper.v` | C14's result for the batched function, then the pass over the data is regrouped into observations |
| C63 | `Alias.v` (obabo_solver, sghmc_solver), spec in `AliasHmc.v` (obabo_trajectory, sghmc_trajectory) | the run is reduced to the iterates of the integrator (`AliasRun.v`), whose leapfrog steps are enumerated through all iterations |
| C64 | `AliasData.v`: the data source of the integrators is the access of `Hub.v`; spec `stream_source`, `alias_started`, `chain_source` | the hub invariant of C61 gives the batches of a state; trajectories depend on the source only through its batches |
| C65 | `Progress.v` (message of step_fn / _print_fn) | induction over the updates, multiples of the period enumerated by ceil_div, counter by C31 |
| C66 | `AliasMh.v`, `AliasMhRun.v` | run theorem for Metropolis-Hastings solvers with all step size schedules, trajectory of the proposal by induction over the leapfrog steps, one-step equation with the acceptance test |
| C67 | `AliasReSgld.v` | simulation by a solver on pairs of equal structure, replicas tracked through the exchanges, induction over the iterations |
| C68 | `MemoryLoader.v`, `MemorySpec.v`, `MemoryProofs.v`, `PropertiesMemory.v` | host memory with references, in-place updates; separation invariant (every index array has one owner), refinement of the value semantics of NumpyLoader.v |
| C69 | `FloatSizes.v` (IEEE rounding of Flocq), `FloatSizesSpec.v` | error bound of the rounded quotient is smaller than its distance to the next integer; counterexamples by computing the rounding |
| C70 | `PropertiesBalance.v` (am_step), `ChainSpec.v` | every step is a volume preserving involution on the phase space with all random vectors (conjugated by an exchange of blocks of random vectors); backward induction over the steps, the accepted part of a sequence of batches is exchanged with the rejected part of the sequence with the reversed step |
| C71 | `EndToEndSpec.v` (user_*: what minibatch_potential and value_and_grad give to the integrators; posterior_*, next_state, drawn_indices: specification) | C64 for the trajectories on the stream of batches, C41 for the value of the potential on a batch, differentiation of the finite sum; the trajectory is transported to the index lists |
| C72 | `AliasNoise.v` (fisher_get, fisher_noise, noise_solver, noise_init: model; noise_estimate, noise_matrix, noise_trajectory: specification), `PropertiesNoise.v` (user level) | invariant along the inner leapfrog steps and the outer scan; the estimate is monotone in the step size so that the bound for the first step size covers all; transport of batches to index lists as in C71 |
| C73 | `SourceReads.v` (data states as sources), `MhUserSpec.v` (hub_scan, user_full: model of the full map on a data state; full_posterior, pass_state, mh_sources: specification), `MhUserProofs.v`, `PropertiesMhUser.v` | induction over the passes: after e passes the ordered data state is at call e ceil(N/mb); transport of the trajectories of C66 to index lists and the full posterior. `MhProgram.v`, `PropertiesMhProgram.v` (initialisation order of the data states) | induction over the chains with the numbers of data states and loader chains |
| C74 | `PropertiesReSgldUser.v` (posterior_likelihoods, indexed_source, pair_start, re_sgld_user_claim: specification) | C67 for the loader's batches, transported to index lists along both replicas; refutation by a flat likelihood with rate one |
| C75 | `SolverPmap.v` (pmap_loop, mcmc_pmap: model; interleaving: specification), `PropertiesPmap.v` | induction over the interleaving: the operations on the collector of chain c are the saves of its kept samples; C36's final_memory; uniqueness of the stored tree | per-chain traces |
| C76 | `MassAdaption.v` (mass_of, mass_strategy: the adaption handed to the solver; am_forget, sg_forget, inverse: specification), `PropertiesMass.v` | induction over the updates with the invariant 'state of the adaption = mm_run of the positions so far'; C45 gives the mass | history invariant |
| C77 | `GaussianSpec.v` (positive_definite, inverse_matrix, unbiased_step), `PropertiesGaussian.v` (sgld_state: repeated lv_update) | C37's step gives the affine recursion; second moments; (I - eps A) is a contraction in the Frobenius norm; a contraction with steps of divergent sum and vanishing relative perturbation tends to 0 (`GaussianLimit.v`, `GaussianMatrix.v`, `GaussianProofs.v`) | recursion + limit |
| C78 | `PropertiesDeviceAlias.v` (device_source: dev_random_batch as data source; device_indices is the specification) | C51/C63 for the device source, converted to index lists with `EndToEndProofs.v` | recursion, user level |
| C79 | `PropertiesDeviceMh.v` (device_full*: dev_map of the evaluation; specification full_posterior of `MhUserSpec.v`) | C66 for the device source; the pass with batches of one returns to offset 0 | recursion, user level |
| C80 | `VarianceProofs.v` (second moments over all tuples and all permutations), `PropertiesVariance.v`; the potential is that of `Potential.v` | pair marginals: zero for tuples, -sigma^2/(N-1) for permutations (exchange of positions) | exact formula over all batches |
| C81 | `PropertiesDeviceReSgld.v` | C67 for the device source, converted to index lists | recursion, user level |
| C82 | `PropertiesThinning.v` (`selected`: successive draws without replacement, written as a recursion; jax.random.choice is assumed to draw in this way) | induction on the number of draws, exchange of two numbers | probability of an iteration, all keys |
| C83 | `PropertiesRobbins.v` (`total`: sum of powers of the step sizes handed to the solver) | comparison with the integral by telescoping sums, no bound on the number of iterations | runs of every length, all parameters |
| C84 | `HostFormat.v` (generic loader, requests, caches with dtypes and shapes), `HostComplete.v`, `FormatLoaders.v` (HDF5 and tensorflow), `PropertiesFormat.v` | invariants over arbitrary histories | generic in the loader; HDF5 and tensorflow as instances |
| C85 | `SghmcGaussian.v` (linear recursion of the inner steps, expansion in the step size, contraction), `PropertiesSghmcGaussian.v` | linear recursions, induction, limits | every number of integrations; exact gradients, diagonal precision and mass |
| C86 | `ObaboGaussian.v` (second moments of one O-B-A-B-O step, Lyapunov function for vanishing steps, contraction for constant steps), `PropertiesObaboGaussian.v` | linear recursions of the covariance, Lyapunov function, limits | every number of integrations; exact gradients, diagonal precision and mass |
| C87 | `MinibatchSpec.v` (independent index lists and noise, quadratic log densities), `MinibatchProofs.v` (gradient of a quadratic function, the error of the batch gradient is affine in the deviation with coefficients that average out over all index lists, hence unbiased with quadratically bounded variance), `PropertiesMinibatchGaussian.v` (the user's potential; instantiation of C77 for an arbitrary source of batches, the device loader, the host loader) | C71/C78 gradient of the potential + C80 averages over tuples + C77 | every number of steps, every data set; independence is a hypothesis about the generators |
| C88 | `MinibatchVariance.v` (covariance of the batch sums over all index tuples), section Constant of `PropertiesMinibatchGaussian.v` (recursions of mean and variance, contraction, divergence) | C87 + C80 averages of products over tuples + C77 moments | every number of steps; one parameter |
| C89 | `ConcaveSpec.v`, `ConcaveProofs.v` (Minkowski inequality, contraction of one step), `PropertiesContraction.v` (the gradient of a batch is monotone and Lipschitz; synchronous coupling by induction over the steps; limit by GaussianLimit.z_limit) | C37 step + C64 end to end gradient | every number of steps and parameters |
| C90 | `StabilitySpec.v`, `StabilityProofs.v` (expected square of one step; recursions), `PropertiesStability.v` (gradient of the full posterior is monotone and Lipschitz, the batch error is centred with bounded mean square) | C89 + C80 averages over tuples + C37 step | every number of steps and parameters |
| C91 | `AverageProofs.v` (summation by parts, martingale of batch errors and noise, weighted Cauchy inequality), `PropertiesAverages.v` (second moments bounded along the run, corollaries for the weights) | C87 runs + C77 covariance contraction | every number of steps and parameters |
| C92 | `AverageAlias.v` (rows of the returned tree are the positions of the run, recursion of C51 = run of C77), `PropertiesAliasAverage.v` | C51, C64, C78 (alias composition) + C91_bounded_steps | every number of iterations, chains, parameters |
| C93 | `PropertiesCoalesce.v` | C51 / C78 composition, C89 contraction, rows of the returned samples (AverageAlias.v) | every number of iterations and chains |
| C94 | `SecondMomentProofs.v` (Lyapunov equation for y y', fourth moments contract, martingale of y (h, z)', summation by parts), `PropertiesSecondMoment.v` (fourth moments bounded along the run, corollaries for the weights) | C91 + fourth moments | every number of steps and parameters |
| C95 | `PropertiesCovariance.v` | C94 core bounds with bounded steps, C92 composition (alias, loaders, rows of the results) | every number of iterations, chains and parameters |
| C96 | `ObaboAverageProofs.v` (a block of inner steps as a linear map that contracts, hence 1 - map is invertible; the sum of the positions telescopes), `ObaboAverageVary.v` (explicit telescoping with weights that grow as the step size shrinks, summation by parts in mean square), `PropertiesObaboAverage.v` | C86 | every number of steps and coordinates |
| C97 | `ObaboResponse.v` (sum of the positions as a linear response to the noise with geometric decay, bound in mean square), `PropertiesObaboAlias.v` (the run of the alias with step sizes chosen before the random numbers, rows of the samples = positions after the integrations) | C63, C86, C92, C96 | every number of steps and coordinates |
| C98 | `SghmcResponse.v` (covariances of the positions at different times, sum of them for a chain with x' = a_n x + noise, 1 - a_n of the order of the square of the step size), `PropertiesSghmcAverage.v` (bounds of factor and noise of an integration for small steps, the run of the alias with step sizes chosen before the random numbers) | C63, C85, C92, C97 | every number of steps and coordinates |
| C99 | `PropertiesPooled.v` (the difference of two chains obeys a linear recursion without random numbers, rows of the samples = positions after the iterations, variances of two random variables that differ by a constant) | C51, C63, C85, C86 | every number of steps, chains and coordinates |
| C101 | `PropertiesSgldStability.v` (along u the run is the scalar recursion q' = (1 - eps lam) q + sqrt(2 eps) noise; exact recursion of mean and variance) | C51, C77, C88 | every number of iterations and coordinates |
| C100 | `PropertiesObaboStability.v` (moments of a coordinate obey a linear recursion; with k = h sqrt(lam / m) / 2 >= 1 it maps the cone u, -v, w >= 0 into itself and u grows) | C86 | every number of steps and coordinates |
| C57 | `TfLoader.v`: repeat / shuffle buffer / batch with an arbitrary choice, tensorflow loader under `_Requests` | invariant: emitted + buffered = prefix of the repeated data; counting |

## Trusted base
1. Coq 8.16.1's kernel (and its extraction-free `coqc`); the development adds no axiom, no functor or module type, no plugin, and
   switches off no check.  No theorem is proved by `vm_compute` on bounded instances; examples are only used for
   non-vacuity and for refutations (a counterexample refutes a universal claim).
2. The axioms printed by `Print Assumptions` for each theorem named in MANIFEST.json (table below, generated by
   `scripts/gen_axioms.py`).  They are those of the standard library's real numbers (`ClassicalDedekindReals.sig_forall_dec`,
   `ClassicalDedekindReals.sig_not_dec`, `FunctionalExtensionality.functional_extensionality_dep`) and excluded middle
   (`Classical_Prop.classic`, through the standard library's `Rpower`/`ln`/derivative lemmas).
3. That the model is a faithful transcription of the Python code (next sections).

<!-- axioms begin -->
| axioms | theorems |
|---|---|
| none (closed under the global context) | C01_ordered_pass, C02_shuffle_is_concatenation_of_permutations, C03_in_epochs, C04_full_aligned_batches, C04_device_random_batches, C05_cache_size_irrelevant_random, C05_cache_size_irrelevant_ordered, C06_chain_isolation, C07_checkpoint_restores_partial, C07_checkpoint_reusable_refuted, C08_register_random, C08_register_ordered, C08_construction, C09_batch_stream, C09_same_as_direct_client, C10_full_map, C10_full_map_unmasked, C10_pointwise_results, C10_reduction, C14_concurrent_maps, C12_replicas, C13_outdated_token_partial, C13_outdated_data_state, C13_nonstrict_returns_data_refuted, C14_caches_reused, C11_device_map_partial, C11_rotation_is_permutation, C11_device_results_partial, C11_later_pass_in_order_refuted, C11_batch_size_refuted, C15_restore, C15_hdf5_loader_is_numpy_loader, C16_uuid_roundtrip, C16_uuid_injective, C50_random_reference_data_sizes, C50_host_access, C50_host_full_access, C17_roundtrip_partial, C17_dict_positions, C17_long_list_refuted, C17_namedtuple_refuted, C17_empty_list_refuted, C18_names_partial, C18_npz_file_partial, C18_mislabelled_refuted, C18_slash_clash_refuted, C19_no_save, C20_save_equals_no_save, C20_batched_callback, C21_json_crash_partial, C21_json_finalize, C21_crash_in_finalize_refuted, C22_wait_partial, C22_blocks_until_finalize, C22_file_complete_refuted, C23_hdf5_roundtrip, C23_registration, C23_slash_clash_rejected, C24_schedule_of_iteration, C25_burn_in, C25_kept_iterations, C25_override, C27_default_thinning_exact, C27_long_burn_in, C31_collected_counter_partial, C32_returned_samples, C32_burn_in, C32_long_burn_in, C32_deterministic, C33_chains_alone, C33_collector, C33_unknown_strategy, C53_vmap_no_save, C53_vmap_collector_refuted, C48_roundtrip, C48_list_vmap_partial, C48_empty, C48_fewer_leaves, C48_no_leaves, C49_ravel, C49_tensor_other, C40_device_nonvacuous, C52_nonvacuous, C43_tuples_are_all, C51_adaptive_thinning, C57_batch_stream, C57_direct, C57_balanced, C57_no_early_repetition, C57_in_range, C57_cache_one, C57_epochs_refuted, C57_rejected, C60_batches, C60_same_format_as_initializer, C60_get_batches, C60_initializer_batch, C60_device, C60_dtypes, C61_streams, C61_release, C61_released_for_good, C62_results, C62_call, C62_first_state_refuted, C62_cache_reused_after_error_refuted, C65_messages, C65_few_iterations, C65_off, C68_isolated, C68_writes_invisible, C68_no_copy, C68_shallow_copy_refuted, C73_program, C75_collector, C75_no_save, C75_too_few_devices, C78_default_cache_refuted, C84_sound, C84_wrong_format_raises, C84_complete, C84_hdf5, C84_hdf5_mismatch, C84_tf, C84_tf_unknown_dims, C84_missing_mask, C84_tf_mask, C84_hdf5_shorter_refuted, C89_host_batches |
| `ClassicalDedekindReals.sig_forall_dec` | C31_stateful_refuted, C53_vmap_collector_example_refuted, C48_mismatch_refuted, C49_add, C49_multiply, C49_mismatch, C49_scale |
| `ClassicalDedekindReals.sig_forall_dec`, `ClassicalDedekindReals.sig_not_dec`, `Classical_Prop.classic`, `FunctionalExtensionality.functional_extensionality_dep` | C24_defaults, C28_polynomial, C26_positive_steps, C26_not_a_number_refuted, C28_rejected, C28_nan_rejected, C29_first_last_partial, C29_rejected, C29_equal_refuted, C29_one_iteration_refuted, C30_adaptive_partial, C30_scheduler, C30_target_override_refuted, C30_nan_refuted, C34_pair_partial, C34_variance_mean, C34_swap_inverted_refuted, C34_example_refuted, C35_potential_of_position, C35_step, C35_nan_rejected, C36_potential_of_position, C36_step_partial, C36_nan_accepted_refuted, C38_covariance, C54_detailed_balance, C54_reverse_map, C55_detailed_balance, C55_reverse_map, C40_amagold_keys, C40_sggmc_keys, C40_parallel_tempering_keys, C40_amagold_log_complete, C40_sggmc_log_complete, C40_parallel_tempering_log_complete, C51_accepted_samples, C51_too_few_iterations, C51_no_thinning, C51_default_steps, C51_defaults, C51_sgld, C51_default_steps_refuted, C51_default_burn_in_refuted, C58_stationary, C58_stationary_riemann, C58_integrable, C58_integral, C59_stationary_partial, C59_stationary_even, C59_stationary_riemann, C59_integrable, C59_odd_refuted, C63_obabo, C63_sghmc, C64_sgld, C64_obabo, C64_sghmc, C66_amagold, C66_sggmc, C67_re_sgld_partial, C67_re_sgld_refuted, C69_number_of_batches, C69_number_of_batches_nat, C69_shuffle_buffer, C69_shuffle_buffer_nat, C69_progress_period_partial, C69_progress_period_nat_partial, C69_progress_period_refuted, C69_huge_data_refuted, C70_stationary, C70_mean, C70_independent, C71_sgld, C71_obabo, C71_sghmc, C72_diagonal, C72_full, C72_user, C73_amagold, C73_sggmc, C74_user_partial, C74_user_refuted, C76_amagold, C76_sggmc, C77_vanishing_steps, C77_polynomial, C78_sgld, C78_obabo, C78_sghmc, C79_amagold, C79_sggmc, C81_device_partial, C81_device_refuted, C82_schedules, C82_proportional_refuted, C83_polynomial, C83_robbins_monro, C83_first_last, C83_defaults_refuted, C83_first_last_refuted, C85_vanishing_steps_refuted, C85_polynomial_refuted, C86_vanishing_steps, C86_polynomial, C86_constant_step, C87_vanishing_steps, C87_device, C87_host, C87_polynomial, C88_constant_step, C89_vanishing_steps, C90_vanishing_steps, C91_average, C91_weighted_average, C91_plain_average, C91_polynomial, C92_source, C92_host, C92_device, C93_coalesce, C93_device, C94_average, C94_weighted_average, C94_plain_average, C94_polynomial, C95_source, C95_host, C95_device, C96_mean_error, C96_mean_limit, C96_vanishing_steps, C96_polynomial, C97_bounded_steps, C97_alias, C98_polynomial, C98_alias, C99_sgld, C99_obabo, C99_sghmc, C99_sgld_pooled, C99_obabo_pooled, C99_sghmc_pooled, C101_alias, C100_too_large, C100_variance_unbounded, C100_geometric, C100_stable_bounded, C100_alias |
| `ClassicalDedekindReals.sig_forall_dec`, `ClassicalDedekindReals.sig_not_dec`, `FunctionalExtensionality.functional_extensionality_dep` | C37_sgld_step, C37_zero_temperature, C37_preconditioned_step, C37_one_batch_per_step, C38_energies, C39_reversible_frictionless, C39_reversible_friction, C39_momentum_step, C39_momentum_covariance, C56_step_partial, C56_noise_covariance, C56_fluctuation_dissipation_refuted, C56_momentum_resampled, C56_default_friction_refuted, C40_langevin_keys, C40_obabo_keys, C40_friction_leapfrog_keys, C40_reversible_leapfrog_keys, C40_langevin_log_complete, C40_obabo_log_complete, C40_friction_leapfrog_log_complete, C40_reversible_leapfrog_log_complete, C40_device_loader_keys, C40_default_keys_refuted, C40_thinning_key_refuted, C40_keys_nonvacuous, C52_same_noise_refuted, C52_identical_chains_refuted, C52_explicit_keys_partial, C44_rms_prop, C44_psgld_step, C45_statistics, C45_before_burn_in, C45_initial, C45_adapted, C45_default_mass_refuted, C46_diagonal, C46_constant_coordinate, C46_dense_refuted, C47_split, C47_small_friction_refuted, C47_mixed_friction_refuted, C47_dense_refuted, C77_moments, C77_constant_step_bias, C85_moments, C85_single_step, C85_single_step_variance, C85_single_step_ignores_data, C88_unstable, C89_distance, C89_constant_step, C90_constant_step, C91_bounded_steps, C91_constant_step, C94_constant_step, C95_bounded_steps, C98_bounded_steps, C98_vanishing_steps |
| `ClassicalDedekindReals.sig_forall_dec`, `FunctionalExtensionality.functional_extensionality_dep` | C26_thinning, C26_any_steps, C27_bound_thinning, C27_matching_thinning_exact, C31_static, C49_dot, C49_tensor, C41_minibatch_value, C41_masked_value, C41_strategies, C41_new_state_single, C41_new_state_batched, C41_padding_refuted, C41_batch_of_one_refuted, C42_full_potential, C42_concurrent, C42_device, C43_with_replacement, C43_random_order, C43_epoch, C43_shuffled, C43_padded_epoch_refuted, C44_second_moment_bounds, C47_estimate, C47_estimate_full, C47_exact_partial, C47_identical_refuted, C47_gradient, C73_stateless, C80_with_replacement, C80_random_order, C80_recorded_refuted, C80_scale, C80_single, C80_full_batch_refuted, C82_weights, C82_monotone, C82_proportional_partial, C83_constant_refuted, C89_device_batches, C90_noise_bound |
<!-- axioms end -->

## What is modelled
| file of /repo | model | not modelled |
|---|---|---|
| data/numpy_loader.py | NumpyLoader.v (all index functions, registration, checkpoints, get_batches), DeviceData.v (device loader), ArrayData.v (dtypes, shapes), MemoryLoader.v (references and in-place updates), FloatSizes.v | conversion of single elements (an arbitrary function), float weights, deprecated arguments |
| data/core.py | Requests.v (_Requests), DataCore.v (random/full_reference_data, caches, batch_scan), Hub.v (several loaders/accesses/states, release), FullMapper.v, MapUnbatched.v (full_data_mapper), DeviceData.v, ArrayData.v (initializer_batch, batch_format, callback formats) | `host_callback` and `io_callback` themselves (assumed to run the callback once per execution, in program order), jit, pmap |
| data/hdf5_loader.py | Hdf5Loader.v, Hdf5Collector.v (`h5_open`) | MPI drivers |
| data/tensorflow_loader.py | TfLoader.v | pipeline operations repeat / shuffle / batch modelled from tensorflow's documentation, the choice of the buffer element is arbitrary; `_format` (shapes and dtypes) not modelled |
| io.py | Pytree.v, Io.v, Hdf5Collector.v, IoThreads.v (interleavings) | encoding of arrays in JSON, `load`, checkpoints (NotImplementedError in the code) |
| scheduler.py | Scheduler.v, Xreal.v | cyclic schedules (NotImplementedError in the code), printing |
| solver.py | Solver.v (mcmc with map and vmap, sgmc), SolverPmap.v (pmap), Mh.v (parallel tempering, amagold, sggmc), MassAdaption.v (mass adaption inside amagold and sggmc) | loading (raises NotImplementedError) |
| integrator.py | Integrator.v (all four integrators), MhIntegrators.v | jax.grad (the gradient is an argument), rounding |
| potential.py | Potential.v | vmap/pmap/map differ only in scheduling; rounding |
| alias.py | Alias.v, AliasNoise.v (adapt_noise_model), AliasMh.v, AliasReSgld.v (all six functions completely: schedules, thinning, saving, solver, initialisation) | mass adaption is never used by alias.py (for solver.amagold and solver.sggmc: C76); the data states opened inside alias: C62, C71 – C74 |
| util/list_map.py, util/tree_util.py, util/uuid.py, util/stop_vmap.py | TreeUtil.v, Uuid.v, Solver.v (stop_vmap is the identity) | broadcasting, sharding |
| util/testing.py, examples/ | – | test support |

## Simplifications that matter
* Floats are real numbers (in C69 the divisions that produce sizes are modelled with Flocq's IEEE rounding); where a division by zero, an overflow of exp/log or a NaN decides a branch the extended reals of
  Xreal.v are used (Fin/PInf/NInf/NaN with IEEE rules, without rounding and without signed zeros).
* Random generators are arbitrary functions of their state/key.  jax keys are paths in the tree of splits: two keys are
  independent iff neither is an ancestor of the other nor equal (KeySpec.v).
* numpy's `Generator.choice` is an oracle that returns a permutation (or indices below N); everything is proved for all oracles.
* Gradients, likelihoods, priors, model states, user schedulers and user solvers are universally quantified functions.
* A jitted program runs its host callbacks in program order; several programs (chains, threads) interleave arbitrarily.
* "Integral" in C58_stationary, C59_stationary_partial, C59_stationary_even is any linear functional on a domain of integrable functions that is invariant under maps composed of shears by continuous functions, sign changes and exchanges of coordinates. C58_stationary_riemann, C59_stationary_riemann use the improper Riemann integral of continuous functions that is defined in `RiemannSpec.v`; C58_integral proves that it is such a functional and that it agrees with Coquelicot's `RInt` on products of functions of one coordinate with bounded support. Discontinuous test functions are not covered.
* "Expectation" in C38, C39, C56 is any linear functional under which the noise components are uncorrelated with unit variance.

## Findings (claims that the code does not meet, proved as `…_refuted`)
| property | finding |
|---|---|
| C07 | a checkpoint can be loaded only once: `popitem` empties the caller's dictionary |
| C11 | full_reference_data with a device loader uses cached_batches_count as batch size; later passes are rotated |
| C13 | a non-strict access with an outdated token raises UnboundLocalError after its warning instead of returning data |
| C17, C18 | containers with more than 10 elements, unsorted namedtuple fields and empty lists are not restored / mislabelled |
| C21 | crash during finalize may destroy the only complete JSON file |
| C22 | the npz file may not be written yet when `finished` returns |
| C29, C51 | first_step_size = last_step_size (the default of amagold and sggmc) makes every step size NaN; one iteration raises |
| C30 | override of the target acceptance rate ignored; a NaN ratio poisons the step size |
| C31 | progress bar counter wrong for stateful user schedulers |
| C34, C67, C74 | parallel tempering exchanges exactly when it should not (`lax.cond(log_u < log_s, keep, exchange)`) |
| C36, C59 | sggmc accepts a NaN potential; the momentum is not negated after a rejection, so the target distribution is not stationary for functions that are not even in the momentum (defect in C59_stationary_partial; C59_odd_refuted: for the potential x^2/2 with exact gradients the mean of an explicit function strictly decreases in one step from the target distribution) |
| C40, C52 | default keys are reused: same noise in all chains of alias functions |
| C41, C43 | stochastic potential of an epoch with padding is biased |
| C45, C46, C47 | mass adaption without initial covariance raises; the dense root is V^T D V instead of V D^-1/2 V^T; fisher information: sign, NaN and shape errors |
| C48 | list_vmap does not reject trees of different structure |
| C51 | a positive burn-in with otherwise default arguments raises (sgld, sghmc, obabo); the saved "likelihood" belongs to the position before the step (C51_sgld) |
| C53 | under vmap every iteration is saved, kept or not |
| C56 | friction_leapfrog injects noise of covariance 2 eps C^2 instead of 2 eps C |
| C62 | full_data_mapper(batched=False) with mb_size > 1 rejects every carry with leaves (`take_along_axis` with a scalar index); a call that raises leaks its cache state |
| C68 | copies of a checkpoint made with dict() share the index array: chains restored from them overwrite each other's shuffled indices |
| C69 | the period of the progress bar is computed in float32 and is off by one for some runs of more than 2^24 iterations |

