#!/usr/bin/env python3
"""Writes ../properties.jsonl (single source of the property list)."""
import json, os
P = []
def p(i, title, statement, quantifier, why, anchors):
    P.append(dict(id=i, title=title, statement=statement, quantifier=quantifier,
                  why_tests_cant=why, anchors=anchors))
NL="jax_sgmc/data/numpy_loader.py"; DC="jax_sgmc/data/core.py"; H5="jax_sgmc/data/hdf5_loader.py"
IO="jax_sgmc/io.py"; SC="jax_sgmc/scheduler.py"; SO="jax_sgmc/solver.py"; IN="jax_sgmc/integrator.py"
AD="jax_sgmc/adaption.py"; PO="jax_sgmc/potential.py"; AL="jax_sgmc/alias.py"
LM="jax_sgmc/util/list_map.py"; TU="jax_sgmc/util/tree_util.py"; UU="jax_sgmc/util/uuid.py"

p("C01","Ordered passes visit every observation exactly once, in order",
  "A chain registered with register_ordered_pass for N observations and batch size mb (1<=mb<=N) returns, in every group of ceil(N/mb) consecutive batches, the observations 0,1,...,N-1 once each and in this order among the entries whose mask is True; the remaining ceil(N/mb)*mb-N entries (all in the last batch of the group) have mask False.",
  "all N, mb, all numbers of passes, all cache sizes with which get_batches is called",
  "the off-by-one at the wrap-around depends on N mod mb and on how many passes were made; tests sample a few N, mb",
  [NL+":register_ordered_pass", NL+":get_batches", NL+":_ordered_indices"])
p("C02","Shuffled chains are a concatenation of permutations",
  "With shuffle=True and in_epochs=False the stream of drawn observation indices is the concatenation of freshly shuffled permutations of 0..N-1: no observation is repeated within an epoch, none is lost when an epoch ends in the middle of a batch, every mask entry is True.",
  "all N, mb with 1<=mb<=N, all random generators (any sequence of permutations), all histories of draws",
  "the ring buffer is overwritten at data dependent positions; losing an unread sample needs a particular N mod mb phase that only occurs after several epochs",
  [NL+":_shuffle_indices", NL+":register_random_pipeline"])
p("C03","In-epoch shuffling gives whole epochs with the padding masked",
  "With shuffle=True and in_epochs=True every group of ceil(N/mb) batches contains, among the entries with mask True, each observation exactly once; the padding has mask False and is at the end of the last batch of the group.",
  "all N, mb with 1<=mb<=N, all permutations, all histories of draws",
  "quantifies over every epoch of every history; tests check one epoch of a few sizes",
  [NL+":_shuffle_in_epochs", NL+":register_random_pipeline"])
p("C04","Random draws return in-range observations and full batches",
  "Every batch of a random chain contains exactly mb entries, each a valid observation index; with plain draws all mask entries are True.",
  "all N, mb, generators, modes and histories",
  "index validity must hold for all reachable buffer states",
  [NL+":_draw_indices", NL+":_get_indices", NL+":get_batches"])
p("C05","The batch stream does not depend on the cache size",
  "Requesting the batches of a chain in groups of any (possibly changing) cache sizes delivers the same stream of batches and masks as requesting them one by one.",
  "all chains (ordered and all random modes), all sequences of cache sizes",
  "infinitely many ways to split the stream",
  [NL+":get_batches", NL+":_get_indices"])
p("C06","Chains are isolated and reproducible",
  "The batches delivered for a chain are a function of its own registration arguments and of the number of batches requested for it; registrations of, and requests to, other chains interleaved in any order do not change them. Two loaders with equal data and equal registrations deliver equal batches.",
  "all interleavings of registrations and requests on any number of chains",
  "aliasing between chains only shows in particular interleavings",
  [NL+":NumpyDataLoader", NL+":register_random_pipeline", NL+":get_batches"])
p("C07","Data loader checkpoints restore the stream",
  "After save_state of a chain, any further use of the loader, then load_state of that checkpoint, the chain continues exactly as it would have continued at the time of the save and the other chains are not disturbed; the checkpoint is not affected by the use of the loader in between and can be used to restore again.",
  "all loader states reachable by any history, all later histories",
  "requires comparing unboundedly many futures after arbitrary histories, including mutation through shared references",
  [NL+":save_state", NL+":load_state"])
p("C08","Chain registration and loader construction reject impossible requests",
  "A random chain is registered iff 1<=mb<=N and not (in_epochs and not shuffle); mb>N or in_epochs without shuffle raise ValueError and mb=0 raises ZeroDivisionError, and then no chain is created; an ordered chain is registered iff mb<=N, otherwise AssertionError and no chain is created; data arrays of unequal length are rejected with ValueError at construction; chain ids are handed out consecutively and registering a chain does not change the others.",
  "all N, mb, flags, all lists of array lengths, all histories of registrations",
  "rejection must be exact at the boundary for all sizes and must not disturb existing chains",
  [NL+":NumpyBase", NL+":register_random_pipeline", NL+":register_ordered_pass"])
p("C09","The cached random batch function delivers the chain's batch stream",
  "random_reference_data(loader, cached_batches_count, mb_size): the k-th call of the batch function (threading the returned state) returns the k-th batch and mask of the chain, whatever cached_batches_count is, and no batch is skipped or repeated at a cache refill.",
  "all cache sizes >=1, all numbers of calls, any host stream",
  "the refill happens at arbitrary phases; tests use a few cache sizes",
  [DC+":random_reference_data", DC+":_hcb_wrapper", DC+":_random_reference_data_host"])
p("C10","Full data maps on host loaders see every observation once, in order",
  "full_reference_data / full_data_mapper with a HostDataLoader: every call of the map, also after any number of earlier calls, applies the function to ceil(N/mb) batches whose unmasked entries are the observations 0..N-1 in order; the carry is folded in this order; the per-observation results, truncated, are the results for observations 0..N-1; the mask handed to the function marks exactly the padding.",
  "all N, mb, cache sizes, number of successive maps, functions",
  "cache refills carry over between maps, phase depends on gcd of sizes",
  [DC+":full_reference_data", DC+":_full_reference_data_host", DC+":full_data_mapper"])
p("C11","Full data maps on device loaders see every observation once, in order",
  "full_reference_data with a DeviceDataLoader: every call of the map covers every observation exactly once in batches of mb_size and returns the per-observation results in the order of the observations, on the first and on every later pass.",
  "all N, mb, number of successive maps",
  "the state after a pass depends on N mod mb; only later passes can be wrong",
  [DC+":_full_reference_data_device", DC+":full_reference_data", DC+":full_data_mapper"])
p("C12","Replicated requests get identical data and advance the chain once",
  "When a program runs replicated on d devices (or vmapped d times) and every replica requests the next cache with the same token, all d replicas receive the same data and the same next token, for every interleaving of the requests; the data loader is advanced exactly once per round and all cached data is released after the d-th request.",
  "all d, all numbers of rounds, all interleavings in which a replica only uses its latest token",
  "schedules of the replicas are uncontrollable in tests",
  [DC+":_Requests"])
p("C13","Reusing an outdated data state is detected",
  "If a request is made with a token that is neither the current token of the chain nor a token whose data is still held for outstanding replicas, RuntimeError is raised and the data loader is not advanced; with verify_calls=False only a warning is issued and the call returns data. An earlier copy of a data state that is used again after the program went on to another cache delivers the batches left in the cache of the copy, the same as before, and every further call raises without advancing any loader.",
  "all histories of requests",
  "stale tokens arise after arbitrary histories",
  [DC+":_Requests", DC+":random_reference_data"])
p("C14","Concurrent full data maps never share a cache",
  "full_data_mapper: a cache handed to a running map is not handed to another map before it was returned; every returned cache can be used again; after release no map can start.",
  "all interleavings of starting and finishing maps by any number of callers",
  "interleavings",
  [DC+":_FullDataHelper", DC+":full_data_mapper"])
p("C15","The HDF5 loader returns the requested observations in the requested order",
  "Reading a batch through sorted, de-duplicated indices and restoring the order returns for every requested index (in any order and with repetitions) exactly the stored observation at this index.",
  "all index lists, all data",
  "all orders and duplicate patterns",
  [H5+":HDF5Loader", H5+":_get_indices"])
p("C16","Tokens encode UUIDs faithfully",
  "The conversion of a 128 bit uuid to four uint32 words and back (through the hexadecimal string, and through pytree flattening) is the identity, and two tokens denote the same uuid iff their four words are equal.",
  "all 2^128 uuids",
  "domain too large to enumerate",
  [UU+":JaxUUID", DC+":JaxUUID"])
p("C17","pytree to dict conversion is invertible",
  "dict_to_pytree(pytree_to_dict(t), t) == t: every leaf returns to its place.",
  "all pytrees built from dicts, lists, tuples, namedtuples, custom nodes, None and leaves",
  "depends on widths (>=11 elements), field names and nesting",
  [IO+":pytree_to_dict", IO+":dict_to_pytree", IO+":register_dictionize_rule"])
p("C18","Saved leaves are stored under the name of their position",
  "The names produced by pytree_dict_keys for a sample are pairwise different and the i-th name denotes the position of the i-th leaf, hence the npz and HDF5 files written by MemoryCollector and HDF5Collector hold every leaf under its own name.",
  "all pytrees",
  "name clashes and misordering depend on keys, widths and nesting",
  [IO+":pytree_dict_keys", IO+":MemoryCollector", IO+":HDF5Collector"])
p("C19","In-memory collection keeps exactly the accepted samples",
  "no_save: after any sequence of save(keep, sample) calls the i-th row of the result is the i-th sample with keep=True, the sample count is the number of keeps, unused rows are zero; no kept sample is lost as long as at most samples_collected are kept.",
  "all sequences of keeps and samples",
  "all histories",
  [IO+":no_save"])
p("C20","Host collection equals device collection; chains do not mix",
  "save(MemoryCollector) delivers, for every chain, the same samples as no_save would, for every interleaving of the saves of several chains.",
  "all interleavings of any number of chains",
  "interleavings of host callbacks are not controlled by tests",
  [IO+":MemoryCollector", IO+":save"])
p("C21","JSON collection survives crashes up to the write frequency",
  "JSONCollector(dir, write_frequency=w>0): at every moment the file of a chain holds exactly the first w*floor(n/w) of the n samples saved so far; after finalize it holds all samples.",
  "all histories and crash points, all w",
  "crash points",
  [IO+":JSONCollector"])
p("C22","Waiting for a chain implies that its data is complete",
  "MemoryCollector.finished(chain) blocks until finalize(chain) was called and when it returns all samples of the chain are in the result and in the npz file.",
  "all interleavings of the thread that saves and the thread that waits",
  "thread schedules",
  [IO+":MemoryCollector"])
p("C23","HDF5 collector and HDF5 loader are inverse to each other",
  "Samples collected with HDF5Collector and read with HDF5Loader(subdir='/chain~i', sample=...) are the collected samples with every leaf at its place.",
  "all sample pytrees and all sample sequences",
  "depends on shape of the tree (names order)",
  [IO+":HDF5Collector", H5+":HDF5Loader"])
p("C24","The scheduler hands out the schedule of the current iteration",
  "After i updates from the initial state, get returns step size, temperature, burn-in flag and acceptance flag of iteration i of each specific scheduler; unspecified schedulers behave as step size 1, temperature 1, no burn-in, accept all.",
  "all specific schedulers, iterations, numbers of updates, feedback statistics",
  "all histories with arbitrary feedback",
  [SC+":init_scheduler"])
p("C25","Burn-in discards exactly the first n iterations",
  "initial_burn_in(n): iteration i is subject to burn-in iff i<n; with default thinning exactly iterations-n samples are kept for n<=iterations.",
  "all n, iterations",
  "boundary for all n",
  [SC+":initial_burn_in"])
p("C26","Random thinning keeps exactly the requested number of samples",
  "random_thinning(step, burn_in, selections): if the step sizes are positive and finite, exactly `selections` distinct iterations are accepted, none of them subject to burn-in, and every accepted iteration is really saved; fewer available iterations are rejected by an assertion. With arbitrary step sizes an iteration can be drawn if its step size is finite, not zero and after burn-in, or if it is infinite or NaN (then also before burn-in); `selections` distinct ones of these are drawn, those after burn-in are saved, and an assertion rejects exactly the numbers of selections above the number of iterations that can be drawn. Hence with equal first and last step sizes (NaN step sizes, C29) more selections than iterations after burn-in are not rejected and fewer samples than requested are saved.",
  "all step sizes, burn-ins, iterations, selections, all outcomes of the random choice",
  "all outcomes of the random choice",
  [SC+":random_thinning"])
p("C27","The announced number of samples bounds the collected samples",
  "The number of samples kept by the solver never exceeds static_information.samples_collected, so the buffers of no_save and MemoryCollector never overflow; with default thinning or matching random thinning it is equal.",
  "all burn-ins not longer than the run, thinnings, iterations, seeds",
  "composition of three modules for every configuration",
  [SC+":init_scheduler", SO+":mcmc", IO+":no_save"])
p("C28","Polynomial step sizes are positive and decreasing",
  "polynomial_step_size(a,b,gamma) with a,b>0 and gamma>=0 yields eps_i=a*(b+i)^-gamma>0, nonincreasing in i and strictly decreasing iff gamma>0; other parameters are rejected.",
  "all real parameters and iterations",
  "real parameters",
  [SC+":polynomial_step_size"])
p("C29","first/last step size specification meets both ends",
  "polynomial_step_size_first_last(first,last,gamma): iteration 0 has step size first, the last iteration has step size last, in between it decreases; gamma <= 0 or first < last raise AssertionError.",
  "all first>=last>0, gamma>0, iterations>=1",
  "real parameters, degenerate boundary cases first=last and iterations=1",
  [SC+":polynomial_step_size_first_last", AL+":amagold", AL+":sggmc"])
p("C30","Adaptive step size starts as requested and freezes after burn-in",
  "adaptive_step_size: the step size at iteration 0 is the initial step size, it is positive always, it does not change after burn_in iterations, a larger acceptance ratio leads to a larger step size, the accumulated error statistic is the sum of (target - acceptance) over (m + stabilization constant); per chain overrides of the target acceptance rate are respected.",
  "all feedback sequences",
  "all histories of acceptance statistics",
  [SC+":adaptive_step_size"])
p("C31","The collected counter equals the number of saved samples",
  "The counter displayed by the progress bar (collected samples) equals the number of samples saved so far.",
  "all burn-in and thinning schedules, all iterations",
  "all histories",
  [SC+":_wrap_progress_bar", SC+":init_scheduler"])
p("C32","The solver returns the accepted states in order",
  "mcmc(solver, scheduler): the returned samples are exactly get(state after update i) for the iterations i (in increasing order) at which burn-in and thinning accept; the update of iteration i is called with the schedule of iteration i, exactly `iterations` updates are made.",
  "all solvers, schedulers, iterations",
  "generic in the solver",
  [SO+":mcmc"])
p("C33","Chains are returned in input order and do not influence each other",
  "mcmc with strategy='map': result j belongs to initial state j and equals the result of running it alone; an unknown strategy raises NotImplementedError before anything is run.",
  "all numbers of chains and initial states",
  "any number of chains",
  [SO+":mcmc", LM+":list_vmap"])
p("C34","Parallel tempering swaps with the replica exchange probability",
  "parallel_tempering: after every step the pair of chain states is either unchanged or exchanged; exchange happens iff log u < log s (s the exchange probability); the hot chain uses the hot temperature, only the cold state is returned; the variance estimate in the exchange probability is the running mean of the likelihood variances reported by the normal chain.",
  "all solvers, states, draws, numbers of steps",
  "inverted branch is statistically invisible in small tests",
  [SO+":parallel_tempering"])
p("C35","AMAGOLD's stored potential always belongs to its stored position",
  "After any number of updates the amagold state's potential is the full potential of the stored position, the acceptance decision is log u < min(0, U_old-U_new+energy), rejection leaves the position unchanged and negates the momentum, a NaN energy is rejected, for finite energies the reported acceptance ratio is min(1,exp(U_old-U_new+energy)), hence in (0,1].",
  "all integrators, potentials, histories of accept/reject",
  "all histories",
  [SO+":amagold"])
p("C36","SGGMC's stored potential always belongs to its stored position",
  "After any number of updates the sggmc state's potential is the full potential of the stored position; acceptance probability is min(1,exp(-(dU+dK)/T)); rejection leaves the position unchanged; a NaN energy difference is rejected.",
  "all integrators, potentials, histories",
  "all histories, NaN propagation",
  [SO+":sggmc"])
p("C37","Langevin diffusion performs the SGLD update and uses one batch per step",
  "langevin_diffusion: theta' = theta - eps*grad + sqrt(2*T*eps)*xi leafwise (with preconditioner: theta - eps*G grad + eps*Gamma + sqrt(2*T*eps) G^(1/2) xi); at T=0 it is stochastic gradient descent; every step consumes exactly one random batch and stores the potential value at the old position.",
  "all trees, gradients, step sizes, temperatures, numbers of steps",
  "generic in the tree structure and potential",
  [IN+":langevin_diffusion"])
p("C38","OBABO's momentum refreshment preserves the target momentum distribution",
  "obabo: the refreshment p' = c p + s xi satisfies c^2*Var + s^2 scaling such that variance T*m is invariant; kinetic energies before and after are accumulated over all steps since they were reset; every step uses two random batches (steps*2 per integration).",
  "all step sizes, frictions, temperatures, masses, step counts",
  "real parameters",
  [IN+":obabo"])
p("C39","The reversible leapfrog is reversible",
  "reversible_leapfrog without friction is time reversible: integrating, negating the momentum and integrating with the reversed sequence of batches returns to the start with negated momentum, and the accumulated energy changes sign; with friction the reversed noise exists that reverses the path.",
  "all step sizes, frictions, gradients, numbers of steps, trees",
  "real valued, unbounded number of steps",
  [IN+":reversible_leapfrog"])
p("C40","Random keys are never reused within a chain",
  "Along a run of a solver all random numbers (noise in the integrators, momentum resampling, acceptance test) are derived from pairwise different keys, none of which is an ancestor of another, for any number of steps.",
  "all numbers of steps and solvers, any splitting depth",
  "key reuse across steps is statistically hard to see",
  [IN+":langevin_diffusion", IN+":obabo", IN+":reversible_leapfrog", IN+":friction_leapfrog", SO+":amagold", SO+":sggmc", SO+":parallel_tempering"])
p("C41","The stochastic potential is the scaled mean over the batch",
  "minibatch_potential: value (-N*mean over the observations of the batch of log likelihood - log prior)/T for every strategy ('map','vmap', batched likelihood); padding observations (mask False) do not contribute.",
  "all batches, sizes, likelihoods, masks",
  "generic in likelihood",
  [PO+":minibatch_potential"])
p("C42","The full potential is the exact sum over all observations",
  "full_potential: value (-sum of log likelihood over all N observations - log prior)/T independent of batch size, cache size and strategy; padding does not contribute.",
  "all N, mb, cache sizes, likelihoods, data, number of earlier evaluations",
  "all sizes",
  [PO+":full_potential"])
p("C43","The stochastic potential is an unbiased estimate of the full potential",
  "Averaged over the batches of an epoch (mb divides N) or over all equally likely batches the stochastic potential equals the full potential.",
  "all N, mb, likelihoods, permutations",
  "average over all batches",
  [PO+":minibatch_potential", PO+":full_potential", NL+":_shuffle_indices"])
p("C44","RMSprop preconditioner stays positive and bounded",
  "rms_prop: after any history of gradients the accumulated second moment is nonnegative, the preconditioner G lies in (0,1/lambda], the noise factor squared is G, Gamma is zero; v is the exponentially weighted mean of squared gradients.",
  "all gradient histories, 0<=alpha<=1, lambda>0",
  "all histories",
  [AD+":rms_prop"])
p("C45","Mass matrix adaption computes the sample mean and covariance and only switches at the end of burn-in",
  "mass_matrix: after n updates the mean is the arithmetic mean of the samples and ssq the sum of (cross) deviations; get returns the initial matrix before and the adapted matrix after burn-in; it changes at no other iteration.",
  "all sample sequences, dimensions, burn-ins",
  "all histories",
  [AD+":mass_matrix"])
p("C46","The adapted mass matrix and its square root are consistent",
  "mass_matrix: the returned inverse mass and square root mass satisfy inv * sqrt * sqrt^T = 1, diagonal and dense.",
  "all positive (definite) covariances",
  "real valued",
  [AD+":mass_matrix"])
p("C47","The fisher information estimate is the covariance of the per-observation gradients",
  "fisher_information: the estimated noise is the sample covariance of the per-observation gradients around their mean; identical observations give zero noise.",
  "all gradients and batch sizes",
  "real valued, sign errors invisible with random data",
  [AD+":fisher_information"])
p("C48","list_vmap is map",
  "list_vmap(f)(args) equals [f(a) for a in args] for any batched f; pytrees are transposed to leaf lists and back without loss; an empty argument list or structure mismatch raises.",
  "all numbers of arguments, tree shapes",
  "all shapes",
  [LM+":list_vmap", LM+":pytree_list_to_leaves", LM+":pytree_leaves_to_list"])
p("C49","Tree operations commute with flattening",
  "tree_add, tree_scale, tree_multiply, tree_dot, Array/Tensor conversions act leafwise: flattening the result equals operating on the flattened vectors, unravel(ravel t)=t.",
  "all trees",
  "all trees",
  [TU+":tree_add", TU+":tree_scale", TU+":tree_multiply", TU+":tree_dot", TU+":Tensor", TU+":tensor_matmul"])
p("C50","Data access functions validate their sizes",
  "random_reference_data rejects (ValueError) mb_size>N, nonpositive cache sizes or batch sizes and cache sizes != 1 on device loaders, and accepts all other requests.",
  "all sizes",
  "boundaries",
  [DC+":random_reference_data", DC+":full_reference_data"])
p("C51","Alias solvers return the requested number of samples after burn-in",
  "alias.sgld/... with accepted_samples and burn_in: run(iterations=K) returns exactly accepted_samples samples all from iterations >= burn_in, or raises if there are fewer iterations; without accepted_samples K-burn_in samples; with documented default arguments the step sizes are finite and positive.",
  "all K, burn_in, accepted_samples, random choices, all alias solvers with default arguments",
  "composition, defaults",
  [AL+":sgld", AL+":amagold", AL+":sggmc", AL+":obabo", AL+":re_sgld", AL+":sghmc"])
p("C52","Different chains use different random numbers",
  "Running several chains through an alias solver (same starting sample) uses different noise for different chains.",
  "all numbers of chains",
  "statistical",
  [AL+":sgld", IN+":langevin_diffusion"])
p("C53","Vmapped and mapped execution of the solver agree; saving is protected from vmap",
  "mcmc(strategy='vmap') returns the same samples as strategy='map'; the conditional saving of samples inside a vmapped loop is executed only for iterations that are kept.",
  "all numbers of chains and keep patterns",
  "cond under vmap becomes select; side effects may run for rejected samples",
  [SO+":mcmc", IO+":no_save", "jax_sgmc/util/stop_vmap.py"])
p("C54","AMAGOLD's acceptance step makes the stochastic leapfrog exact",
  "amagold with reversible_leapfrog: for every step from (x,p) with given noise and batches there is a reverse step from the proposal with negated momentum, the reversed batch sequence and suitable noise that proposes (x,-p), and target density * noise density * acceptance probability agree for both directions (detailed balance). The map to the reverse step is invertible and preserves volume of the space of positions, momenta and noise.",
  "all gradients, batches, noise values, step sizes, frictions, diagonal masses, numbers of inner steps",
  "an identity between real valued densities for arbitrary gradient noise",
  [SO+":amagold", IN+":reversible_leapfrog"])
p("C55","SGGMC's acceptance step makes the OBABO scheme exact",
  "sggmc with obabo: detailed balance and volume preservation as in C54 with respect to exp(-(U+K)/T).",
  "all gradients, batches, noise values, step sizes, frictions, temperatures > 0, diagonal masses, numbers of inner steps",
  "an identity between real valued densities for arbitrary gradient noise",
  [SO+":sggmc", IN+":obabo"])
p("C56","SGHMC's injected noise balances its friction",
  "friction_leapfrog (without noise model): the momentum is drawn with covariance M at the start of an integration; every inner step moves x by eps M^-1 p, changes p by -eps C M^-1 p - eps grad and adds noise with covariance 2 eps C, where C is the friction (fluctuation-dissipation).",
  "all step sizes, frictions, masses, trees",
  "statistical property of a real valued update",
  [IN+":friction_leapfrog"])
p("C57","Random access to a tensorflow data set is balanced and rejects what it cannot serve",
  "random_reference_data on a TensorflowDataLoader: the successive batches of an access are the successive mini-batches of a shuffling of the repeated data set whose delay is bounded by shuffle_cache, with all (not excluded) arrays aligned, every batch full and unmasked, independent of cache size, of other accesses and of other chains. After k observations every observation was used k/N times up to shuffle_cache, none twice within the first N - shuffle_cache + 1. Mapping over the full data set, keyword arguments and non-existing excluded keys raise.",
  "all data sets, cache and batch sizes, buffer sizes, all behaviours of the shuffling generator, all interleaved programs",
  "the generator's behaviour is arbitrary and histories are unbounded",
  ["jax_sgmc/data/tensorflow_loader.py:TensorflowDataLoader", DC+":random_reference_data"])
p("C58","The target distribution is stationary under AMAGOLD",
  "amagold with reversible_leapfrog: if the state has the target distribution exp(-U - K), the batch sequences are as likely as their reversals and the noise is standard normal, then after the step (acceptance decided by a uniform number, momentum negated on rejection) the mean of every function of position and momentum is its mean under the target distribution.",
  "all potentials, continuous stochastic gradients, batch distributions, step sizes, frictions, diagonal masses, numbers of inner steps, test functions",
  "a statement about an integral over the whole phase space",
  [SO+":amagold", IN+":reversible_leapfrog"])
p("C59","The target distribution is stationary under SGGMC",
  "sggmc with obabo: as C58, with exp(-(U + K)/T).",
  "as C58, and all temperatures > 0",
  "a statement about an integral over the whole phase space",
  [SO+":sggmc", IN+":obabo"])
p("C60","Announced formats match delivered arrays",
  "A model traced with initializer_batch(mb_size) can be called with every batch of the loader: each batch has, for every array of the data set, the name, dtype (64 bit types reduced unless jax_enable_x64) and shape of the initializer batch, filled with the converted observations of the access' stream, a boolean mask of length mb_size, the observation count and the batch size. get_batches returns what batch_format announces, hence the compiled callback never fails for a wrong format.",
  "all data sets (numbers, ranks, shapes, dtypes of arrays), batch sizes, cache sizes, interleaved programs (without restoring loader checkpoints), element conversions",
  "shapes, dtypes and histories are unbounded",
  [DC+":DataLoader.initializer_batch", DC+":HostDataLoader.batch_format", DC+":_hcb_wrapper", DC+":tree_index", NL+":NumpyBase._format", NL+":NumpyDataLoader.get_batches", NL+":DeviceNumpyDataLoader.get_random_data"])
p("C61","Data accesses are independent and can be released",
  "A program may use several data loaders, several accesses (random_reference_data, full_reference_data) per loader and several data states per access (each call of an init function), in any interleaving. Every data state delivers exactly the stream of its own registration, whatever happens to the other loaders, accesses and states. Releasing an access succeeds exactly once; its data states still deliver the batches that are already in their cache and then raise KeyError; its init function never returns a data state again; no other access is affected.",
  "all data sets, numbers of loaders, accesses and states, cache sizes, batch sizes, pipelines, seeds, generators and histories (with direct loader calls that leave the chain of the state alone)",
  "the interleavings of operations are unbounded; the request table and the loader registry are global",
  [DC+":random_reference_data", DC+":full_reference_data", DC+":_Requests", DC+":_random_reference_data_host", DC+":_full_reference_data_host"])
p("C62","Mapping functions of a single observation",
  "full_data_mapper called with batched=False maps a function of one observation over the data set: the results are those of the observations 0, ..., N-1 in this order, exactly once each, and the carry is threaded through them (with mb_size > 1 there is no carry), for all batch and cache sizes and any interleaving with other calls. With masking=True, or with mb_size > 1 and a carry that has leaves, the call raises ValueError. (Found: the comment in the code promises that the first resulting state is passed on; instead every such call raises. A call that raises loses its cache state, and the next call registers a new chain.)",
  "all data sets, functions, carries, batch sizes, cache sizes, generators and interleavings",
  "functions, carries and interleavings are unbounded",
  [DC+":full_data_mapper", DC+":_FullDataHelper"])
p("C63","alias.obabo and alias.sghmc end to end",
  "A run of alias.obabo (alias.sghmc without noise model) with accepted_samples = n returns for every chain n samples, from increasing iterations after the burn-in, of the trajectory of the OBABO (SGHMC) recursion that starts at the given position: partial refreshment, half kick, drift, half kick, partial refreshment with two batches per leapfrog step (new momentum, then leapfrog steps with friction and one batch each), with the given mass and friction, falling step sizes from first_step_size to last_step_size, temperature one, every noise vector from a key of its own and the batches in the order of the data source. The saved energy is the one of the last leapfrog step of the iteration.",
  "all potentials, parameter trees, masses, frictions, numbers of leapfrog steps, iterations, chains, data sources, choices of the thinning and earlier uses of the collector",
  "potentials, trees, iterations and chains are unbounded",
  [AL+":obabo", AL+":sghmc", IN+":obabo", IN+":friction_leapfrog", SO+":sgmc"])
p("C64","Aliases on a host data loader: every chain sees its own stream of batches",
  "When alias.sgld, alias.obabo or alias.sghmc runs on a data loader in host memory with batch size mb and any cache size, chain number c of the run follows the trajectory of the method on the stream of batches that are drawn with replacement from the data set by the generator seeded with the id of its loader chain, and returns n samples of this trajectory. The cache size, the other chains, other accesses, other loaders, other releases and direct uses of the loaders between the batches do not matter.",
  "all data sets, potentials, cache and batch sizes, programs before, between and after the calls, numbers of chains, iterations",
  "programs, interleavings, data sets and iterations are unbounded",
  [AL+":sgld", AL+":obabo", AL+":sghmc", DC+":random_reference_data", NL+":NumpyDataLoader"])
p("C65","The progress bar prints evenly spaced, truthful messages",
  "With progress_bar=True and progress_bar_steps = p <= iterations, messages are printed exactly at the iterations that are multiples of floor(iterations / p), at least p and fewer than 2p of them; every message states the iteration, the number of iterations, the percentage rounded to a nearest integer, the number of samples saved up to and including this iteration, and the number of samples that will be returned. With progress_bar=False nothing is printed. With fewer than p iterations the divisor is zero and it depends on jnp.mod(i, 0) of the installed jax where messages appear.",
  "all schedules, burn-ins and thinnings of the library, iterations, progress_bar_steps, statistics",
  "iterations and schedules are unbounded",
  [SC+":_progress_bar", SC+":init_scheduler"])
p("C66","alias.amagold and alias.sggmc return samples of the AMAGOLD and SGGMC chains",
  "alias.amagold and alias.sggmc (constant mass, finite full potential, friction) return for every chain the samples of selected iterations (n of them increasing and after burn-in, or all after burn-in with adaptive step size / without accepted_samples) of the following chain: the proposal of iteration i is the amortized leapfrog trajectory of AMAGOLD (half drift, kicks with friction and noise, half drift) or the OBABO trajectory of SGGMC with the step size of the schedule (polynomial, or dual averaging of the acceptance probabilities), fresh batches and fresh noise; it is accepted with probability min(1, exp(U - U' + dE)) or min(1, exp(-(U' - U + dK))) with the full potentials; on rejection the position, potential, energy and model state are kept and the momentum is negated (AMAGOLD) or kept (SGGMC); every entry contains the acceptance ratio, step size and energies of its iteration.",
  "all potentials, gradients, model states, starting points, masses, frictions, numbers of steps, iterations, burn-in, accepted samples, step size parameters, chains, random streams and preceding uses of the collector",
  "the trajectory depends on all inputs and random numbers; unit tests cannot compare it with the exact recursion for every input",
  [AL+":amagold", AL+":sggmc", SO+":amagold", SO+":sggmc", IN+":reversible_leapfrog", IN+":obabo", SC+":adaptive_step_size"])
p("C67","alias.re_sgld runs two replicas and returns the samples of the one at temperature one",
  "alias.re_sgld runs for every pair of initial samples two SGLD replicas with the same falling step sizes, one at temperature one and one at the given temperature, each with its own random numbers and batches; after every step the replicas exchange their temperatures if a uniform random number is below the swapping rate exp(d (U_cold - U_hot - d V)), d = 1 - 1/temperature, V the mean over the iterations so far of the variance of the likelihoods of the replica at temperature one (Algorithm 1 of arXiv 2008.05367); exactly accepted_samples samples from different iterations after burn-in are returned in order, each the position, model state and likelihood of the replica that is at temperature one after the exchange.",
  "all potentials, gradients, model states, pairs of starting points, temperatures > 0, iterations, burn-in, accepted samples, step sizes, numbers of pairs, random streams and preceding uses of the collector",
  "the trajectories and the exchanges depend on all inputs and random numbers; unit tests cannot compare them with the exact recursion for every input",
  [AL+":re_sgld", SO+":parallel_tempering", IN+":langevin_diffusion", SC+":constant_temperature"])
p("C68","A NumpyDataLoader shares no memory with the user's arrays, and its chains and checkpoints share none with each other",
  "With copy=True whatever is written into the arrays given to NumpyDataLoader after construction has no influence on any answer of the loader (batches, registrations, checkpoints); with copy=False a batch consists of the current contents of the arrays at positions that do not depend on what was written. Chains, saved checkpoints and restored chains do not influence each other through shared arrays: in every history of registrations, get_batches, save_state, copies of checkpoints and load_state all answers are those of a loader in which chains and checkpoints are values.",
  "all data, all interleavings of user writes, registrations, batches, checkpoints, copies of checkpoints and restores on any number of chains",
  "aliasing bugs only show in particular interleavings of in-place updates; no finite test covers all of them",
  [NL+":NumpyBase", NL+":save_state", NL+":load_state", NL+":_shuffle_indices", NL+":_shuffle_in_epochs"])
p("C69","Sizes computed with floating point divisions are exact",
  "The number of batches of an epoch and of a pass over the full data, which the code computes as the ceiling of a floating point quotient, is the least number of batches that holds all observations, and the index buffer of shuffled batches has two batches more than there are complete batches, for every number of observations and batch size below 2^53. The distance of the messages of the progress bar, computed in single precision, is the integer quotient of iterations and steps.",
  "all dataset sizes and batch sizes below 2^53; all numbers of iterations",
  "a rounding error at one particular pair of sizes would drop or repeat a batch; the pairs cannot be enumerated",
  [NL+":register_random_pipeline", NL+":_shuffle_indices", NL+":_shuffle_in_epochs", DC+":full_reference_data", SC+":progress_bar"])
p("C70","An AMAGOLD chain that starts in the target distribution stays in it",
  "If position and momentum have the density proportional to exp(-U(x) - p^T M^-1 p / 2), the random vectors are normal and the batches are drawn independently and uniformly (or, in general, if in every step the sequence of batches is as likely as its reversal), then after any number of AMAGOLD steps, with any step sizes, position and momentum still have this density: the mean of every bounded continuous function of position and momentum is unchanged.",
  "all numbers of steps; all schedules with eps * friction > 0; all pytrees, diagonal masses, continuous gradients and potentials with decaying density; all bounded continuous functions",
  "a statement about the distribution of a whole trajectory: tests see single trajectories",
  [SO+":amagold", IN+":reversible_leapfrog"])
p("C71","alias.sgld, alias.obabo and alias.sghmc run their algorithm on the user's posterior",
  "A user who provides a data set (in a host data loader), a log likelihood of one observation (or a batched one), possibly with a model state, and a log prior, builds the potential with minibatch_potential and runs alias.sgld, alias.obabo or alias.sghmc, gets for every initial sample exactly the requested number of samples of the recursion of SGLD (optionally preconditioned), OBABO or SGHMC whose gradient is -(N/mb sum_j grad log l(x, y_j) + grad log prior(x)) / temperature, where the y_j are mb observations drawn with replacement for this step with the generator seeded by the chain; saved are the position, minus the (mean) stochastic potential and the model state; the model state follows the states returned by the likelihood.",
  "all data sets, batch sizes, cache sizes, likelihoods, priors, temperatures, model states, pytrees, initial samples and numbers of chains, schedules (non adaptive), masses and frictions; whatever else the program does with the loaders before and in between",
  "combines data loading, caching, the potential, automatic differentiation, the integrators, the schedule and the collection of samples; an off-by-one between draws and steps, a wrong scaling or a shared generator give plausible but wrong samples",
  [AL+":sgld, obabo, sghmc", PO+":minibatch_potential", IN+":langevin_diffusion, friction_leapfrog, obabo", DC+":random_reference_data"])
p("C72","alias.sghmc with adapt_noise_model injects noise of covariance 2 eps (friction - noise estimate)",
  "alias.sghmc with adapt_noise_model=True runs the SGHMC recursion in which the noise added to the momentum of a step of size eps has, in every coordinate, variance 2 eps (friction - estimate) (diagonal_noise=True), where the estimate is eps/2 times the empirical (co)variance formula of the code of the observation gradients of the minibatch used in the first inner step's position; with diagonal_noise=False the noise is the matrix computed from the singular value decomposition of the full matrix applied to a standard normal vector. It holds for every chain on the stream of its own minibatches and, for a user's likelihood, prior and data in a host data loader, on the user's posterior with the mb drawn observations. The diagonal claim requires that the friction exceeds the estimate for the first (largest) step size.",
  "all pytrees, potentials, gradients of single observations, frictions (scalar or per coordinate), masses, batch sizes of at least two, non adaptive schedules, initial samples and numbers of chains; user level: all data sets, likelihoods, priors, temperatures and model states",
  "a wrong factor (eps instead of eps/2, variance instead of standard deviation), the previous batch, or a sign error inside the square root leaves plausible samples with the wrong temperature",
  [AL+":sghmc", AD+":fisher_information", IN+":friction_leapfrog"])
p("C73","alias.amagold and alias.sggmc accept or reject with the user's full posterior",
  "For a user's data set in a host data loader, log likelihood, log prior and temperature, alias.amagold and alias.sggmc (called with the potentials built by minibatch_potential and full_potential) run the AMAGOLD and SGGMC recursions on the user's posterior: the leapfrog steps use the gradient of the posterior estimated from mb observations drawn with replacement with the chain's own generator, and the acceptance tests use the exact full potential, minus the log likelihoods of all N observations and the log prior over T, each observation counted once although the last batch is filled up, also when mb does not divide N and after any number of passes. Chain c of the solver draws its minibatches from loader chain cid0 + 2 c + 1 (seeded with this id) and reads full data from loader chain cid0 + 2 c. The program may read other data states before, after and in between.",
  "all data sets, likelihoods (single or batched), priors, temperatures, model states, strategies, minibatch and cache sizes, numbers of integration steps, masses, schedules (adaptive or not), numbers of chains, and all programs around the run",
  "it ranges over the histories of the loader: a full data map that does not end at the start of the data, a wrong mask in the last batch, or data states shared by chains only shows for some sizes and after some passes",
  [AL+":amagold", AL+":sggmc", PO+":full_potential", DC+":full_reference_data", DC+":random_reference_data"])
p("C74","alias.re_sgld runs replica exchange on the user's posterior",
  "For a user's data set in a host data loader, log likelihood, log prior and temperature, alias.re_sgld (called with the potential built by minibatch_potential) runs, for every pair of initial samples, two replicas that follow the SGLD recursion on the user's posterior at temperature one and at the helper temperature, each with its own minibatches (pair c uses loader chains cid0 + 2 c and cid0 + 2 c + 1, seeded with these ids) and its own noise; the exchange uses the stochastic potentials of both replicas and the running mean of the variance of the log likelihoods of the drawn observations at temperature one; the returned samples are n states after burn-in of the replica at temperature one.  Replicas should be exchanged if the uniform number is below the swapping rate.",
  "all data sets, likelihoods (single or batched), priors, temperatures, model states, minibatch and cache sizes, schedules, numbers of pairs, and all programs around the run",
  "the exchange rule, the stream that each replica reads and the statistic of the correction are invisible in the samples of one run; it ranges over all histories of the loader",
  [AL+":re_sgld", SO+":parallel_tempering", PO+":minibatch_potential", DC+":random_reference_data"])
p("C75","mcmc with strategy \"pmap\" returns the samples of strategy \"map\", whatever the order of the devices",
  "mcmc(..., strategy=\"pmap\") runs every chain on its own device.  The devices send their samples to one shared MemoryCollector while they run.  Whatever the order in which the devices execute their iterations and whatever the collector was used for before, the returned results are those of strategy \"map\" with io.no_save: in the order of the initial states, every chain with its own samples only.  The same holds with io.no_save.  With more chains than devices ValueError is raised.",
  "all solvers that keep the structure of their samples, all schedulers, numbers of iterations and chains, all interleavings of the devices, all previous histories of the collector",
  "the order of the callbacks of different devices is decided by the runtime; a test observes a few of exponentially many interleavings",
  [SO+":mcmc", UU+":list_pmap", IO+":save", IO+":MemoryCollector"])
p("C76","solver.amagold and solver.sggmc with an adapted diagonal mass",
  "solver.amagold and solver.sggmc with mass_adaption = adaption.mass_matrix(diagonal=True, burn_in=B) and a positive initial_mass c: the first B updates (and, for amagold, the draw of the initial momentum) are those of the solver without adaption whose integrator has the constant mass 1/c (initial_mass acts as a covariance).  If every coordinate takes at least two values among the positions after the updates 1..B (the kept position, repeated after a rejection), all further updates are those of the solver without adaption with the constant mass 1/v, started from the state reached after B updates, where v is the population variance of these B positions; later positions never change the mass again.",
  "all potentials, parameter trees, positive covariances, numbers of leapfrog steps, frictions, burn-in lengths, schedules, random streams and numbers of updates",
  "whether a proposal was accepted, and which mass was used, depends on the whole history of the chain; a test sees one history",
  [SO+":amagold", SO+":sggmc", AD+":mass_matrix", AD+":adaption"])
p("C77","SGLD on a Gaussian posterior is asymptotically exact with polynomial step sizes, and biased with constant ones",
  "langevin_diffusion at temperature T on a posterior with mean mu and precision matrix A (the minibatch gradient is A (x - mu) plus an error that is unbiased given the past, uncorrelated with the injected noise, and whose variance grows at most quadratically with the distance from mu): the mean and the covariance of the n-th position follow an exact recursion; for step sizes a (b + n)^-gamma with 0 < gamma <= 1 (scheduler.polynomial_step_size) the mean tends to mu and the covariance matrix to T A^-1, uniformly over all such sources of randomness.  With a constant step size e and exact gradients the variance of a single parameter of precision lam tends to T / (lam (1 - e lam / 2)), which is too large.",
  "all parameter trees, dimensions, symmetric positive definite precision matrices, start positions, temperatures, unbiased minibatch gradients, polynomial step sizes with 0 < gamma <= 1, numbers of updates",
  "a statement about expectations over all random streams and about the limit of infinitely many updates; a test draws one stream of finite length",
  [IN+":langevin_diffusion", SC+":polynomial_step_size", SO+":sgmc"])
p("C78","alias.sgld, obabo and sghmc on a device loader sample the posterior of the user's model; all chains see the same minibatches",
  "On a DeviceNumpyDataLoader, with cache_size=1, the run functions of alias.sgld, alias.obabo and alias.sghmc return for every initial sample exactly the requested number of samples of the respective recursion for the user's posterior: every evaluation uses the rescaled log likelihoods of batch_size observations, drawn with replacement by splitting the data key, plus the log prior, divided by the temperature, and the exact gradient wherever it exists; saved are the sample, minus the stochastic potential and the model state. The data key of every chain starts at PRNGKey(0), so all chains draw the same index lists. With the default cache_size=512 the construction raises ValueError for every data set and batch size.",
  "all data sets, (batched) likelihoods with and without state, priors, temperatures, batch sizes, numbers of chains, iterations and samples, step size schedules, random streams, uses of the collector before",
  "holds for every model, data set and random stream; a test sees one chain and cannot tell which observations entered a minibatch",
  [AL+":sgld", AL+":obabo", AL+":sghmc", NL+":DeviceNumpyDataLoader", DC+":random_reference_data", PO+":minibatch_potential"])
p("C79","alias.amagold and sggmc on a device loader: minibatch proposals from the data key, acceptance with the potential of all observations",
  "On a DeviceNumpyDataLoader (cache_size=1) the run functions of alias.amagold and alias.sggmc return for every initial sample the selected samples of the AMAGOLD (SGGMC) recursion for the user's posterior: proposals use minibatches of batch_size observations drawn with the data key (PRNGKey(0) in every chain); the potential of the acceptance step is the one of all observations, every observation exactly once and in their order, whatever batch_size is (the pass uses batches of cache_size = 1 observation), and the pass ends where it began, so that the next pass sees the same order; adaptive and polynomial step sizes.",
  "all data sets, (batched) likelihoods with and without state, priors, temperatures, batch sizes, numbers of chains and iterations, mass matrices, frictions, schedules, random streams",
  "holds for every model, data set and random stream; a wrong or rotated pass over the data changes acceptance probabilities only slightly",
  [AL+":amagold", AL+":sggmc", NL+":DeviceNumpyDataLoader", DC+":full_reference_data", PO+":full_potential"])
p("C80","Variance of the stochastic potential and the variance that re_sgld uses for its exchange rate",
  "At a fixed sample let sigma^2 be the variance of the log likelihoods of all N observations. Over all equally likely batches of mb observations drawn with replacement the stochastic potential has the variance N^2 sigma^2 / (mb T^2); drawn in a random order it has (N - mb) / (N - 1) times this variance (zero for the full batch). The variance which langevin_diffusion records (documented as the variance of the stochastic potential, and used as such in the exchange step of re_sgld) has the expected value (1 - 1/mb) sigma^2, respectively N/(N - 1) times that. Hence with the default F=1 at temperature 1 the exchange correction is too small by the factor (mb - 1)/N^2 when drawing with replacement (always 0 for mb = 1), and not zero for the full batch; it would be exact with F = (mb - 1) T^2 / N^2.",
  "all data sets, (batched) likelihoods with and without state, priors, samples, temperatures, batch sizes, positions of the batch in the random order",
  "a statement about the distribution over all batches; the missing scale of the recorded variance raises no error",
  [IN+":langevin_diffusion", SO+":parallel_tempering", PO+":minibatch_potential", NL+":_draw_indices"])
p("C81","alias.re_sgld on a device loader: both replicas and all pairs use the same minibatches",
  "On a DeviceNumpyDataLoader, with cache_size=1, the run function of alias.re_sgld returns for every pair of initial samples exactly the requested number of samples of the cold replica of the replica exchange recursion for the user's posterior: both replicas are SGLD chains with the exact gradient of the rescaled log likelihoods of batch_size observations plus the log prior, at temperatures one and tau, exchanged according to the variance-corrected rate of the potentials recorded so far. The data keys of both replicas of every pair start at PRNGKey(0), so both replicas and all pairs draw the same index lists.",
  "all data sets, (batched) likelihoods with and without state, priors, temperatures, batch sizes, numbers of pairs, iterations and samples, step size schedules, random streams, uses of the collector before",
  "holds for every model, data set and random stream; a test sees one pair and cannot tell which observations entered a minibatch",
  [AL+":re_sgld", NL+":DeviceNumpyDataLoader", DC+":random_reference_data", PO+":minibatch_potential", SO+":parallel_tempering"])
p("C82","Random thinning prefers iterations with larger step sizes",
  "random_thinning(step_size_schedule, burn_in_schedule, selections): the iterations are drawn without replacement with weights equal to the step size after burn-in and zero before; hence iterations before burn-in are never saved, of two later iterations the one with the larger step size is saved with at least the same probability, and the probability that an iteration is saved is proportional to its step size. With the polynomial schedules later iterations are saved with at most the probability of earlier ones, with the adaptive schedule all iterations after burn-in have the same probability.",
  "all step size schedules with positive step sizes, burn-ins, numbers of iterations and selections, statistics reported by the solver, random choices that draw one after another with the given weights",
  "a statement about probabilities over all keys, for every schedule and number of selections",
  [SC+":random_thinning", SC+":polynomial_step_size", SC+":polynomial_step_size_first_last", SC+":adaptive_step_size"])
p("C83","Totals of the step sizes: the Robbins-Monro conditions",
  "With polynomial_step_size(a, b, gamma) the sum of the p-th powers of the step sizes of a run grows beyond every bound with the number of iterations if p * gamma <= 1 and stays below one bound for all numbers of iterations otherwise; so the conditions of Robbins and Monro under which SGLD with decreasing steps converges (the step sizes add up to infinity, their squares do not) hold exactly for 1/2 < gamma <= 1. With polynomial_step_size_first_last(first, last, gamma) the sum of the p-th powers over a run is between iterations * last^p and iterations * first^p. The default schedules satisfy the conditions of Robbins and Monro.",
  "all parameters a, b > 0, gamma >= 0, first > last > 0, all powers p, all numbers of iterations",
  "a statement about the limit over runs of every length and all parameters",
  [SC+":polynomial_step_size", SC+":polynomial_step_size_first_last", SC+":init_scheduler"])
p("C84","Announced and delivered formats for every host data loader",
  "Whatever a host data loader does and whatever else happens to it, a batch that a data access delivers has the names, dtypes and shapes of initializer_batch(mb_size), a mask of mb_size booleans, the number of observations and the batch size; arrays of another format in the first cache make every batch call of the access raise TypeError. A loader that returns no mask yields batches in which every observation is marked as valid. If the loader keeps its promises every batch call succeeds. For HDF5Loader this is the case if the sample describes one observation of the file (up to the conversion of 64 bit dtypes) and no dataset is shorter than the first, and every batch call raises TypeError if the sample does not fit. For TensorflowDataLoader it is the case if all dimensions of the entries that are not excluded are known to the pipeline; an unknown dimension makes every batch call raise TypeError, even if all observations have the same shape. A file whose datasets differ in length is rejected when the HDF5Loader is constructed.",
  "all host data loaders (arbitrary states and methods), all files, pipelines, samples, excluded keys, buffer sizes, generators, cache and batch sizes, all histories of opening accesses, drawing batches and calling methods of the loader",
  "quantifies over all loader implementations, all data formats and all call histories",
  [DC+":random_reference_data", DC+":full_reference_data", DC+":DataLoader.initializer_batch", H5+":HDF5Loader", "jax_sgmc/data/tensorflow_loader.py:TensorflowDataLoader"])
p("C85","SGHMC samples the posterior as the step sizes vanish",
  "On a Gaussian posterior with diagonal precision, exact gradients and standard normal numbers, alias.sghmc / integrator.friction_leapfrog with vanishing step sizes whose squares have a divergent sum converges to the posterior: the mean of the parameters tends to the posterior mean and their variance to the posterior variance, for every friction, mass, initial sample, key and number of integration steps.",
  "all sample pytrees, posteriors with diagonal precision, scalar and per-parameter frictions, diagonal masses, numbers of inner steps, initial samples, keys, step size sequences, data sources, and all distributions of the normal numbers with mean 0, variance 1 and no correlation",
  "a statement about the limit of a stochastic process; a test sees one finite chain",
  [IN+":friction_leapfrog", AL+":sghmc", SC+":polynomial_step_size"])
p("C86","OBABO samples the posterior as the step sizes vanish, and with a known bias for a constant step size",
  "On a Gaussian posterior with diagonal precision, exact gradients and standard normal numbers, alias.obabo / integrator.obabo with positive friction converges to the posterior at temperature T: with vanishing step sizes of divergent sum (in particular those of polynomial_step_size) the mean of the parameters tends to the posterior mean, their variance to T times the posterior variance, and the momenta become centered, of variance T times the mass and uncorrelated with the parameters. With a constant step size h below the stability limit (h^2 lam < 4 m) the mean still converges, the momenta are exact, and the variance of the parameters converges to the posterior one divided by 1 - h^2 lam / (4 m) - a bias that does not depend on the friction.",
  "all sample pytrees, posteriors with diagonal precision, positive frictions, diagonal masses, temperatures >= 0, numbers of inner steps, initial samples, keys, step size sequences, data sources, and all distributions of the normal numbers with mean 0, variance 1 and no correlation",
  "a statement about the limit of a stochastic process; a test sees one finite chain",
  [IN+":obabo", AL+":obabo", SC+":polynomial_step_size"])
p("C87","SGLD with random batches converges to the exact posterior of a user's Gaussian model",
  "A user with a data set of N observations, a quadratic (Gaussian) log likelihood per observation and a quadratic log prior builds a potential with minibatch_potential and runs SGLD on batches of size mb, drawn with replacement by a NumpyDataLoader or a DeviceNumpyDataLoader. If the index lists are uniform and independent, the noise is standard and independent, and the step sizes vanish with divergent sum (in particular polynomial_step_size with 0 < gamma <= 1), then the mean of the n-th sample tends to the mean of the posterior of the WHOLE data set and the covariance to the temperature times the posterior covariance, for every batch size: the rescaling of the batch likelihoods by N / mb, the prior and the temperature of the potential are right, and the noise of the batches does not bias the limit.",
  "all sample pytrees, data sets, batch sizes >= 1 (>= 2 for a batched likelihood), Gaussian likelihoods and priors with positive definite posterior precision, temperatures, map / vmap strategies, with and without model state, initial samples, keys, step size sequences, and all distributions of the indices and normal numbers that are independent",
  "a statement about the limit of a stochastic process over all models and data sets; a test sees one finite chain",
  [IN+":langevin_diffusion", PO+":minibatch_potential", NL+":NumpyDataLoader", NL+":DeviceNumpyDataLoader", SC+":polynomial_step_size"])
p("C88","SGLD with a constant step size: exact bias and stability limit, depending on the batch size",
  "In the setting of C87 with one parameter and a constant step size e: let a be the posterior precision, V the variance of the batch gradient at the posterior mean and U the variance of its slope, both N^2 / (mb Tp^2) times a population variance over the observations. If e (a^2 + U) < 2 a, the mean of the samples tends to the posterior mean and their variance to (2 T + e V) / (2 a - e (a^2 + U)), which is above T / a: without decreasing step sizes the samples are too wide, the more the smaller the batches. If e (a^2 + U) >= 2 a the variance diverges, even for step sizes for which exact gradients are stable (e a < 2): the batches alone can make SGLD unstable.",
  "all data sets, batch sizes >= 1 (>= 2 for a batched likelihood), Gaussian likelihoods and priors of one parameter, positive step sizes, temperatures, initial samples, keys, sources of batches, and all distributions of the indices and normal numbers that are independent",
  "a statement about the limit of a stochastic process over all models and data sets; a test sees one finite chain",
  [IN+":langevin_diffusion", PO+":minibatch_potential", NL+":NumpyDataLoader", NL+":DeviceNumpyDataLoader"])
p("C89","SGLD on a strongly log concave model forgets its initial sample",
  "For a user's model whose log likelihoods are concave and whose log prior is strongly concave with modulus m, both with Lipschitz continuous gradients, two SGLD runs that get the same batches and the same key but start at different samples (and with different model states) approach each other: after n steps their squared distance is at most the product of |1 - 2 eps_k m/Tp + eps_k^2 L^2| times the initial one, with L = (N Ll + Lp) / Tp. With a constant step size e with e L^2 < 2 m / Tp they approach exponentially fast; with step sizes that vanish but whose sum diverges the distance tends to 0, uniformly over the batches, the noise and the keys. The batches of the host loader and of the device loader qualify.",
  "all such models, data sets, batch sizes >= 1 (>= 2 for a batched likelihood), sequences of batches, normal numbers, keys, pairs of initial samples and of model states, temperatures, step size sequences, numbers of iterations and of parameters",
  "a statement about pairs of arbitrarily long runs for every batch sequence and every noise; a test compares a few finite runs of one model",
  [IN+":langevin_diffusion", PO+":minibatch_potential", SO+":sgmc", NL+":NumpyDataLoader", NL+":DeviceNumpyDataLoader"])
p("C90","SGLD on a strongly log concave model stays near the posterior mode",
  "For the models of C89, batches drawn uniformly and independently and independent normal noise: the expected squared distance of the samples from the posterior mode stays bounded. For a constant step size e with e (L^2 + S1) < 2 m' it is after n iterations at most q^n times the initial one plus (2 T e dim + e^2 S2) / (1 - q) with q < 1; for step sizes that vanish but whose sum diverges it is finally at most T dim / m' (plus any delta > 0), whatever the batch size. The error of the gradient of a batch has mean square at most 2 N^2 / (mb Tp^2) times (Ll^2 times the squared distance from the mode plus the population variance of the gradients at the mode): it decreases with the batch size.",
  "all such models with any number of parameters, data sets, batch sizes >= 1 (>= 2 for a batched likelihood), temperatures, initial samples, keys, step size sequences, numbers of iterations, and all expectations for which the batches are uniform and independent of the position and the noise is centred, of unit variance and uncorrelated",
  "a statement about expectations of arbitrarily long runs over all models; a test sees one finite chain",
  [IN+":langevin_diffusion", PO+":minibatch_potential", SO+":sgmc", SC+":polynomial_step_size"])
p("C91","The averages of the SGLD samples converge to the posterior mean",
  "On a Gaussian model (setting of C87, any number of parameters) with batches drawn uniformly and independently and independent normal noise, averages along one SGLD run converge in mean square to the posterior mean: (1) the average weighted with the step sizes, for step sizes that vanish but whose sum diverges; (2) the plain average of the samples after a burn in, if the step sizes are also nonincreasing and n eps_n grows without bound, in particular for the polynomial step size schedule with 0 < gamma < 1; (3) with nonincreasing step sizes between positive bounds, the upper one small enough, the plain average of the samples b, ..., n - 1 has mean square error at most K / (n - b), where K depends on the bounds only; in particular with a small constant step size: the mean is unbiased in the limit although the spread of the samples is not (C88). In general weights r_k eps_k with nondecreasing r_k >= 0 give a mean square error of at most K (rho^2 + rho) with rho = r_(n-1) over the sum of the weights.",
  "all data sets, batch sizes >= 1 (>= 2 for a batched likelihood), Gaussian likelihoods and priors, step size sequences, burn ins, temperatures, initial samples, keys, sources of batches, and all distributions of the indices and normal numbers that are independent",
  "a law of large numbers is a statement about the limit of averages over all runs; a test sees one finite average",
  [IN+":langevin_diffusion", PO+":minibatch_potential", SC+":polynomial_step_size", SC+":initial_burn_in", SO+":sgmc"])
p("C92","The mean of the samples returned by alias.sgld estimates the posterior mean",
  "On a Gaussian model (setting of C87, any number of parameters), with a host or device NumPy data loader whose index lists are uniformly distributed and independent and with independent normal noise: if alias.sgld (no RMSprop, no adaptive step size) is called with last_step_size < first_step_size below a threshold and asked to return all iterations - burn_in samples, then for every chain the mean over the returned samples of every parameter has mean square error at most K / (number of returned samples) from the posterior mean, where K does not depend on the number of iterations and the burn-in, whatever else the program does with the loader, the collector and the other chains.",
  "all data sets, batch sizes >= 1 (>= 2 for a batched likelihood), cache sizes, Gaussian likelihoods and priors, first and last step sizes below the threshold, numbers of iterations, burn-ins, numbers of chains, initial samples, histories of the collector and of the loader before, during and after construction, and all distributions of indices and normal numbers that are independent",
  "a statement about expectations over all random numbers and about every number of iterations, through data loader, potential, integrator, scheduler, solver and saving; a test sees single numbers of single runs",
  [AL+":sgld", NL+":NumpyDataLoader", DC+":random_reference_data", PO+":minibatch_potential", IN+":langevin_diffusion", SC+":polynomial_step_size_first_last", SO+":mcmc", IO+":MemoryCollector"])
p("C93","The chains of alias.sgld on a device loader converge to one another",
  "Several chains of one call of alias.sgld on a DeviceNumpyDataLoader are not independent repetitions: they start with the same key and the same data state, hence draw the same noise and the same batches. On a model with a strongly concave log prior and concave log likelihoods with Lipschitz gradients, and with first_step_size below the stability threshold 2 m / L^2 of the potential, the squared distance between the k-th returned samples of any two chains is at most q^(burn_in + k + 1) times the squared distance of their initial samples, with an explicit q < 1: after some iterations all chains return the same samples, so that neither their spread nor their number says anything about the posterior.",
  "all data sets, batch sizes >= 1 (>= 2 for a batched likelihood), cache sizes, concave models, falling step sizes below the threshold, numbers of iterations, burn-ins, numbers of chains, initial samples, seeds, random number generators, histories of the collector",
  "a statement about all random numbers, all pairs of initial samples and every number of iterations; a test sees single distances",
  [AL+":sgld", NL+":DeviceNumpyDataLoader", DC+":random_reference_data", PO+":minibatch_potential", IN+":langevin_diffusion", SO+":mcmc"])
p("C94","The averages of products of the SGLD samples converge to the second moments of the posterior",
  "On a Gaussian model (setting of C87 and C91, any number of parameters) with batches drawn uniformly and independently and independent noise with bounded fourth moments, the averages of the products x_i x_j along one SGLD run converge in mean square to the second moments mu_i mu_j + T Sigma_ij of the posterior at temperature T: (1) the average weighted with the step sizes, for step sizes that vanish but whose sum diverges; (2) the plain average of the samples after a burn in, if the step sizes are also nonincreasing and n eps_n grows without bound, in particular for the polynomial step size schedule with 0 < gamma < 1; (3) with a small constant step size e the mean square error of the plain average of n samples is at most K (1/(n e)^2 + 1/(n e) + e^2): a bias of the order of e remains. With C91, the covariance of the samples that a user computes (average of the products minus product of the averages) converges to the posterior covariance.",
  "all data sets, batch sizes >= 1 (>= 2 for a batched likelihood), Gaussian likelihoods and priors, step size sequences, burn ins, temperatures, initial samples, keys, sources of batches, pairs of parameters, and all distributions of the indices and noise that are independent with fourth moments of the noise at most kappa (3 for normal numbers)",
  "a law of large numbers for the squares of the samples is a statement about the limit of averages over all runs; a test sees one finite average",
  [IN+":langevin_diffusion", PO+":minibatch_potential", SC+":polynomial_step_size", SC+":initial_burn_in", SO+":sgmc"])
p("C95","The covariance of the samples that alias.sgld returns estimates the posterior covariance",
  "On a Gaussian model (setting of C87) with batches drawn uniformly and independently and independent noise with fourth moments at most kappa, there are a threshold e1 and a constant K, depending on the model and the initial sample only, such that every chain of alias.sgld with step sizes falling from first_step_size f <= e1 to last_step_size l < f that returns all m samples after the burn-in satisfies, with v = (1/(m l))^2 + 1/(m l) + f^2: the average of the samples has mean square error at most K v with respect to the posterior mean; the average of the products x_i x_j has mean square error at most K v with respect to the second moments of the posterior; and the covariance of the samples (deviations from their own average, as numpy.cov with bias=True) has a bias of at most K (sqrt v + v) with respect to the posterior covariance. Small steps and many samples therefore make all three errors as small as wanted; with few samples or a large first step the bound does not vanish. It holds on a host and on a device loader, and for every run of SGLD with nonincreasing step sizes below e1.",
  "all data sets, batch sizes >= 1 (>= 2 for a batched likelihood), cache sizes, Gaussian likelihoods and priors, step sizes below the threshold, numbers of iterations, burn-ins, numbers of chains, initial samples, seeds, histories of the collector and of the other users of the loader, pairs of parameters and all distributions of the indices and noise that are independent with bounded fourth moments",
  "an expectation over all random numbers, bounded uniformly over all settings; a test sees one run",
  [AL+":sgld", IN+":langevin_diffusion", PO+":minibatch_potential", SC+":polynomial_step_size_first_last", SC+":initial_burn_in", SO+":mcmc", NL+":NumpyDataLoader", NL+":DeviceNumpyDataLoader"])
p("C96","The averages of OBABO's samples converge to the posterior mean, also with a constant step size",
  "In the setting of C86 (Gaussian posterior with diagonal precision, exact gradients, positive friction, standard random vectors) the average of the positions after the integrations b+1, ..., b+n of integrator.obabo converges in mean square to the posterior mean: (1) with a constant step size h below the stability limit (h^2 lam < 4 m) the mean square error is at most K/n, with one K for all burn ins b, numbers of samples and coordinates - although the variance of the samples is biased (C86), the estimate of the mean is not; (2) with step sizes that are nonincreasing, vanish and for which n eps_n grows without bound, in particular those of polynomial_step_size with 0 < gamma < 1, the mean square error tends to 0 for every burn in.",
  "all sample pytrees, posteriors with diagonal precision, positive frictions, diagonal masses, temperatures >= 0, numbers of inner steps, initial samples, keys, step size sequences as described, burn ins, data sources, and all distributions of the normal numbers with mean 0, variance 1 and no correlation",
  "a law of large numbers is a statement about the limit of averages over all runs; a test sees one finite average",
  [IN+":obabo", AL+":obabo", SC+":polynomial_step_size", SC+":initial_burn_in"])
p("C97","The mean of the samples that alias.obabo returns is a good estimate of the posterior mean",
  "In the setting of C86 (Gaussian posterior with diagonal precision, exact gradients, positive friction, standard random vectors): (1) for integrator.obabo with step sizes that do not increase and stay between lo > 0 and hi, hi below the stability limit (hi^2 lam < 4 m for every coordinate), the average of the positions after the integrations b+1, ..., b+n has mean square error at most K/n, with one K for all such step sizes, burn ins, numbers of samples and coordinates; (2) alias.obabo with step sizes falling from first_step_size = f (below the stability limit) to last_step_size = l > 0, with burn_in b and accepted_samples = iterations - b, completes in every state of the program that was reached by any history of calls, and the mean of the returned samples (\"variables\") of every chain has mean square error at most K / (number of returned samples); K depends on f and l and on the posterior, not on the number of iterations and the burn in.",
  "all sample pytrees, posteriors with diagonal precision, positive frictions, diagonal masses, numbers of inner steps, first and last step sizes, numbers of iterations, burn ins, numbers of chains, initial samples, model states, histories of solver calls before, data sources, and all distributions of the normal numbers with mean 0, variance 1 and no correlation",
  "an error bound is a statement about the average over all runs and for every length of the run; a test sees a few finite runs",
  [IN+":obabo", AL+":obabo", SC+":polynomial_step_size_first_last", SO+":mcmc"])
p("C98","The mean of the samples of alias.sghmc is a good estimate of the posterior mean",
  "In the setting of C85 (Gaussian posterior with diagonal precision, exact gradients, friction_leapfrog with standard random vectors) with at least two leapfrog steps per iteration: there is a threshold e1 > 0 that depends on the posterior, friction, mass and number of leapfrog steps, such that (1) for step sizes between lo > 0 and e1 the average of the positions after the integrations b+1, ..., b+n has mean square error at most K/n, with one K for all such step sizes, burn ins, numbers of samples and coordinates; (2) for all positive step sizes that do not increase, vanish and fall slower than 1/sqrt(n), in particular those of scheduler.polynomial_step_size with 0 < gamma < 1/2 (the default 0.33 is one), the averages converge to the posterior mean in mean square for every burn in; (3) alias.sghmc with step sizes falling from first_step_size <= e1 to last_step_size > 0, with burn_in b and accepted_samples = iterations - b, completes in every state of the program reached by any history of calls, and the mean of the returned samples of every chain has mean square error at most K / (number of returned samples), K independent of the number of iterations and the burn in. (In contrast to the variance of these samples, which C85 shows to be biased even for vanishing step sizes.)",
  "all sample pytrees, posteriors with diagonal precision, frictions (of every sign), diagonal masses, numbers of leapfrog steps >= 2, step size sequences as stated, numbers of iterations, burn ins, numbers of chains, initial samples, model states, histories of solver calls before, data sources, and all distributions of the normal numbers with mean 0, variance 1 and no correlation",
  "an error bound is a statement about the average over all runs and for every length of the run; a test sees a few finite runs",
  [IN+":friction_leapfrog", AL+":sghmc", SC+":polynomial_step_size", SC+":polynomial_step_size_first_last", SO+":mcmc"])
p("C99","All chains of one alias call use the same random numbers: pooling chains does not reduce the variance of the estimated mean",
  "One call of alias.sgld (without RMSprop), alias.obabo or alias.sghmc with several initial samples starts all chains with the same key. On a Gaussian posterior (sgld: gradients A t - c_b with a constant matrix A, all chains seeing batches with the same c_b; obabo and sghmc: exact gradients with diagonal precision), with step sizes falling from first to last step size and accepted_samples = iterations - burn_in, the call completes in every state of the program, returns one result per chain, and the samples of any two chains differ by numbers (row by row, coordinate by coordinate) that depend only on the two initial samples and the parameters, not on the random numbers. Hence for every distribution of the random numbers the mean of all samples of all chains has exactly the variance of the mean of the samples of a single chain, however many chains are run.",
  "all sample pytrees, numbers of chains, initial samples, Gaussian posteriors (no condition on the sign of the precision), frictions, diagonal masses, numbers of inner steps, step sizes, iterations, burn ins, data sources, histories of solver calls before, and all random number generators and distributions of their numbers",
  "a statement about the variance over all runs; a test that compares the chains of a run sees different samples for different initial samples and no sign of the dependence",
  [AL+":sgld", AL+":obabo", AL+":sghmc", IN+":langevin_diffusion", IN+":obabo", IN+":friction_leapfrog", SO+":mcmc"])
p("C100","Stability limit of OBABO: on a Gaussian posterior the variance of the positions stays bounded exactly for h^2 lam < 4 m, whatever the friction",
  "On a Gaussian posterior with precision lam_i > 0 in coordinate i and mass m_i, integrator.obabo (and alias.obabo, which runs it) with positive friction and temperature: (a) if a constant step size h satisfies h^2 lam_i >= 4 m_i, the variance of coordinate i grows at least linearly in the number of inner steps and passes every bound, whatever the friction and the number of inner steps; for h^2 lam_i > 4 m_i the distance of the mean from mu_i and the standard deviation grow at least geometrically, by the factor h^2 lam_i / (2 m_i) - 1 > 1 per inner step, for any friction and temperature >= 0; (b) with h^2 lam_i < 4 m_i variance and mean of the coordinate stay bounded, whatever happens to the other coordinates; (c) with step sizes that change from integration to integration, as long as eps_k^2 lam_i >= 4 m_i every inner step adds at least eps_k^2 T (1 - exp(- friction eps_k)) / m_i to the variance and the mean does not come closer to mu_i than it started. (d) alias.obabo with step sizes falling to a last step size l with l^2 lam_i >= 4 m_i still completes without an error, in every state of the program, while the variance of coordinate i of row k of the returned samples is at least steps (burn_in + k + 1) l^2 (1 - exp(- friction l)) / m_i and its mean is not closer to mu_i than the initial sample.",
  "all sample pytrees, Gaussian posteriors with diagonal precision, diagonal masses, frictions, temperatures, numbers of inner steps, step sizes, initial samples, data sources, and all random number generators whose vectors have mean 0, variance 1 and are uncorrelated",
  "a statement about the moments over all runs and all numbers of steps; a test sees finitely many runs of finite length, in which slow growth of the variance cannot be told from sampling error",
  [IN+":obabo", AL+":obabo", SO+":mcmc"])
p("C101","Stability limit of alias.sgld: in a principal direction of a Gaussian posterior with precision lam the samples stay bounded below eps lam = 2 and drift away at and above it, without an error",
  "One call of alias.sgld (without RMSprop) on a Gaussian posterior with exact gradients A (t - mu), step sizes falling from first to last step size and accepted_samples = iterations - burn_in completes without an error in every state of the program, for every precision matrix A and all step sizes. Let u be a direction of length one with u A = lam u. (a) If even the last step size l satisfies l lam >= 2, the variance of the component along u of row k of the returned samples is at least 2 l (burn_in + k + 1), so it passes every bound, and its mean is never closer to the posterior mean than the initial sample. (b) If lam > 0 and the first step size f satisfies f lam < 2, that variance is at most 2 / (lam (2 - f lam)) and the mean never farther from the posterior mean than the initial sample, in every row and for every number of iterations, whatever happens in other directions.",
  "all sample pytrees, precision matrices and left eigenvectors, posterior means, step sizes, iterations, burn ins, numbers of chains, initial samples, data sources, histories of solver calls before, and all random number generators whose vectors have mean 0, variance 1 and are uncorrelated",
  "a statement about the moments over all runs and all numbers of iterations; a test sees finitely many runs of finite length, in which slow growth of the variance cannot be told from sampling error",
  [AL+":sgld", IN+":langevin_diffusion", SC+":polynomial_step_size_first_last", SO+":mcmc"])
out=os.path.join(os.path.dirname(os.path.abspath(__file__)),"..","properties.jsonl")
with open(out,"w") as f:
    for x in P: f.write(json.dumps(x)+"\n")
print(len(P))
