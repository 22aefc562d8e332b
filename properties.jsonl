{"id": "C01", "title": "Single hop has the Jordan-Wigner sign and result", "statement": "apply_hopping(i, a, x, spin, cummulative_count=cumsum of spin occupancy of x) returns s and turns x into x' such that <x|c+_{i,spin} c_{a,spin}|y> = s if y = x' and 0 otherwise: it returns 0 and leaves x alone when the hop is Pauli-forbidden, 1 (number operator) when i = a is occupied, and otherwise the fermionic sign with the electron moved.", "quantifier": "every lattice size, every occupancy configuration, every pair of sites, both spins", "why_tests_cant": "the sign depends on all sites between the two; configurations are exponentially many and sizes unbounded", "anchors": ["GPSKet/operator/fermion.py:apply_hopping"]}
{"id": "C02", "title": "Hop sign does not depend on whether cumulative counts are supplied", "statement": "apply_hopping called without cummulative_count returns the same multiplicator and produces the same configuration as when it is called with the cumulative spin counts of the configuration.", "quantifier": "every configuration, pair of sites and spin", "why_tests_cant": "the two branches differ only for particular occupations at the boundary sites; sampling small cases can miss it", "anchors": ["GPSKet/operator/fermion.py:apply_hopping"]}
{"id": "C03", "title": "Hubbard connected elements represent the Hubbard Hamiltonian", "statement": "For FermiHubbard, the sum over the connected configurations returned by get_conn_flattened of mel*psi(x') equals (H psi)(x), H = -sum_e t_e sum_s (c+_is c_js + c+_js c_is) + U sum_i n_iup n_idn, for any wave function psi.", "quantifier": "every size, edge list (repeated edges and self loops included), t list, U, configuration and wave function", "why_tests_cant": "an operator identity over unbounded lattices and arbitrary psi", "anchors": ["GPSKet/operator/hamiltonian/hubbard.py:FermiHubbard._get_conn_flattened_kernel"]}
{"id": "C04", "title": "Hubbard and ab-initio connected configurations stay in the electron sector", "statement": "Every configuration returned by get_conn_flattened of the fermionic Hamiltonians is a valid occupancy list of the same length with the same number of up and of down electrons as the input (so it satisfies the Hilbert space constraint whenever the input does), including those carried with a zero matrix element.", "quantifier": "every input configuration and Hamiltonian parameters", "why_tests_cant": "all connected configurations of all inputs", "anchors": ["GPSKet/operator/hamiltonian/hubbard.py:FermiHubbard._get_conn_flattened_kernel", "GPSKet/operator/hamiltonian/ab_initio.py:AbInitioHamiltonian._get_conn_flattened_kernel", "GPSKet/hilbert/discrete_fermion.py:FermionicSumConstraint"]}
{"id": "C05", "title": "Hubbard matrix is symmetric, as is_hermitian promises", "statement": "FermiHubbard.is_hermitian returns True and indeed the total matrix element from x to y returned by get_conn equals the one from y to x.", "quantifier": "every pair of configurations, edge list, t, U", "why_tests_cant": "pairs of configurations are quadratically exponential", "anchors": ["GPSKet/operator/hamiltonian/hubbard.py:FermiHubbard.is_hermitian"]}
{"id": "C06", "title": "Hubbard flattened output and sections delimit the batch correctly", "statement": "For a batch, get_conn_flattened fills every slot of the returned arrays exactly once and sets sections[b] so that slice b (from sections[b-1], or 0, to sections[b]) is the connected list of sample b alone.", "quantifier": "every batch size, every batch content, every edge list including the empty one", "why_tests_cant": "depends on running offsets through the whole batch, for unbounded batches", "anchors": ["GPSKet/operator/hamiltonian/hubbard.py:FermiHubbard._get_conn_flattened_kernel"]}
{"id": "C07", "title": "Hubbard on-the-fly local energy equals the connected-element local energy", "statement": "The FermiHubbardOnTheFly local energy of a sample equals sum_k mel_k psi(x'_k)/psi(x) over get_conn_flattened of the same Hamiltonian.", "quantifier": "every size, edge list, parameters, sample and non-vanishing amplitude", "why_tests_cant": "two independent implementations must agree on all inputs", "anchors": ["GPSKet/operator/hamiltonian/hubbard.py:local_en_on_the_fly"]}
{"id": "C08", "title": "Ab-initio connected elements represent the molecular Hamiltonian", "statement": "For AbInitioHamiltonian(h, eri), sum_k mel_k psi(x'_k) over get_conn_flattened equals (H psi)(x) with H = sum h_pq c+_p c_q + 1/2 sum (pq|rs) c+_p c+_r c_s c_q (spin summed), for integrals with the pair-exchange symmetry (pq|rs)=(rs|pq).", "quantifier": "every number of orbitals, h, pair-symmetric eri, configuration and wave function", "why_tests_cant": "an operator identity with four nested orbital loops, signs depending on all orbitals between; unbounded sizes", "anchors": ["GPSKet/operator/hamiltonian/ab_initio.py:AbInitioHamiltonian._get_conn_flattened_kernel", "GPSKet/operator/hamiltonian/ab_initio.py:AbInitioHamiltonian.__init__"]}
{"id": "C09", "title": "Ab-initio buffers and sections are exact", "statement": "In get_conn_flattened of AbInitioHamiltonian the space reserved per sample (connected_con) is exactly the number of elements written, so no slot is left uninitialised, none is overrun, and sections delimit the samples.", "quantifier": "every batch and every electron filling, including empty, full and unequal fillings", "why_tests_cant": "counting identity over all fillings", "anchors": ["GPSKet/operator/hamiltonian/ab_initio.py:AbInitioHamiltonian._get_conn_flattened_kernel"]}
{"id": "C10", "title": "Ab-initio on-the-fly local energy equals the Hamiltonian action", "statement": "AbInitioHamiltonianOnTheFly's local energy of a sample in the declared electron sector equals (H psi)(x)/psi(x).", "quantifier": "every orbital number, integrals, sample of the sector, amplitude function", "why_tests_cant": "must hold for all samples and models; only a handful can be compared numerically", "anchors": ["GPSKet/operator/hamiltonian/ab_initio.py:local_en_on_the_fly"]}
{"id": "C11", "title": "Local density matrices reproduce the local energy linearly", "statement": "With return_local_RDMs=True the returned arrays satisfy local_en = sum(t*t_RDM) + sum(eri*eri_RDM), and the arrays do not depend on t and eri.", "quantifier": "every t, eri, sample and amplitude function", "why_tests_cant": "linear identity over all integrals", "anchors": ["GPSKet/operator/hamiltonian/ab_initio.py:local_en_on_the_fly"]}
{"id": "C12", "title": "Sparse ab-initio local energy equals the dense one", "statement": "AbInitioHamiltonianSparse yields the same local energy as AbInitioHamiltonianOnTheFly for the same integrals, whatever their sparsity pattern.", "quantifier": "every h, pair-symmetric eri (any zeros), sample and amplitude function", "why_tests_cant": "different algorithm, different term order and sign bookkeeping, all sparsity patterns", "anchors": ["GPSKet/operator/hamiltonian/ab_initio_sparse.py:local_en_on_the_fly"]}
{"id": "C13", "title": "Sparse integral storage is lossless", "statement": "The flattened range/id/value arrays built by AbInitioHamiltonianSparse contain, for each row (pair), exactly the nonzero entries of h (eri) with their values, once each, and all ranges are within bounds and consecutive.", "quantifier": "every shape and zero pattern, including empty rows", "why_tests_cant": "all zero patterns", "anchors": ["GPSKet/operator/hamiltonian/ab_initio_sparse.py:AbInitioHamiltonianSparse.__init__"]}
{"id": "C14", "title": "Partial updates with repeated sites mean the intended configuration", "statement": "The (new occupancies, update sites) lists built for up-down double hops denote the configuration after both hops, also when the hops share sites: first occurrence carries the real value, later occurrences carry the original value, and the reverse-order application yields the intended configuration.", "quantifier": "every configuration and every quadruple of sites of the double hop", "why_tests_cant": "coincidences of four site indices over all configurations", "anchors": ["GPSKet/operator/hamiltonian/ab_initio.py:get_updated_occ_previous_move", "GPSKet/operator/hamiltonian/ab_initio.py:get_connected_log_amp", "GPSKet/operator/hamiltonian/ab_initio_sparse.py:update_config"]}
{"id": "C15", "title": "On-the-fly Heisenberg local energy", "statement": "The HeisenbergOnTheFly local energy equals sum over two-site terms of <x|O|y>psi(y)/psi(x) for two-site operators whose only off-diagonal entries couple up-down with down-up.", "quantifier": "every list of two-site operators and acting-on pairs, sample, amplitude", "why_tests_cant": "all lattices and samples", "anchors": ["GPSKet/operator/hamiltonian/J1J2.py:local_en_on_the_fly"]}
{"id": "C16", "title": "ASEP generator conserves probability and respects exclusion", "statement": "At lambda = 0 the matrix elements returned for a configuration by AsymmetricSimpleExclusionProcess sum to zero; at any lambda all connected configurations are 0/1 lists of the same length, diagonal entries keep the configuration, and the elements returned are those of the tilted ASEP generator.", "quantifier": "every chain length >= 1, rates, lambda and configuration", "why_tests_cant": "a conservation law over all configurations", "anchors": ["GPSKet/operator/hamiltonian/asep.py:AsymmetricSimpleExclusionProcess._get_conn_flattened_kernel", "GPSKet/operator/asep.py"]}
{"id": "C17", "title": "ASEP is_hermitian flag is truthful", "statement": "If AsymmetricSimpleExclusionProcess.is_hermitian returns True then the matrix returned by get_conn is symmetric.", "quantifier": "every rate vector and chain length", "why_tests_cant": "all real rates", "anchors": ["GPSKet/operator/hamiltonian/asep.py:AsymmetricSimpleExclusionProcess.is_hermitian"]}
{"id": "C18", "title": "ASEP flattened output and sections", "statement": "get_conn_flattened of the ASEP fills exactly 4*(1+L) slots per sample, and sections delimit the samples.", "quantifier": "every batch and L >= 1", "why_tests_cant": "running offsets through unbounded batches", "anchors": ["GPSKet/operator/hamiltonian/asep.py:AsymmetricSimpleExclusionProcess._get_conn_flattened_kernel"]}
{"id": "C19", "title": "Hopping/exchange proposals stay in the electron sector", "statement": "The configuration proposed by the fermionic hopping rule has valid occupancies and the same numbers of up and down electrons as the current one, for hops and exchanges, with or without transition_probs, whatever the random numbers.", "quantifier": "every configuration (including empty, full, fully polarised) and every outcome of every random draw", "why_tests_cant": "all random outcomes on all configurations", "anchors": ["GPSKet/sampler/rules/fermionic_hopping.py:transition_function"]}
{"id": "C20", "title": "Hopping proposals are symmetric (no transition_probs)", "statement": "Without transition_probs the probability of proposing y from x equals that of proposing x from y, as required by a rule that returns no log-probability correction.", "quantifier": "every pair of configurations of a sector, every hop probability", "why_tests_cant": "exact probabilities over all pairs, not estimable to equality by sampling", "anchors": ["GPSKet/sampler/rules/fermionic_hopping.py:transition_function"]}
{"id": "C21", "title": "Hopping proposals with transition_probs are symmetric", "statement": "With any transition_probs matrix accepted by MetropolisFastHopping (symmetric, non-negative) the probability of proposing y from x equals that of proposing x from y.", "quantifier": "every accepted transition_probs matrix and pair of configurations", "why_tests_cant": "exact probabilities for all matrices", "anchors": ["GPSKet/sampler/fermionic_hopping.py:MetropolisFastHopping", "GPSKet/sampler/rules/fermionic_hopping.py:transition_function"]}
{"id": "C22", "title": "Reported update sites determine the proposal", "statement": "For the hopping and the exchange rule: the proposed configuration differs from the current one at most on the reported update_sites, so writing its values there reproduces it (also when start and target site coincide).", "quantifier": "every configuration, random outcome, cluster list", "why_tests_cant": "all random outcomes", "anchors": ["GPSKet/sampler/rules/fermionic_hopping.py:transition_function", "GPSKet/sampler/rules/exchange_with_update.py:ExchangeRuleWithUpdate.transition"]}
{"id": "C23", "title": "Exchange proposals permute the configuration and are symmetric", "statement": "ExchangeRuleWithUpdate proposes a configuration that is a permutation of the current one (same magnetisation / electron numbers); the same cluster draw maps it back, so the proposal is symmetric.", "quantifier": "every configuration, cluster list and draw", "why_tests_cant": "all configurations and draws", "anchors": ["GPSKet/sampler/rules/exchange_with_update.py:ExchangeRuleWithUpdate.transition"]}
{"id": "C24", "title": "Fast Metropolis sampling equals plain Metropolis sampling", "statement": "For any model whose fast update is correct, after any number of Metropolis steps with any random outcomes the chain states, log-probabilities and acceptance counters of MetropolisFastSampler are those of the textbook sampler that evaluates the model from scratch, and the cached intermediates are those of the current configuration.", "quantifier": "every number of steps, chains, random outcomes, model satisfying the fast update contract", "why_tests_cant": "histories of unbounded length", "anchors": ["GPSKet/sampler/metropolis_fast.py:MetropolisFastSampler._sample_next"]}
{"id": "C25", "title": "batch_choice is inverse-CDF sampling", "statement": "batch_choice returns for each row an index in range, selected with probability p_k / sum(p) (the set of uniform draws selecting k is an interval of that length), and never selects an entry of probability zero.", "quantifier": "every row of non-negative, not all zero probabilities and every uniform draw in [0,1)", "why_tests_cant": "all draws including the boundary ones, which occur with tiny probability", "anchors": ["GPSKet/sampler/autoreg.py:batch_choice"]}
{"id": "C26", "title": "Autoregressive direct sampling draws from |psi|^2", "statement": "The probability that ARDirectSampler's site-by-site loop produces x is the product of the model's conditionals at x, which equals |psi(x)|^2 of the (non-symmetrised) model, and these probabilities sum to 1.", "quantifier": "every system size and conditional family", "why_tests_cant": "a distribution over exponentially many configurations", "anchors": ["GPSKet/sampler/autoreg.py:_sample_chain", "GPSKet/models/autoreg_qGPS.py:ARqGPS.__call__"]}
{"id": "C27", "title": "Autoregressive conditionals are causal", "statement": "The conditional probabilities at site i returned by the autoregressive models do not depend on the occupancies at sites >= i.", "quantifier": "every parameter set, configuration and site", "why_tests_cant": "all pairs of configurations agreeing on a prefix", "anchors": ["GPSKet/models/autoreg_qGPS.py:_conditional", "GPSKet/models/autoreg_qGPS_full.py", "GPSKet/models/autoreg_plaquetteqGPS.py"]}
{"id": "C28", "title": "Cached incremental conditionals equal the full evaluation", "statement": "Calling _conditional for sites 0..L-1 with the internal cache gives the same conditionals as conditionals() evaluated at once on the final configuration.", "quantifier": "every parameters, configuration, size", "why_tests_cant": "history of L cached calls", "anchors": ["GPSKet/models/autoreg_qGPS.py:_conditional", "GPSKet/models/autoreg_qGPS.py:_conditionals"]}
{"id": "C29", "title": "Zero-magnetisation autoregressive models only sample the sector", "statement": "With a constrained Hilbert space, every configuration of positive probability has equally many spins of each kind, and the allowed conditionals always leave at least one choice, so sampling cannot get stuck.", "quantifier": "every even system size, parameters, sequence of choices", "why_tests_cant": "all sequences of random choices", "anchors": ["GPSKet/models/autoreg_qGPS.py:ARqGPS", "GPSKet/models/autoreg_qGPS.py:renormalize_log_psi"]}
{"id": "C30", "title": "Unconstrained autoregressive models give every configuration positive probability", "statement": "Without constraint the model's conditionals are those of the exponential ansatz: no configuration is artificially forbidden.", "quantifier": "every system size and parameters", "why_tests_cant": "depends on the size; a forbidden configuration yields -inf only for specific sizes", "anchors": ["GPSKet/models/autoreg_qGPS.py:ARqGPS"]}
{"id": "C31", "title": "Triangular packing of site-resolved parameters is a bijection", "statement": "In the fully variational autoregressive model, the parameter slices for different sites never overlap, are in bounds, are never clamped and together use every entry below the diagonal exactly once.", "quantifier": "every L", "why_tests_cant": "indexing identity for all L", "anchors": ["GPSKet/models/autoreg_qGPS_full.py"]}
{"id": "C32", "title": "qGPS fast update equals full evaluation", "statement": "For qGPS, evaluating with update_sites after caching gives the amplitude of the updated configuration, including with symmetries and with repeated sites in the update list, and the cache written by the update equals the cache of a fresh evaluation.", "quantifier": "every size, support dimension, symmetry set, non-vanishing parameters, configuration, update list and any chain of cached updates", "why_tests_cant": "histories of updates", "anchors": ["GPSKet/models/qGPS.py:qGPS.__call__"]}
{"id": "C33", "title": "Symmetrised amplitudes are invariant", "statement": "When the symmetry operations form a group, symmetrised models (sum over transformed configurations of a function of each) give the same amplitude for a configuration and each of its images, including spin flip.", "quantifier": "every group of permutations, base model, configuration", "why_tests_cant": "all groups and configurations", "anchors": ["GPSKet/models/qGPS.py:get_sym_transformation_spin"]}
{"id": "C34", "title": "Plaquette qGPS fast update equals full evaluation", "statement": "For PlaquetteqGPS, evaluating with update_sites after caching equals evaluation of the updated configuration, and cached configurations match.", "quantifier": "every plaquette table, configuration and update list", "why_tests_cant": "histories of updates and all plaquette tables", "anchors": ["GPSKet/models/plaquetteqGPS.py:PlaquetteqGPS.__call__"]}
{"id": "C35", "title": "CPD backflow fast update equals full evaluation", "statement": "For the CPD backflow, the orbitals used after an update with update_sites are those of the updated configuration.", "quantifier": "every configuration and update list produced by the Hamiltonians/samplers, repeated sites included", "why_tests_cant": "coincidences among update sites", "anchors": ["GPSKet/models/cpd_backflow.py:CPDBackflow.__call__", "GPSKet/models/cpd_backflow.py:CPD_with_cache"]}
{"id": "C36", "title": "Occupancies to electron positions is a faithful, ordered translation", "statement": "occupancies_to_electrons lists for each configuration the positions of the up electrons in increasing order followed by those of the down electrons, and the configuration can be reconstructed; row b of the result depends only on row b of the input.", "quantifier": "every batch of configurations in the sector n_elec", "why_tests_cant": "batched nonzero+reshape mixes rows unless every row has the right count", "anchors": ["GPSKet/models/slater.py:occupancies_to_electrons"]}
{"id": "C37", "title": "Slater determinant fast update equals full evaluation", "statement": "The determinant obtained from the cached inverse and the update matrix, times the permutation parity from the update, equals the amplitude of the updated configuration with electrons in standard order.", "quantifier": "every orbital matrix with invertible current block, every set of moved electrons", "why_tests_cant": "exact linear algebra identity for all sizes and updates", "anchors": ["GPSKet/models/slater.py:Slater.__call__"]}
{"id": "C38", "title": "Slater cached inverse stays the inverse", "statement": "After any sequence of accepted updates the cached inverse matrix is the exact inverse of the orbital matrix of the current electron positions (in the cached order).", "quantifier": "every sequence of updates through non-singular configurations", "why_tests_cant": "unbounded histories", "anchors": ["GPSKet/models/slater.py:Slater.__call__"]}
{"id": "C39", "title": "Pfaffian by Parlett-Reid", "statement": "log_pfaffian of an even-dimensional skew matrix returns (the log of) a number whose square is the determinant and which transforms like the Pfaffian, and -inf exactly for singular matrices.", "quantifier": "every even dimension and skew matrix", "why_tests_cant": "pivoting histories on all matrices", "anchors": ["GPSKet/models/pfaffian.py:log_pfaffian"]}
{"id": "C40", "title": "Jastrow factor is spin-exchange symmetric", "statement": "The Jastrow amplitude does not change when up and down occupancies are swapped on all sites; and only depends on the symmetric part of its kernel.", "quantifier": "every kernel and configuration", "why_tests_cant": "all kernels and configurations", "anchors": ["GPSKet/models/jastrow.py"]}
{"id": "C41", "title": "Segmented GPS looks up parameters in range", "statement": "For configurations of the Hilbert space the electron (spin) counters used to index the parameters of the segmented GPS never exceed the parameter array bounds, and the recursion visits the counter values of each prefix.", "quantifier": "every configuration of the sector", "why_tests_cant": "prefix counts of all configurations", "anchors": ["GPSKet/models/segmented_qGPS.py"]}
{"id": "C42", "title": "Causal convolutions are causal", "statement": "With a causal convolution layer, output at site i depends only on inputs at sites < i (exclusive) or <= i (non-exclusive), and a stack exclusive-then-inclusive never sees the current or later sites.", "quantifier": "every kernel size, depth, weights and inputs", "why_tests_cant": "all pairs of inputs agreeing on a prefix, all kernel sizes", "anchors": ["GPSKet/nn/causal_conv.py"]}
{"id": "C43", "title": "Unique-sample weights reproduce plain Monte Carlo averages", "statement": "samples_with_counts returns pairwise distinct samples (besides zero-weight padding) with weights equal to relative frequencies, summing to one over all ranks, so that weighted averages equal the plain averages over the raw samples consumed.", "quantifier": "every stream of samples, batch sizes, number of ranks", "why_tests_cant": "all streams including duplicates and early stop", "anchors": ["GPSKet/vqs/mc/mc_state/state_unique_samples.py:MCStateUniqueSamples.samples_with_counts"]}
{"id": "C44", "title": "Stratified sampling weights are a proper estimator", "statement": "In the stratified-sampling state the deterministic set is never sampled, the complement chain never leaves the complement, and the combined weights sum to one.", "quantifier": "every deterministic set, chain history", "why_tests_cant": "chain histories", "anchors": ["GPSKet/vqs/mc/mc_state/state_stratified_sampling.py"]}
{"id": "C45", "title": "minSR distributes and restores samples without loss or reordering", "statement": "Splitting samples into chunks over ranks and re-assembling jacobian rows and energies uses each sample exactly once and pairs each row with its own energy.", "quantifier": "every number of ranks, chunk size and chunk count", "why_tests_cant": "index arithmetic for all sizes", "anchors": ["GPSKet/driver/minSR.py"]}
{"id": "C46", "title": "minSR solves the SR equation", "statement": "The update computed from the sample-space (N x N) system equals the minimum-norm / regularised solution of the parameter-space SR equation.", "quantifier": "every jacobian, energies, shift > 0", "why_tests_cant": "all matrices", "anchors": ["GPSKet/driver/minSR.py"]}
{"id": "C47", "title": "SR-RMSProp keeps a valid running second moment", "statement": "After any number of updates the bias-corrected moment is a convex combination of the squared gradients seen, hence non-negative and within their range, and the regularised matrix is positive definite.", "quantifier": "every gradient history and decay in [0,1)", "why_tests_cant": "unbounded histories", "anchors": ["GPSKet/driver/VMC_SRRMSProp.py:SRRMSProp"]}
{"id": "C48", "title": "QGT matvec and dense form agree", "statement": "For the RMSProp-regularised quantum geometric tensors, applying the operator to a vector equals multiplying with to_dense().", "quantifier": "every jacobian, vector, diagonal", "why_tests_cant": "all matrices and vectors", "anchors": ["GPSKet/optimizer/qgt/qgt_jacobian_dense_rmsprop.py", "GPSKet/optimizer/qgt/qgt_onthefly_rmsprop.py"]}
{"id": "C49", "title": "Hilbert space constraint accepts exactly the electron sector", "statement": "FermionicSumConstraint returns True exactly for configurations with n_elec[0] up and n_elec[1] down electrons, equal constraints hash equally, and random_state returns only configurations of the space.", "quantifier": "every size, n_elec, configuration and random draw", "why_tests_cant": "all configurations and draws", "anchors": ["GPSKet/hilbert/discrete_fermion.py:FermionicSumConstraint", "GPSKet/hilbert/random/discrete_fermion.py:random_state"]}
{"id": "C50", "title": "Powers of fermionic Hilbert spaces", "statement": "hilbert**n is the fermionic space with n times the sites and n times the electrons.", "quantifier": "every space, constrained or not, and n >= 1", "why_tests_cant": "two-branch behaviour, one of which is rarely exercised", "anchors": ["GPSKet/hilbert/discrete_fermion.py:FermionicDiscreteHilbert.__pow__"]}
{"id": "C51", "title": "Supervised learner's cached products stay correct through any history", "statement": "Through any sequence of reference-site changes, in-place epsilon updates at the reference sites, prediction calls with arbitrary configuration sets and epsilon resets, the feature matrix used by QGPSLearning is the one obtained by computing from scratch.", "quantifier": "every operation history, configurations, parameters (zeros included)", "why_tests_cant": "unbounded histories of cached updates", "anchors": ["GPSKet/supervised/supervised_qgps.py:QGPSLearning.set_kernel_mat", "GPSKet/supervised/supervised_qgps.py:QGPSLearning.update_site_prod_fast"]}
{"id": "C52", "title": "qGPS predictions do not depend on the chosen reference sites", "statement": "predict gives exp/log of the sum over support index and symmetries of the product over all sites of epsilon, whatever ref_sites is set to.", "quantifier": "every reference site vector, parameters, configurations", "why_tests_cant": "all reference site vectors", "anchors": ["GPSKet/supervised/supervised_qgps.py:QGPSLearningExp.predict", "GPSKet/supervised/supervised_qgps.py:QGPSLogSpaceFit.predict"]}
{"id": "C53", "title": "A log-space fit step returns the regularised least-squares minimiser", "statement": "After QGPSLogSpaceFit.fit_step (fixed alpha, beta) the epsilon values at the reference sites minimise beta*sum w|y-Kw|^2 + sum alpha|w|^2 over the active weights; inactive weights follow the documented rule, and all other epsilon entries are unchanged.", "quantifier": "every data set, alpha, beta, activity pattern", "why_tests_cant": "optimality against all alternative weights", "anchors": ["GPSKet/supervised/supervised_qgps.py:QGPSLogSpaceFit.setup_fit", "GPSKet/supervised/supervised_qgps.py:QGPSLearning.update_epsilon_with_weights"]}
{"id": "C54", "title": "Generalised linear model step applies its Newton update", "statement": "QGPSGenLinMod.fit_step without minimiser moves the active weights by gamma times the Newton direction.", "quantifier": "every state with a positive definite Hessian and nonzero gradient", "why_tests_cant": "silent no-op of an in-place copy", "anchors": ["GPSKet/supervised/supervised_qgps.py:QGPSGenLinMod.setup_fit_alpha_dep"]}
{"id": "C55", "title": "Regularisation strengths act on the weights they belong to", "statement": "With a bias and complex_expand, the alpha value stored for a (support index, occupancy, reference site) real or imaginary part regularises that same component, and the bias alphas regularise the bias.", "quantifier": "every dimension of epsilon", "why_tests_cant": "index layout for all shapes", "anchors": ["GPSKet/supervised/supervised_qgps.py:QGPSLearning.alpha_mat_ref_sites"]}
{"id": "C56", "title": "H2O dataset configurations encode the determinant strings", "statement": "to_config(alpha, beta, n) has at site k an up electron iff bit k of alpha is set and a down electron iff bit k of beta is set.", "quantifier": "every n and strings alpha, beta < 2^n", "why_tests_cant": "all bit strings (including the empty string 0)", "anchors": ["GPSKet/datasets/h2o.py:_H2O_raw"]}
{"id": "C57", "title": "Imaginary time step model", "statement": "The model returned by get_imag_time_step_vstate has amplitudes ((1 - tau H) psi)(x); nesting n steps gives (1 - tau H)^n psi.", "quantifier": "every tau, Hamiltonian with on-the-fly local energy, base amplitudes, nesting depth", "why_tests_cant": "all nestings", "anchors": ["GPSKet/supervised/imag_time_step.py:get_imag_time_step_vstate"]}
{"id": "C58", "title": "Dataset splitting across ranks is a partition", "statement": "The supervised state-fitting drivers distribute the data set over ranks so that each item goes to exactly one rank, and the mini-batch gradient is the one of the whole data set.", "quantifier": "every data set size and number of ranks", "why_tests_cant": "all sizes, divisible or not", "anchors": ["GPSKet/driver/abstract_state_fitting.py", "GPSKet/driver/autoreg_state_fitting.py"]}
{"id": "C59", "title": "Ab-initio matrix elements are symmetric", "statement": "For symmetric h and eri with (pq|rs)=(rs|pq)=(qp|sr) the total matrix element from x to y over get_conn_flattened of AbInitioHamiltonian equals that from y to x.", "quantifier": "every orbital number, symmetric integrals and pair of configurations", "why_tests_cant": "all pairs of configurations; several list entries with signs contribute to the same target", "anchors": ["GPSKet/operator/hamiltonian/ab_initio.py:AbInitioHamiltonian._get_conn_flattened_kernel", "GPSKet/operator/hamiltonian/ab_initio.py:AbInitioHamiltonian.is_hermitian"]}
{"id": "C60", "title": "Metropolis sampling with the hopping rule satisfies detailed balance", "statement": "One step of the Metropolis sampler with the fermionic hopping rule (no transition_probs) satisfies detailed balance with respect to |psi|^machine_pow on every electron sector.", "quantifier": "every pair of configurations of a sector, every positive weight function, every hop probability", "why_tests_cant": "exact probabilities over all pairs", "anchors": ["GPSKet/sampler/metropolis_fast.py:MetropolisFastSampler._sample_next", "GPSKet/sampler/rules/fermionic_hopping.py:transition_function"]}
{"id": "C61", "title": "Fermionic autoregressive masks sample exactly the electron sector", "statement": "With the fermionic count_spins and renormalize_log_psi of the ARGPS scripts, a configuration has positive probability if and only if it has the requested numbers of spin-up and spin-down electrons, and a prefix of positive probability always leaves a local state of positive probability.", "quantifier": "every number of sites, every electron numbers up to it, all parameters and configurations", "why_tests_cant": "all sequences of random choices for all sizes and fillings; a mask that is wrong near the end of the chain only shows for particular fillings", "anchors": ["scripts/ARGPS/argps/models.py:count_spins_fermionic", "scripts/ARGPS/argps/models.py:renormalize_log_psi_fermionic"]}
{"id": "C62", "title": "S2 projection uses spin rotations of the orbitals", "statement": "The orbitals built by apply_rotation for each angle are the spin rotation exp(-i angle S_y) of the orbitals (up -> cos up + sin down, down -> -sin up + cos down), and preserve all orbital overlaps; S2_projection is only accepted with fixed magnetisation, where orbitals are block diagonal.", "quantifier": "every number of sites and electrons, every orbital matrix, every angle", "why_tests_cant": "an identity over all orbitals and angles; the code treats up and down columns with different formulas", "anchors": ["GPSKet/models/slater.py:Slater.__call__"]}
{"id": "C63", "title": "Pfaffian state is antisymmetric", "statement": "The amplitude of PfaffianState (one symmetry element) changes sign when the positions of two electrons are exchanged and vanishes when two electrons share a position, whenever the value is a number.", "quantifier": "every pairing matrix, even number of electrons, pair of electrons", "why_tests_cant": "all matrices, electron numbers and pivoting histories", "anchors": ["GPSKet/models/pfaffian.py:PfaffianState.__call__", "GPSKet/models/pfaffian.py:log_pfaffian"]}
{"id": "C64", "title": "Zero-magnetisation Pfaffian: rotation and determinant limit", "statement": "The block matrix built for a rotation angle is the spin rotation, on both electrons, of the pairing of up with down electrons; without rotation the amplitude of n up and n down electrons is (-1)^(n(n-1)/2) times the determinant of f between up and down positions.", "quantifier": "every number of sites, electrons, pairing f, angle", "why_tests_cant": "all sizes, pairings and positions", "anchors": ["GPSKet/models/pfaffian.py:ZeroMagnetizationPfaffian.__call__"]}
{"id": "C65", "title": "Both SR drivers pair samples with their own local energies", "statement": "The flattened list of local energies used by minSRVMC and the one used by VMC_SRRMSProp both list, for the same state.local_estimators, the energies of the flattened samples in order.", "quantifier": "every layout convention of local_estimators, number of chains and chain length", "why_tests_cant": "one layout at a time, mispairing only shows for several chains and does not raise", "anchors": ["GPSKet/driver/minSR.py:minSRVMC._forward_and_backward", "GPSKet/driver/VMC_SRRMSProp.py:SRRMSProp", "GPSKet/driver/VMC_SRRMSProp.py:VMC_SRRMSProp._forward_and_backward"]}
{"id": "C66", "title": "SR-RMSProp returns the same update on all ranks", "statement": "SRRMSProp returns on every MPI rank the update computed by rank 0; complex parameters get the complex numbers whose real and imaginary parts are the two halves of the solution.", "quantifier": "every number of ranks, samples and parameters, both modes", "why_tests_cant": "needs multi-rank runs for all shapes", "anchors": ["GPSKet/driver/VMC_SRRMSProp.py:SRRMSProp"]}
{"id": "C67", "title": "GLM gradient and Hessian are the derivatives of the loss", "statement": "In QGPSGenLinMod, get_grad is the gradient of get_loss in every direction within the active weights, and get_hessian the (symmetric) Jacobian of get_grad, for real data and for complex data with complex_expand.", "quantifier": "every data set, weight vector, direction, alpha, beta, activity pattern", "why_tests_cant": "finite differences at sample points only", "anchors": ["GPSKet/supervised/supervised_qgps.py:QGPSGenLinMod.setup_fit_alpha_dep"]}
{"id": "C68", "title": "A second GLM set-up keeps the weights found so far", "statement": "QGPSGenLinMod.setup_fit_alpha_dep called again (as opt_alpha does) without a minimiser starts from, and does not lose, the active weights stored in self.weights.", "quantifier": "every state, activity pattern and step length", "why_tests_cant": "aliasing of one array under two names, value-dependent", "anchors": ["GPSKet/supervised/supervised_qgps.py:QGPSGenLinMod.setup_fit_alpha_dep"]}
{"id": "C69", "title": "Each evaluation of the noise objective restarts from alpha_init", "statement": "In QGPSLearningExp.fit_step, np.copyto(self.alpha_mat_ref_sites, alpha_init) restores the regularisation strengths saved in alpha_init.", "quantifier": "every alpha state, reference sites, with or without bias and precomputed features", "why_tests_cant": "write into a temporary is silent", "anchors": ["GPSKet/supervised/supervised_qgps.py:QGPSLearningExp.fit_step", "GPSKet/supervised/supervised_qgps.py:QGPSLearning.alpha_mat_ref_sites"]}
{"id": "C71", "title": "Setting up a GLM fit leaves the caller's weightings alone", "statement": "QGPSGenLinMod.setup_fit does not modify the weightings array passed by the caller, so two successive fits with the same arguments use the same weightings.", "quantifier": "every weightings array, prior mean and kernel matrix", "why_tests_cant": "in-place modification only visible over several calls with a non-zero prior mean", "anchors": ["GPSKet/supervised/supervised_qgps.py:QGPSGenLinMod.setup_fit"]}
{"id": "C72", "title": "ARqGPSFull fast update equals full evaluation", "statement": "Evaluating ARqGPSFull through its cache and a list of changed sites gives the values and cache of a full evaluation of the changed configuration, for every symmetry copy, packed or unpacked parameters, normalised or not, and through chains of updates of any length.", "quantifier": "every size, local dimension, symmetry list, parameters without vanishing factors, update list (repeated sites included), chain length", "why_tests_cant": "unbounded chains of cached updates over all configurations", "anchors": ["GPSKet/models/autoreg_qGPS_full.py:ARqGPSFull.__call__"]}
{"id": "C73", "title": "SlaterqGPS fast update equals full evaluation", "statement": "Evaluating a product of Slater determinants and a qGPS through both caches and an update list gives amplitude and caches of a full evaluation, through runs of any length.", "quantifier": "every size, orbital matrix, support dimension, symmetry list, update run through regular configurations", "why_tests_cant": "unbounded runs of cached updates", "anchors": ["GPSKet/models/slater_qGPS.py:SlaterqGPS.__call__"]}
{"id": "C74", "title": "Backflow fast update and Hartree-Fock initialisation", "statement": "The Backflow model evaluated through its cache and an update list equals its full evaluation (chains of any length), and at its noiseless initial parameters its amplitude is the determinant of the given orbitals, for restricted, unrestricted and generalised orbitals.", "quantifier": "every size, electron number, orbitals, support dimension, configuration of the sector", "why_tests_cant": "all orbitals, sizes and update chains", "anchors": ["GPSKet/models/backflow.py:Backflow.__call__"]}
{"id": "C75", "title": "BackflowJastrow is Jastrow times the sum of backflow determinants", "statement": "BackflowJastrow.__call__ returns the log of the Jastrow factor times the sum over symmetries of the backflow determinants.", "quantifier": "every configuration and parameters", "why_tests_cant": "argument order exercised with particular modules only", "anchors": ["GPSKet/models/backflow_jastrow.py:BackflowJastrow.__call__"]}
{"id": "C76", "title": "Antisymmetric qGPS amplitudes", "statement": "ASymmqGPS returns log sinh of the coefficient-weighted sum of determinants (kernel or projective symmetrisation), ASymmqGPSProd the symmetrised odd product; both change sign when two orbitals of equal spin are exchanged.", "quantifier": "every number of determinants, coefficients, symmetries, orbitals, configurations", "why_tests_cant": "broadcasting of the coefficients depends on the numbers of determinants and symmetries", "anchors": ["GPSKet/models/asymm_qGPS.py:ASymmqGPS.__call__", "GPSKet/models/asymm_qGPS.py:ASymmqGPSProd.__call__"]}
{"id": "C77", "title": "SRDense solves the linear system", "statement": "The SRDense preconditioner returns x with S x = g, for its default solver and for NetKet's dense solvers; pinv solves every solvable system.", "quantifier": "every matrix and gradient", "why_tests_cant": "interface of the solver is the same for all inputs, but default never exercised by the tests", "anchors": ["GPSKet/optimizer/sr_dense.py:SRDense", "GPSKet/optimizer/solvers.py:pinv"]}
{"id": "C78", "title": "Geometric tensor over unique samples equals the one over raw samples", "statement": "QGTJacobianDenseUniqueSamples over weighted unique samples is the covariance of the jacobian over the raw samples plus the diagonal shift, both when called directly and when built by partial application.", "quantifier": "every sample multiset, number of ranks, jacobian, diagonal shift", "why_tests_cant": "all multisets and distributions over ranks", "anchors": ["GPSKet/optimizer/qgt/qgt_jacobian_dense_unique_samples.py:QGTJacobianDenseUniqueSamples"]}
{"id": "C79", "title": "SRRMSProp moments are convex combinations and its update solves the regularised system", "statement": "The second moments kept by SRRMSProp are the exponentially weighted convex combination of the squared gradient parts over steps 0,1,2,…, and the update solves the regularised linear system; no step raises.", "quantifier": "every gradient history, decay in [0,1), real and complex parameters", "why_tests_cant": "unbounded histories", "anchors": ["GPSKet/optimizer/sr_rmsprop.py:SRRMSProp"]}
{"id": "C80", "title": "Sparsity and quality factors of the relevance vector machine are leave-one-out quantities", "statement": "The s and q computed by compute_sparsity_quantities for a feature are phi^T C^-1 phi and phi^T C^-1 t with the covariance C of the data without that feature, whether the feature is active or not and whichever factorisation was used.", "quantifier": "every data set, number of ranks, features, alpha, beta, cutoffs", "why_tests_cant": "all data sets and all subsets of active features", "anchors": ["GPSKet/supervised/supervised_qgps.py:compute_sparsity_quantities"]}
{"id": "C81", "title": "Every step of the relevance vector machine increases the evidence", "statement": "update_precisions changes one precision to the value that gives the largest evidence reachable by changing a single precision, so the evidence never decreases over any number of steps.", "quantifier": "every data set, precisions, number of steps", "why_tests_cant": "all data sets and unbounded numbers of steps; optimality over a continuum", "anchors": ["GPSKet/supervised/supervised_qgps.py:update_precisions", "GPSKet/supervised/supervised_qgps.py:fit_step_growing_RVM"]}
{"id": "C82", "title": "log_marg_lik is the logarithm of the evidence", "statement": "log_marg_lik of the supervised learners equals the log density of the targets under the normal distribution with the covariance of the linear model; weightings act as multiplicities of the data points.", "quantifier": "every data set, ranks, alpha, beta, noise, integer weightings", "why_tests_cant": "identity over all real matrices; multiplicities", "anchors": ["GPSKet/supervised/supervised_qgps.py:log_marg_lik"]}
{"id": "C83", "title": "log_marg_lik_alpha_der is the gradient of log_marg_lik", "statement": "For every feature the value returned by log_marg_lik_alpha_der is the derivative of log_marg_lik with respect to the precision alpha of that feature.", "quantifier": "every data set, number of ranks, features, alpha, beta, cutoffs; real parameters and complex_expand", "why_tests_cant": "a derivative of an arbitrary determinant and quadratic form; finite differences test single points", "anchors": ["GPSKet/supervised/supervised_qgps.py:QGPSLearning.log_marg_lik_alpha_der"]}
{"id": "C86", "title": "The noise derivative of QGPSLogSpaceFit is the derivative of its evidence", "statement": "QGPSLogSpaceFit.log_marg_lik_noise_der returns the derivative of log_marg_lik with respect to the noise.", "quantifier": "every data set, number of ranks, alpha, positive noise", "why_tests_cant": "a derivative for every data set and every noise value; the two agree at noise = 1", "anchors": ["GPSKet/supervised/supervised_qgps.py:QGPSLogSpaceFit.log_marg_lik_noise_der"]}
{"id": "C87", "title": "The noise derivative of QGPSLearningExp is the derivative of its evidence", "statement": "QGPSLearningExp.log_marg_lik_noise_der returns the derivative of log_marg_lik with respect to the noise, for every combination of iterative_noise_est and noise_reweighting.", "quantifier": "every data set, number of ranks, alpha, positive noise, options", "why_tests_cant": "a derivative for every data set, option and noise value", "anchors": ["GPSKet/supervised/supervised_qgps.py:QGPSLearningExp.log_marg_lik_noise_der"]}
{"id": "C84", "title": "The weights left by opt_alpha_beta belong to the precisions it leaves", "statement": "When opt_alpha_beta returns, the stored weights are the posterior mean of the linear model for the stored alpha and beta.", "quantifier": "every data set, number of ranks, initial precisions, options, number of iterations", "why_tests_cant": "unbounded iterations over real data", "anchors": ["GPSKet/supervised/supervised_qgps.py:QGPSLearning.opt_alpha_beta"]}
{"id": "C85", "title": "Fixed points of opt_alpha_beta are the stationary points of the evidence", "statement": "The alpha (individual or shared) and beta updates of opt_alpha_beta leave a value unchanged exactly if the derivative of log_marg_lik with respect to it vanishes.", "quantifier": "every data set, number of ranks, alpha, beta; real parameters and complex_expand", "why_tests_cant": "equivalence with a derivative for every data set", "anchors": ["GPSKet/supervised/supervised_qgps.py:QGPSLearning.opt_alpha_beta", "GPSKet/supervised/supervised_qgps.py:log_marg_lik"]}
{"id": "C88", "title": "opt_alpha_beta keeps precisions positive and within the cutoff", "statement": "Through any number of iterations all alpha and beta stay positive (no division by zero, no nan), no alpha that started within the cutoff exceeds it, and max_iterations = k ends the loop within k passes.", "quantifier": "every data set, ranks, positive initial precisions, options, number of iterations", "why_tests_cant": "unbounded iterations over real data", "anchors": ["GPSKet/supervised/supervised_qgps.py:QGPSLearning.opt_alpha_beta"]}
{"id": "C70", "title": "The growing fit writes the optimum of the regularised loss", "statement": "After fit_step_growing_RVM the epsilon tensor minimises the regularised squared error of the log amplitudes (distance to the prior mean weighted by alpha) for the precisions the step has found.", "quantifier": "every data set, reference sites, prior mean, starting precisions, cutoffs, number of iterations", "why_tests_cant": "optimality against every competing parameter set and every data set; a missing prior mean only shows for non-zero prior means", "anchors": ["GPSKet/supervised/supervised_qgps.py:fit_step_growing_RVM", "GPSKet/supervised/supervised_qgps.py:update_epsilon_with_weights"]}
{"id": "C89", "title": "On-the-fly energies from cached updates equal those from full evaluations", "statement": "With use_fast_update (set by the model's apply_fast_update) the on-the-fly local energies of the Hubbard, ab-initio, sparse ab-initio and Heisenberg Hamiltonians and the local density matrices are those obtained by evaluating the same model on full configurations.", "quantifier": "every Hamiltonian, model that implements cached updates, parameters without vanishing factors, configuration", "why_tests_cant": "interplay of the update lists of every excitation with the cache of every model, including repeated sites", "anchors": ["GPSKet/operator/hamiltonian/ab_initio.py:local_en_on_the_fly", "GPSKet/operator/hamiltonian/ab_initio_sparse.py:local_en_on_the_fly", "GPSKet/operator/hamiltonian/hubbard.py:local_en_on_the_fly", "GPSKet/operator/hamiltonian/J1J2.py:local_en_on_the_fly"]}
{"id": "C90", "title": "Every model has an on-the-fly local energy with its default settings", "statement": "The kernel chosen by get_local_kernel returns, for every shipped model with its default apply_fast_update, the local energy of the amplitudes of the model.", "quantifier": "every model class, parameters, configuration, Hamiltonian", "why_tests_cant": "needs every pair of model class and operator", "anchors": ["GPSKet/operator/hamiltonian/hubbard.py:get_local_kernel", "GPSKet/operator/hamiltonian/ab_initio.py:get_local_kernel", "GPSKet/models/slater_jastrow.py:SlaterJastrow", "GPSKet/models/asymm_qGPS.py:ASymmqGPS", "GPSKet/models/backflow_jastrow.py:BackflowJastrow", "GPSKet/models/autoreg_qGPS_full.py:ARqGPSModPhaseFull"]}
{"id": "C91", "title": "Autoregressive sampling returns the batch chain by chain", "statement": "_sample_chain returns n_chains_per_rank chains of chain_length samples that together are the drawn batch in order, and _sample_next returns one sample for every chain.", "quantifier": "every number of chains, chain length, batch", "why_tests_cant": "needs more than one chain per rank, which no test of _sample_next uses", "anchors": ["GPSKet/sampler/autoreg.py:ARDirectSampler._sample_next", "GPSKet/sampler/autoreg.py:_sample_chain"]}
{"id": "C92", "title": "select_largest returns the most probable configurations", "statement": "get_H2O_dataset with select_largest = n returns n configurations, each with its own amplitude, such that no configuration left out has a larger |amplitude|^2.", "quantifier": "every data set and every n", "why_tests_cant": "every data set, including ties and n larger than the data set", "anchors": ["GPSKet/datasets/h2o.py:get_H2O_dataset"]}
{"id": "C93", "title": "Initial parameters of qGPS models", "statement": "normal() gives real parameters 1 + sigma z and complex parameters of unit modulus with phase sigma z; orthogonal() gives a stack of independent matrices with orthogonal columns.", "quantifier": "every sigma, draw, dtype, shape", "why_tests_cant": "a statement about every draw; wrong branches still give plausible numbers", "anchors": ["GPSKet/nn/initializers.py:normal", "GPSKet/nn/initializers.py:orthogonal"]}
{"id": "C94", "title": "The backflow model of the scripts starts from the Hartree-Fock determinant", "statement": "With the orbitals of get_hf_orbitals or get_hf_orbitals_from_file and no noise the amplitude of the backflow model is the Hartree-Fock determinant, for restricted, unrestricted and generalised orbitals.", "quantifier": "every number of orbitals and electrons, every orbital matrix, every configuration", "why_tests_cant": "needs unequal numbers of up and down electrons and every determinant mode", "anchors": ["scripts/cpd-backflow/cpd_backflow/models.py:get_hf_orbitals", "scripts/cpd-backflow/cpd_backflow/models.py:get_hf_orbitals_from_file", "scripts/cpd-backflow/cpd_backflow/systems.py:get_molecular_system"]}
{"id": "C96", "title": "spin_spin_correlation is the spin-spin correlation of the state", "statement": "Given the density matrices of a state, spin_spin_correlation returns sum P_A P_B <Sz Sz> (one third of <S.S>), for singlets, and get_correlations the correlation of every pair of sites.", "quantifier": "every singlet state on any number of orbitals, every pair of (symmetric) projectors", "why_tests_cant": "operator identity in the Fock space of any number of orbitals", "anchors": ["scripts/cpd-backflow/cpd_backflow/corrfunc.py:spin_spin_correlation", "scripts/cpd-backflow/cpd_backflow/corrfunc.py:get_correlations"]}
{"id": "C97", "title": "The density matrices of the script are the sample averages of the operators", "statement": "rdms.py stores the averages over the samples of the spin-summed one-body operators and of the normal ordered two-body operators; the trace of rdm1 is the number of electrons.", "quantifier": "every model, sample set, number of ranks, chains, chunk size", "why_tests_cant": "needs several MPI ranks and all index orders", "anchors": ["scripts/cpd-backflow/cpd_backflow/rdms.py:main"]}
{"id": "C99", "title": "The environment of an orbital consists of its strongest exchange partners", "statement": "get_top_k_orbital_indices returns for each orbital of the basis the k orbitals with the largest modulus of the exchange matrix in that basis, in decreasing order.", "quantifier": "every exchange matrix, orbital basis, k", "why_tests_cant": "needs a basis other than that of the matrix; the result is always a valid list of orbitals", "anchors": ["scripts/cpd-backflow/cpd_backflow/models.py:get_top_k_orbital_indices", "scripts/cpd-backflow/cpd_backflow/systems.py:get_molecular_system"]}
{"id": "C95", "title": "get_J1_J2_Hamiltonian is the J1-J2 Heisenberg model", "statement": "The operator acts as J1 sum S.S over nearest and J2 sum S.S over next-nearest neighbours, with the sign rule as the same operator for amplitudes with Marshall's sign; with on_the_fly_en it is evaluated on the fly.", "quantifier": "every lattice, couplings, amplitudes, spin configuration", "why_tests_cant": "equality of operators for every lattice; the construction for on_the_fly_en is not covered by a test", "anchors": ["GPSKet/operator/hamiltonian/J1J2.py:get_J1_J2_Hamiltonian", "GPSKet/operator/hamiltonian/J1J2.py:HeisenbergOnTheFly"]}
{"id": "C98", "title": "Boundary conditions of the Hubbard lattices of the scripts", "statement": "Open chains have no bond between the ends; periodic chains of a length divisible by four and grids with APBC are anti-periodic: up to a sign per electron exactly the bonds across the boundary have the opposite sign, whatever the order of the edges.", "quantifier": "every length, width, edge order, amplitude, configuration", "why_tests_cant": "gauge equivalence for every lattice and every state; needs pbc=False in the chain script", "anchors": ["scripts/ARGPS/argps/systems.py:get_Hubbard_system", "scripts/cpd-backflow/cpd_backflow/systems.py:get_FermiHubbard_system"]}
{"id": "C100", "title": "The beta derivative of the generalised linear model is the derivative of its evidence", "statement": "QGPSGenLinMod.log_marg_lik is the Laplace approximation of the log evidence around the stored weights, and log_marg_lik_beta_der returns its derivative with respect to beta at fixed weights.", "quantifier": "every data set, number of features, alpha, beta, active set; real and complex parameters", "why_tests_cant": "a derivative of an arbitrary determinant; the factor only shows for complex parameters", "anchors": ["GPSKet/supervised/supervised_qgps.py:QGPSGenLinMod.log_marg_lik", "GPSKet/supervised/supervised_qgps.py:QGPSGenLinMod.log_marg_lik_beta_der"]}
{"id": "C101", "title": "Reweighted least squares steps descend to the minimum of the loss", "statement": "A step of it_rew_lst_sq_steps is the Gauss-Newton step of the regularised loss; it leaves the weights unchanged exactly at the stationary points and otherwise goes downhill; inactive weights are not changed.", "quantifier": "every data set, number of features, alpha, noise, active set, weights", "why_tests_cant": "equivalence with a derivative for every data set; inactive weights only matter if they are not zero", "anchors": ["GPSKet/supervised/supervised_qgps.py:QGPSGenLinMod.it_rew_lst_sq_steps"]}
{"id": "C102", "title": "Zero amplitudes enter the log-space fit as the limit of small amplitudes", "statement": "The normal equations set up by setup_fit_noise_dep for data with vanishing amplitudes are the limit of those with the zeros replaced by t as t goes to 0, and the evidence can be computed.", "quantifier": "every data set, features, noise, prior mean, weightings, noise reweighting, noise estimate", "why_tests_cant": "a limit for every data set; needs zero amplitudes together with weightings", "anchors": ["GPSKet/supervised/supervised_qgps.py:QGPSLearningExp.setup_fit_noise_dep", "GPSKet/supervised/supervised_qgps.py:QGPSLearningExp.log_marg_lik"]}
{"id": "C103", "title": "Complex amplitudes of the autoregressive models", "statement": "The symmetrised complex amplitude of an autoregressive qGPS (modulus: root of the mean probability of the images; phase: that of the sum of the phases) has the modulus of the symmetrised probability, is invariant under the symmetry group, and is normalised over the sector; the modulus-phase models have the modulus of their autoregressive factor and the invariance of both factors.", "quantifier": "all models, groups of symmetries, configurations, sectors, lattice sizes", "why_tests_cant": "Tests compare a few amplitudes on small lattices; the invariance and the norm are statements about all configurations and groups.", "anchors": ["GPSKet/models/autoreg_qGPS.py:ARqGPS.__call__", "GPSKet/models/autoreg_qGPS.py:ARqGPSModPhase", "GPSKet/models/autoreg_qGPS_full.py:ARqGPSModPhaseFull"]}
{"id": "C104", "title": "Check-pointed optimisation of the ab-initio scripts", "statement": "Whatever the interruptions, best_pars.pickle holds the parameters of an iteration with the smallest variance among all lines of out.txt; the loop stops after max_count iterations in a row without a smaller variance; a restarted calculation continues with the best variance and the counter of the interrupted one.", "quantifier": "all sequences of variances and updates, all interruptions and restarts, all max_count and min_global_count", "why_tests_cant": "The claim is about files left behind by killed processes and about thousands of stochastic iterations.", "anchors": ["scripts/GPS_for_ab_initio/H2O.py", "scripts/GPS_for_ab_initio/H50_1D.py", "scripts/GPS_for_ab_initio/H4x4x4.py"]}
{"id": "C105", "title": "Resumed training of the autoregressive models", "statement": "However often a training is killed and resumed, its check-points and logged energies are those of the uninterrupted run, at most checkpoint_every steps are repeated, and a session that is not killed completes the training.", "quantifier": "all drivers (variables, optimizer state, running average), all sessions, all interruption points, all step numbers", "why_tests_cant": "A test would have to kill the training at every point of every session; the claim is about all of them.", "anchors": ["scripts/ARGPS/argps/vmc.py:main", "scripts/ARGPS/argps/vmc.py:serialize_VMC", "scripts/ARGPS/argps/vmc.py:deserialize_VMC"]}
{"id": "C106", "title": "Resumed training and best parameters of the backflow models", "statement": "However often a training is killed and resumed, its check-points and logged energies are those of the uninterrupted run and a session that is not killed completes the training and the descent finishing; best_params holds the parameters of the step of lowest energy together with their energy and variance.", "quantifier": "all drivers, all sessions, all interruption points, all numbers of training and descent steps", "why_tests_cant": "A test would have to kill the training at every point of every session, including the last step and the descent finishing.", "anchors": ["scripts/cpd-backflow/cpd_backflow/vmc.py:main", "scripts/cpd-backflow/cpd_backflow/vmc.py:serialize_VMC", "scripts/cpd-backflow/cpd_backflow/utils.py:save_best_params"]}
{"id": "C107", "title": "Progress timer of the training scripts", "statement": "The run time of every step is the time since the previous step, the remaining time is that run time times the number of steps left, and the printed days, hours, minutes and seconds add up to the duration.", "quantifier": "all clock readings, all steps, fresh and resumed runs, training and descent finishing, all durations", "why_tests_cant": "Timings of a test run are short and start at step one; long durations and resumed runs are not observed.", "anchors": ["scripts/cpd-backflow/cpd_backflow/utils.py:Timer", "scripts/ARGPS/argps/utils.py:Timer"]}
{"id": "C108", "title": "Models and reference states of the H2O script", "statement": "PfaffianqGPS and the SlaterqGPS switch of H2O.py give the same amplitudes through the cache as without it, and the reference states built from the mean-field orbitals have the Hartree-Fock amplitudes: the Pfaffian ones up to the sign (-1)^(n(n-1)/2), the spin-projected ones up to the sum of the characters.", "quantifier": "all orbital coefficients, numbers of orbitals and electron pairs, rotations with characters, closed-shell configurations, update sequences", "why_tests_cant": "A test compares some amplitudes of one molecule numerically; the equality of determinant, Pfaffian and their projections is algebraic and concerns all orbitals and configurations, including those where an amplitude vanishes.", "anchors": ["scripts/GPS_for_ab_initio/H2O.py:PfaffianqGPS", "scripts/GPS_for_ab_initio/H2O.py:SlaterqGPS", "scripts/GPS_for_ab_initio/H2O.py:pfaffian_init", "scripts/GPS_for_ab_initio/H2O.py:slater_init"]}
{"id": "C109", "title": "One-body density matrices of the H4x4x4 script", "statement": "get_1RDM returns the average over the samples of all ranks of <x|c+_i c_j|psi>/<x|psi> for both spins; its trace is the number of electrons of that spin, and with exact sampling of a real state it is the symmetric matrix of expectation values.", "quantifier": "all states, sample lists per rank, orbitals, both spins", "why_tests_cant": "A test would compare noisy averages; the trace and the signs of the elements are statements about every sample.", "anchors": ["scripts/GPS_for_ab_initio/H4x4x4.py:get_conn_1RDM", "scripts/GPS_for_ab_initio/H4x4x4.py:get_1RDM"]}
{"id": "C110", "title": "The Metropolis sampler in the presence of zero amplitudes", "statement": "With the floating point values -inf, inf and nan of log-amplitudes the chains of the sampler with cached updates are those of the Metropolis rule on amplitudes: started where the amplitude does not vanish no chain ever visits a zero of the wave function, and a chain started at a zero moves to any configuration of non-zero amplitude proposed.", "quantifier": "all machines, rules, numbers of chains, sweeps and calls, random streams", "why_tests_cant": "Zero amplitudes are hit on rare random streams, and nan in the comparison just rejects the move silently.", "anchors": ["sampler/metropolis_fast.py:_sample_next", "models/qGPS.py:__call__"]}
{"id": "C111", "title": "The gradient of the energy is its derivative", "statement": "With the exact weights |psi|^2 the mean returned by expect_and_grad is the Rayleigh quotient and the gradient its derivative with respect to every parameter, also for complex amplitudes and complex parameters; for an eigenstate any sample set gives its eigenvalue, zero variance and zero gradient.", "quantifier": "all finite Hilbert spaces, Hermitian operators, differentiable states, parameters", "why_tests_cant": "A test compares finite differences at a few parameters with a tolerance; factors such as 2 Re and conjugations matter for every state.", "anchors": ["vqs/mc/mc_state/state_unique_samples.py:grad_expect_hermitian_chunked", "vqs/mc/mc_state/state_unique_samples.py:expect_and_grad"]}
{"id": "C112", "title": "The models of the ARGPS scripts have the symmetries asked for", "statement": "For every model name and every comma separated list of groups in the configuration, the wave function built by get_model is invariant under the translations, point symmetries and spin inversion asked for, and the inverse transformation used by fast updates points at the right entries of the symmetric copies.", "quantifier": "all graphs, group lists, parameters, spin configurations, update sites", "why_tests_cant": "Copies are made from indices in one class and from spin values in another (1 - x against -x); a test checks one lattice and one group.", "anchors": ["scripts/ARGPS/argps/models.py:get_model", "scripts/ARGPS/argps/models.py:get_symmetry_transformation_spin"]}
{"id": "C113", "title": "Filters of the autoregressive filter models", "statement": "With the plaquettes and masks of get_plaquettes_and_masks the conditional of a site contains every earlier site exactly once; the filter parameter used for a pair of sites is their distance on a chain, and on a periodic lattice it only depends on the pair up to translations.", "quantifier": "all sizes, lattices, parameters, sites", "why_tests_cant": "Sorting of translations and masks must fit together for every site of every lattice.", "anchors": ["scripts/ARGPS/argps/models.py:get_plaquettes_and_masks", "models/autoreg_plaquetteqGPS.py:_compute_conditional"]}
{"id": "C114", "title": "The spectrum does not depend on the orbital basis", "statement": "For any two orbital bases orthonormal with respect to the overlap matrix, the ab-initio Hamiltonians built from the transformed one- and two-electron integrals have the same eigenvalues in every sector of electron numbers; so the local basis of a script, once its assertion passed, has the energies of the molecular orbitals.", "quantifier": "all numbers of orbitals, integrals, orthonormal bases, electron numbers, eigenvalues", "why_tests_cant": "A test diagonalises one small molecule; a wrong index or transpose in the transformation can cancel for symmetric matrices.", "anchors": ["scripts/ARGPS/argps/systems.py:get_molecular_system", "operator/hamiltonian/ab_initio.py:get_conn_flattened"]}
{"id": "C115", "title": "Integrals kept on disk belong to one run and one orthonormal basis", "statement": "Whatever runs were started before in a directory and after whichever of their np.save calls they were killed, a run gets one- and two-electron integrals of one and the same orthonormal basis, the stored Hartree-Fock orbitals and exchange matrix belong to that basis, and after the slice-wise broadcast every MPI rank has the integrals of rank 0.", "quantifier": "all sequences of runs, interruptions, settings, integrals, numbers of orbitals and ranks", "why_tests_cant": "Needs kills between two particular saves followed by restarts with other settings.", "anchors": ["scripts/GPS_for_ab_initio/H2O.py", "scripts/GPS_for_ab_initio/H4x4x4.py", "scripts/cpd-backflow/cpd_backflow/systems.py:get_molecular_system"]}
{"id": "C116", "title": "Pruning small integrals changes energies by at most the threshold times the number of integrals", "statement": "Dropping all one- and two-electron integrals below a threshold and switching to the sparse Hamiltonian moves the energy of any state in the electron sector by at most threshold * (2 n^2 + 2 n^4), for n orbitals, whatever the molecule; the index symmetries of the integrals survive the pruning.", "quantifier": "all integrals, thresholds, numbers of orbitals, states", "why_tests_cant": "The error has to be controlled for states that no test contains; a test compares two numbers for one molecule.", "anchors": ["scripts/cpd-backflow/cpd_backflow/systems.py:get_molecular_system", "scripts/GPS_for_ab_initio/H_chain_timing_analysis.py", "operator/hamiltonian/ab_initio_sparse.py"]}
{"id": "C117", "title": "Hydrogen sheets and their radial correlations", "statement": "For every number of atoms closest_divisors terminates with the factor pair of smallest difference (zero atoms raise), the sheet consists of that many different grid points in row-major order, no two closer than the lattice constant; on the sheet of 36 atoms the sites called bulk are exactly those whose neighbourhood up to distance 2 is complete, and C_0, C_1, C_sqrt2, C_2 are the bulk averages of the summed correlations with all atoms at distance 0, 1, sqrt 2 and 2.", "quantifier": "all numbers of atoms, lattice constants, correlation matrices", "why_tests_cant": "The loop must end at the right divisor for every number; index arithmetic such as a-5 versus a+5 silently picks other sites.", "anchors": ["scripts/ARGPS/argps/configs/hydrogen.py:closest_divisors", "scripts/cpd-backflow/cpd_backflow/configs/hsheet.py:sheet", "scripts/cpd-backflow/cpd_backflow/corrfunc.py:radial_correlations"]}
{"id": "C118", "title": "The ARGPS scripts sample directly only from models they normalise", "statement": "For every configuration of the ARGPS scripts, every symmetry option, lattice and parameters, the scripts choose ARDirectSampler exactly for autoregressive models built with normalize=True, and then it draws every configuration with probability |psi|^2; other combinations are refused.", "quantifier": "all models, symmetries, lattices, sizes, parameters, configurations", "why_tests_cant": "The choice is spread over configuration, model and sampler files; a wrong combination runs without error and only biases the energies.", "anchors": ["scripts/ARGPS/argps/samplers.py:get_sampler", "scripts/ARGPS/argps/models.py:get_model", "scripts/ARGPS/argps/systems.py:get_system", "scripts/ARGPS/argps/configs/heisenberg2d.py:get_config"]}
{"id": "C119", "title": "Stochastic reconfiguration updates lower the energy", "statement": "With exact samples of a state without zero amplitudes and a positive diagonal shift, the update of SRDense/LinearOperator.solve with the quantum geometric tensor of the unique samples, of the SRRMSProp optimizer (complex holomorphic parameters, any history of gradients) and of the VMC_SRRMSProp driver (any moment and step) is zero for zero gradient, and otherwise the plain gradient-descent step theta - eta * dp has strictly lower energy <H> for all sufficiently small learning rates eta; the minSR update has a positive scalar product with the gradient.", "quantifier": "all Hamiltonians, differentiable states, numbers of parameters and samples, MPI ranks, shifts, histories, solvers", "why_tests_cant": "Whether an update points downhill depends on the whole chain of signs, conjugations, weights and factors from sampler to solver; a test sees noisy energies of a few runs.", "anchors": ["optimizer/sr_dense.py:SRDense.__call__", "optimizer/sr_rmsprop.py:SRRMSProp.__call__", "optimizer/qgt/qgt_jacobian_dense_unique_samples.py", "driver/VMC_SRRMSProp.py:SRRMSProp", "driver/minSR.py:minSRVMC._forward_and_backward", "vqs/mc/mc_state/state_unique_samples.py:grad_expect_hermitian_chunked"]}
{"id": "C120", "title": "PixelCNN with a gauge constraint is a normalised, exactly sampled state", "statement": "If the constraint of a site reads earlier sites only and a configuration without broken sites can always be continued, then the conditionals of PixelCNN are causal, |psi|^machine_pow sums to one over all configurations, exactly the configurations without broken site have a non-zero amplitude, and the autoregressive sampler draws every configuration with probability |psi|^machine_pow; without gauge or constraint function all amplitudes are non-zero.", "quantifier": "every constraint, network (odd kernel size), lattice size, local dimension and configuration", "why_tests_cant": "the sum runs over exponentially many configurations, and the constraint function is supplied by the user", "anchors": ["models/pixelcnn.py:PixelCNN.conditionals_log_psi", "models/pixelcnn.py:gauge_fn", "models/pixelcnn.py:constraint_fn", "sampler/autoreg.py:_sample_chain"]}
{"id": "C121", "title": "The energy estimate does not depend on chunks and has an honest error bar", "statement": "For every chunk size, number of ranks, chains and samples, expect returns the mean and variance of the local energies of all samples and, from the means of the chains, the squared error of the mean; nothing depends on the chunk size, also for the weighted estimates and gradients over unique samples. For independent samples of |psi|^2 the expected value of the mean is the Rayleigh quotient of the Hamiltonian, the mean scatters with Var/N, and the reported variance and squared error are these values up to the factors 1-1/N and 1-1/n_chains. For an eigenstate of the Hubbard or molecular Hamiltonian the mean is the eigenvalue and variance and error are zero, whatever the samples.", "quantifier": "all shapes of the sample arrays, chunk sizes (also not dividing), MPI ranks, local energies, distributions, Hamiltonians, states (also with zeros)", "why_tests_cant": "Tests use a few shapes with the default chunk size; expected values over samples cannot be tested exactly, and a mix-up of chains and samples changes the error bar only.", "anchors": ["vqs/mc/mc_state/expect.py:_expect", "vqs/mc/mc_state/expect.py:expect_chunked", "operator/hamiltonian/hubbard.py:local_en_on_the_fly", "operator/hamiltonian/ab_initio.py:local_en_on_the_fly", "vqs/mc/mc_state/state_unique_samples.py:grad_expect_hermitian_chunked"]}
{"id": "C122", "title": "The minSR driver reports mean, variance and error of its energy samples", "statement": "The mean and variance that minSRVMC reports are those of the local energies with the weights of the samples (for plain samples the arithmetic ones, whatever the layout of the local energies), and the reported error is the standard error sqrt(variance/N) of the mean over all samples.", "quantifier": "all numbers of ranks, chains and samples, weights, local energies", "why_tests_cant": "The error bar of a stochastic energy has no exact reference value in a test; wrong by a constant factor it looks plausible.", "anchors": ["driver/minSR.py:_statistics", "driver/minSR.py:minSRVMC._forward_and_backward"]}
{"id": "C123", "title": "The Metropolis sampler with the hopping rule is ergodic and its averages converge", "statement": "From every configuration of a particle-number sector the chain reaches every other one; |psi|^machine_pow is its only stationary distribution; and for every observable the mean over n returned samples differs from the weighted mean by a mean square error of at most C/n, for every start, number of discarded samples and sweep size.", "quantifier": "all lattice sizes, electron numbers, positive amplitudes, hop probabilities, sweep sizes, starts, observables, numbers of samples", "why_tests_cant": "A chain caught in a part of the sector or alternating between two parts still gives plausible averages; tests compare a few small systems up to statistical noise.", "anchors": ["sampler/metropolis_fast.py:MetropolisFastSampler._sample_next", "sampler/rules/fermionic_hopping.py:transition_function", "sampler/fermionic_hopping.py:MetropolisHopping"]}
{"id": "C124", "title": "The exchange sampler is ergodic on a connected lattice and its averages converge", "statement": "When the exchanged pairs of sites connect the lattice, the chain of MetropolisFastExchange reaches every rearrangement of its configuration (for spins 1/2: every configuration with the same magnetisation); |psi|^machine_pow is its only stationary distribution there; and the mean of every observable over n returned samples has a mean square error of at most C/n, for every start, number of discarded samples and sweep size. When the pairs do not connect the lattice some rearrangement is never reached.", "quantifier": "all lattices, lists of pairs, local state spaces, positive amplitudes, sweep sizes, starts, observables, numbers of samples", "why_tests_cant": "A chain caught in a part of the configurations or alternating between two parts still gives plausible averages; tests compare a few small systems up to statistical noise.", "anchors": ["sampler/metropolis_fast.py:MetropolisFastExchange", "sampler/metropolis_fast.py:MetropolisFastSampler._sample_next", "sampler/rules/exchange_with_update.py:ExchangeRuleWithUpdate.transition"]}
{"id": "C125", "title": "Mini-batches of the state-fitting driver represent the |y|^2-weighted loss", "statement": "Every step of ARStateFitting draws mini_batch_size different items of its data; the expected loss of the step is the mean squared error of the data weighted with |y|^2.", "quantifier": "all data sets with non-zero amplitudes, mini-batch sizes up to the size of the data set, models", "why_tests_cant": "The expectation over random batches cannot be computed from test runs; a bias towards rare data is invisible in a decreasing loss.", "anchors": ["driver/autoreg_state_fitting.py:ARStateFitting._forward_and_backward", "driver/autoreg_state_fitting.py:_loss"]}
{"id": "C126", "title": "No random key is consumed twice", "statement": "In any run of the Metropolis sampler (hopping or exchange rule), of the autoregressive sampler, of the random states of the fermionic Hilbert space, of the mini-batches of the fitting driver and of stratified sampling, every random key is split or drawn from at most once, and no key is derived from a key that was drawn from.", "quantifier": "every number of chains, sweep size, number of sites and number of successive calls, every starting key", "why_tests_cant": "a reused key makes draws depend on each other without any visible failure; every single draw looks right", "anchors": ["GPSKet/sampler/metropolis_fast.py:33-101", "GPSKet/sampler/autoreg.py:80-177", "GPSKet/sampler/rules/fermionic_hopping.py:11-66", "GPSKet/sampler/rules/exchange_with_update.py:15-33", "GPSKet/hilbert/random/discrete_fermion.py:17-30", "GPSKet/driver/autoreg_state_fitting.py:45-54", "GPSKet/vqs/mc/mc_state/state_stratified_sampling.py:160-183"]}
{"id": "C127", "title": "The random samples of the stratified norm estimate are independent", "statement": "The uniformly drawn configurations that estimate the norm of the complement come from independent draws, within one evaluation and between evaluations.", "quantifier": "every random generator, deterministic set, number of random samples, number of turns of the rejection loop and number of sampler steps between evaluations", "why_tests_cant": "copies of a valid sample are valid samples; the error only shows in the variance of the estimate", "anchors": ["GPSKet/vqs/mc/mc_state/state_stratified_sampling.py:158-198", "GPSKet/hilbert/random/discrete_fermion.py:10-31"]}
{"id": "C128", "title": "The mean over unique samples is an unbiased estimate", "statement": "For independent exact samples of |psi|^2 the expected value of the mean returned by MCStateUniqueSamples is the expectation value of the estimator.", "quantifier": "every probability distribution, configuration space, estimator, number of samples, ranks, batches and batch size", "why_tests_cant": "a bias of a few percent of the statistical error; every returned weight is a correct relative frequency", "anchors": ["GPSKet/vqs/mc/mc_state/state_unique_samples.py:57-120", "GPSKet/vqs/mc/mc_state/state_unique_samples.py:184-253"]}
{"id": "C129", "title": "The mean of stratified sampling is an unbiased estimate", "statement": "If every sample from the complement is distributed as |psi|^2 in the complement and every random sample uniformly in the complement, then the expected value of the mean returned by MCStateStratifiedSampling is the expectation value of the estimator, with and without renormalize and rand_norm.", "quantifier": "every configuration space, deterministic set, wave function, estimator, number of ranks and samples, every dependence among the samples", "why_tests_cant": "the bias is of the order of the inverse number of samples; it looks like noise in a run", "anchors": ["GPSKet/vqs/mc/mc_state/state_stratified_sampling.py:108-220"]}
{"id": "C130", "title": "The pytrees of minSRVMC do not depend on the mode, and its loss gradient is the gradient", "statement": "For complex parameters of a holomorphic amplitude the update self._dp is the same in mode 'complex' (real and imaginary parts as separate parameters, reassembled afterwards) and in mode 'holomorphic', and self._loss_grad is the energy gradient <conj(O) (E - <E>)> in both modes.", "quantifier": "every number of parameters, samples, weights, ranks, chunks, log-derivatives and energies, every exact least-squares solver, both versions of the NetKet jacobian", "why_tests_cant": "a gradient that is never used for the update is not noticed; the equality of the updates is a statement on all matrices", "anchors": ["GPSKet/driver/minSR.py:107-111", "GPSKet/driver/minSR.py:191-232"]}
{"id": "C131", "title": "VMC_SRRMSProp returns the complex SR update for complex parameters", "statement": "With complex parameters of a holomorphic amplitude the update that VMC_SRRMSProp computes for the real and imaginary parts and repacks solves the complex stochastic reconfiguration equation with the regularisation of the real and imaginary parts, and in every mode the update has one entry per parameter and pairs real and imaginary part of the same parameter.", "quantifier": "every number of parameters, samples and ranks, log-derivatives, energies, history of gradients, positive shift and eps, every exact solver, both modes", "why_tests_cant": "block structure of matrices of all sizes; the failing mode needs a model with real values and complex parameters", "anchors": ["GPSKet/driver/VMC_SRRMSProp.py:18-76", "GPSKet/driver/VMC_SRRMSProp.py:139-153", "GPSKet/driver/VMC_SRRMSProp.py:231"]}
{"id": "C132", "title": "The SRRMSProp preconditioner validates its shift, and a call that raises leaves it unchanged", "statement": "Every linear system the SRRMSProp preconditioner solves has a diagonal shift between 0 and 1, namely the given number or the value of the schedule at the step of the call; invalid shifts and missing steps raise, nothing else does; and a call that raises leaves the preconditioner as it was, so that it can be repeated.", "quantifier": "every number or schedule as shift, every history of successful and failing calls, gradients, jacobians, decays and solvers", "why_tests_cant": "needs an exception that is caught, and then only shows in a slightly wrong regularisation of later steps", "anchors": ["GPSKet/optimizer/sr_rmsprop.py:21-50", "GPSKet/optimizer/sr_rmsprop.py:52-92"]}
