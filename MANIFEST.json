{
 "claims": [
  {
   "property": "C01",
   "status": "proved",
   "theorems": [
    "C01_apply_hopping_is_fermionic_hop",
    "C01_apply_hopping_ket"
   ],
   "note": "Model of apply_hopping with cumulative counts against Jordan-Wigner ladder operators (CAR checked in fock_spec_car)."
  },
  {
   "property": "C02",
   "status": "partial",
   "theorems": [
    "C02_none_branch_refuted",
    "C02_none_branch_partial"
   ],
   "note": "The full statement is false of the code: without cumulative counts the parity window is shifted. Exact characterisation of agreement proved."
  },
  {
   "property": "C03",
   "status": "proved",
   "theorems": [
    "C03_hubbard_conn_is_hamiltonian",
    "C03_hubbard_batch_is_hamiltonian"
   ],
   "note": ""
  },
  {
   "property": "C04",
   "status": "proved",
   "theorems": [
    "C04_hubbard_sector",
    "C04_ab_initio_sector"
   ],
   "note": ""
  },
  {
   "property": "C05",
   "status": "proved",
   "theorems": [
    "C05_hubbard_symmetric"
   ],
   "note": ""
  },
  {
   "property": "C06",
   "status": "partial",
   "theorems": [
    "C06_hubbard_sections_partial",
    "C06_hubbard_sections_refuted"
   ],
   "note": "Holds for non-empty edge lists; for an empty edge list sections is never written (refuted)."
  },
  {
   "property": "C07",
   "status": "partial",
   "theorems": [
    "C07_hubbard_on_the_fly_partial",
    "C07_hubbard_on_the_fly_hamiltonian_partial",
    "C07_hubbard_self_loop_refuted"
   ],
   "note": "Holds for graphs without self loops; self loops give a different energy (refuted). With and without use_fast_update; with it, under the contract fast_ok_uniq, proved for the models in C89."
  },
  {
   "property": "C08",
   "status": "proved",
   "theorems": [
    "C08_ab_initio_conn_is_molecular_hamiltonian",
    "C08_ab_initio_batch_is_molecular_hamiltonian"
   ],
   "note": "Pair-exchange symmetry of eri is a hypothesis of the property."
  },
  {
   "property": "C09",
   "status": "proved",
   "theorems": [
    "C09_ab_initio_buffers_exact"
   ],
   "note": ""
  },
  {
   "property": "C10",
   "status": "proved",
   "theorems": [
    "C10_ab_initio_on_the_fly_hamiltonian",
    "C10_ab_initio_on_the_fly_connected"
   ],
   "note": "With and without use_fast_update; with it, under the contract fast_ok on the cached evaluation of the model, proved for the models in C89."
  },
  {
   "property": "C11",
   "status": "proved",
   "theorems": [
    "C11_local_rdms"
   ],
   "note": "Needs at least one site. With and without use_fast_update, no assumption on the cached evaluation."
  },
  {
   "property": "C12",
   "status": "proved",
   "theorems": [
    "C12_sparse_energy_hamiltonian",
    "C12_sparse_energy_equals_dense"
   ],
   "note": "With and without use_fast_update; with it, under the contract fast_ok, proved for the models in C89."
  },
  {
   "property": "C13",
   "status": "proved",
   "theorems": [
    "C13_one_body_storage_lossless",
    "C13_two_body_storage_lossless"
   ],
   "note": ""
  },
  {
   "property": "C14",
   "status": "proved",
   "theorems": [
    "C14_double_hop_updates"
   ],
   "note": ""
  },
  {
   "property": "C15",
   "status": "proved",
   "theorems": [
    "C15_heisenberg_on_the_fly",
    "C15_heisenberg_on_the_fly_netket",
    "C15_netket_index_order_refuted"
   ],
   "note": "Stated with the index convention of the code; with NetKet's convention it needs exchange-invariant terms (true of Heisenberg bonds), shown necessary by the refutation. With and without use_fast_update; with it, under exchange_fast_ok, proved for qGPS in C89."
  },
  {
   "property": "C16",
   "status": "proved",
   "theorems": [
    "C16_asep_generator",
    "C16_asep_probability_conserved",
    "C16_asep_exclusion"
   ],
   "note": "np.exp is a parameter."
  },
  {
   "property": "C17",
   "status": "partial",
   "theorems": [
    "C17_asep_is_hermitian_refuted",
    "C17_asep_symmetric_partial",
    "C17_asep_flag_partial"
   ],
   "note": "The flag is wrong: it only tests the sum of the boundary rates (refuted); for chains of any length > 1 the flag and symmetry together mean lambda = 0, p = q and pairwise equal boundary rates."
  },
  {
   "property": "C18",
   "status": "proved",
   "theorems": [
    "C18_asep_sections"
   ],
   "note": ""
  },
  {
   "property": "C19",
   "status": "partial",
   "theorems": [
    "C19_hopping_sector_partial",
    "C19_draws_normalised",
    "C19_empty_configuration_refuted"
   ],
   "note": "Proved for every configuration with at least one electron and every draw of non-zero probability (exchanges also from the empty configuration). From the empty configuration a hop writes 255 into the start site (refuted)."
  },
  {
   "property": "C20",
   "status": "proved",
   "theorems": [
    "C20_hopping_symmetric"
   ],
   "note": "Exact probabilities over all draws."
  },
  {
   "property": "C21",
   "status": "partial",
   "theorems": [
    "C21_transition_probs_refuted",
    "C21_transition_probs_iff_partial",
    "C21_transition_probs_partial"
   ],
   "note": "Symmetric matrices with unequal row sums are accepted but give asymmetric proposals (refuted); exact characterisation and sufficient condition proved."
  },
  {
   "property": "C22",
   "status": "proved",
   "theorems": [
    "C22_hopping_update_sites",
    "C22_hopping_batch",
    "C22_exchange_update_sites"
   ],
   "note": ""
  },
  {
   "property": "C23",
   "status": "proved",
   "theorems": [
    "C23_exchange_permutation",
    "C23_exchange_symmetric"
   ],
   "note": ""
  },
  {
   "property": "C24",
   "status": "proved",
   "theorems": [
    "C24_fast_metropolis_steps",
    "C24_fast_metropolis_calls",
    "C24_hopping_rule_contract",
    "C24_exchange_rule_contract",
    "C24_arfull_contract"
   ],
   "note": "Model and rule enter through their contracts; the contracts of both rules and of ARqGPSFull are proved. exp is a parameter; -inf/NaN not modelled."
  },
  {
   "property": "C25",
   "status": "partial",
   "theorems": [
    "C25_batch_choice_partial",
    "C25_zero_draw",
    "C25_zero_probability_refuted"
   ],
   "note": "Proved for draws u in (0,1); the possible draw u = 0 selects index 0 even if its probability is zero (refuted)."
  },
  {
   "property": "C26",
   "status": "proved",
   "theorems": [
    "C26_sampling_probability",
    "C26_symmetrised_sampling",
    "C26_normalised",
    "C26_spin_sampler",
    "C26_electron_sampler"
   ],
   "note": "Generic in the constraint functions under the hypothesis that no reachable prefix is stuck, which is discharged for the code's own constraint functions. exp is a positive parameter."
  },
  {
   "property": "C27",
   "status": "proved",
   "theorems": [
    "C27_conditionals_causal",
    "C27_script_plaquettes"
   ],
   "note": "Every model, for plaquette masks that only select earlier sites, which those of the scripts do for any plaquettes."
  },
  {
   "property": "C28",
   "status": "proved",
   "theorems": [
    "C28_cached_conditionals"
   ],
   "note": ""
  },
  {
   "property": "C29",
   "status": "proved",
   "theorems": [
    "C29_zero_magnetisation"
   ],
   "note": ""
  },
  {
   "property": "C30",
   "status": "partial",
   "theorems": [
    "C30_unconstrained_positive_partial",
    "C30_small_systems_refuted"
   ],
   "note": "Holds for four sites or more; with one to three sites configurations are forbidden although the space is unconstrained (refuted)."
  },
  {
   "property": "C31",
   "status": "proved",
   "theorems": [
    "C31_triangular_packing"
   ],
   "note": ""
  },
  {
   "property": "C32",
   "status": "proved",
   "theorems": [
    "C32_qgps_fast_update",
    "C32_qgps_update_chain",
    "C32_repeated_new_value_refuted",
    "C24_qgps_contract"
   ],
   "note": "For update lists following the code's own protocol for repeated sites (first occurrence new, later occurrences old value, C14); lists carrying the new value twice are not supported (refuted). No factor of the old configuration may vanish, the code divides by it."
  },
  {
   "property": "C33",
   "status": "proved",
   "theorems": [
    "C33_symmetrised_invariant",
    "C33_qgps_invariant"
   ],
   "note": "For permutation groups, with and without spin flip (0/1 occupancies)."
  },
  {
   "property": "C34",
   "status": "partial",
   "theorems": [
    "C34_plaquette_fast_update_partial",
    "C34_plaquette_cache_partial",
    "C34_plaquette_update_chain_partial",
    "C34_repeated_plaquette_site_refuted",
    "C34_cached_configuration_refuted"
   ],
   "note": "Proved for plaquettes without repeated sites. A site repeated within a plaquette breaks the fast update (refuted); with dummy updates of repeated sites the value is right but the cached configuration can be stale (refuted)."
  },
  {
   "property": "C35",
   "status": "partial",
   "theorems": [
    "C35_cpd_fast_update_partial",
    "C35_cpd_update_chain_partial",
    "C35_repeated_site_refuted"
   ],
   "note": "Proved for update lists changing every site at most once (through configurations without vanishing factors). For the repeated sites of ab-initio double moves the site products are updated twice (refuted)."
  },
  {
   "property": "C36",
   "status": "proved",
   "theorems": [
    "C36_occupancies_to_electrons"
   ],
   "note": ""
  },
  {
   "property": "C37",
   "status": "proved",
   "theorems": [
    "C37_slater_full_evaluation",
    "C37_slater_fast_update",
    "C37_block_orbitals"
   ],
   "note": "Every sector, every update list in the code's protocol (denotes), every number of determinants/rotations/symmetries, both constant_time_updates settings, blocked and generalised orbitals; the target may be singular. C37_block_orbitals: with fixed magnetisation the value is det(up) det(down). Log-determinants modelled as determinants over an abstract field."
  },
  {
   "property": "C38",
   "status": "proved",
   "theorems": [
    "C38_slater_cache_run",
    "C38_cached_inverse"
   ],
   "note": "Whole cache (configuration, counts, electron ids, determinants, inverses, update matrices) equals full evaluation after any sequence of updates through non-singular configurations."
  },
  {
   "property": "C39",
   "status": "partial",
   "theorems": [
    "C39_log_pfaffian_partial",
    "C39_singular_partial",
    "C39_two_by_two",
    "C39_congruence_partial",
    "C39_singular_nan_refuted"
   ],
   "note": "For non-singular skew matrices of every even dimension the value is the Pfaffian (expansion along the first row), squares to the determinant and is multiplied by det S under congruence. Singular matrices never give a non-zero number, but give nan instead of -inf unless the vanishing pivot is the last one (refuted: 4 x 4 zero matrix)."
  },
  {
   "property": "C40",
   "status": "proved",
   "theorems": [
    "C40_spin_exchange",
    "C40_symmetric_part",
    "C40_value"
   ],
   "note": "Jastrow.__call__ over a commutative ring, any number of sites and symmetry copies."
  },
  {
   "property": "C41",
   "status": "partial",
   "theorems": [
    "C41_fermion_counters_partial",
    "C41_many_electrons_refuted",
    "C41_spin_counters",
    "C41_value"
   ],
   "note": "The fermionic counters are right with fewer than 256 electrons of each spin. The uint8 cumulative sums wrap beyond that, and the property is refuted with 257 electrons (assuming jnp.cumsum keeps the uint8 type)."
  },
  {
   "property": "C42",
   "status": "partial",
   "theorems": [
    "C42_vertical_partial",
    "C42_horizontal_partial",
    "C42_layer_partial",
    "C42_pixelcnn_partial",
    "C42_even_kernel_refuted"
   ],
   "note": "Causal for every odd kernel size, all depths, weights, activations and inputs; refuted for every even kernel size, where the SAME padding lets the exclusive layer read its own site. The flax convolution is modelled from its documented behaviour; the optional gauge function of PixelCNN is the subject of C120."
  },
  {
   "property": "C43",
   "status": "proved",
   "theorems": [
    "C43",
    "C43_expect",
    "C43_defined",
    "C43_zero_steps"
   ],
   "note": "Every stream of batches, ranks and samples per rank; the raw samples used are characterised (prefix of the stream cut at n distinct samples). With max_sampling_steps <= 0 the code raises (C43_zero_steps)."
  },
  {
   "property": "C44",
   "status": "proved",
   "theorems": [
    "C44_complement",
    "C44_random",
    "C44_kernel",
    "C44_sum",
    "C44_exact",
    "C44_nonneg"
   ],
   "note": "Any underlying sampler step, any history of calls; the restricted one-chain kernel inherits detailed balance. Probabilities replace log-probabilities; C44_sum needs a non-zero norm estimate and at least one sample from the complement."
  },
  {
   "property": "C45",
   "status": "partial",
   "theorems": [
    "C45_partial",
    "C45_one_chain",
    "C45_refuted"
   ],
   "note": "Holds for every number of ranks, chunks and samples if NetKet's local_estimators returns the transposed array (older NetKet), or with one chain per rank. With the layout of newer NetKet, which VMC_SRRMSProp and expect.py assume, L63 exchanges energies."
  },
  {
   "property": "C46",
   "status": "partial",
   "theorems": [
    "C46_partial",
    "C46_unscaled_partial",
    "C46_shift_partial",
    "C46_complex_update_partial",
    "C46_plain_partial",
    "C46_counts_refuted",
    "C46_real_refuted"
   ],
   "note": "Uniform weights: least-norm SR solution (or, if the jacobian is not rescaled, 1/sqrt(N) times it). False for non-uniform counts under both jacobian conventions, and for real parameters with complex amplitudes. Solver assumed to be an exact least-squares solver (existence proved: lstsqP)."
  },
  {
   "property": "C47",
   "status": "partial",
   "theorems": [
    "C47_partial",
    "C47_range_partial",
    "C47_nonneg",
    "C47_posdef",
    "C47_solvable",
    "C47_equation",
    "C47_initial_scale_refuted",
    "C47_reset_refuted"
   ],
   "note": "Convex combination and range for initial_scale = 0 (default) and any history without reset; non-negativity for any initial_scale >= 0, positive definiteness for any state (diag_shift, eps > 0). False for initial_scale > 0 and after driver.reset(), which resets the step counter but keeps the moment. C47_equation: the linear system in terms of covariance and forces over all samples."
  },
  {
   "property": "C48",
   "status": "proved",
   "theorems": [
    "C48_dense",
    "C48_onthefly_complex",
    "C48_onthefly_real",
    "C48_same"
   ],
   "note": "Any number of ranks and samples; on-the-fly for complex (holomorphic) and real parameters. C48_same: for real parameters the on-the-fly operator equals the dense operator built from the centred real and imaginary jacobian rows over sqrt(N). Pytree conversions not modelled; jax.linear_transpose taken to return the real part for real parameters."
  },
  {
   "property": "C49",
   "status": "proved",
   "theorems": [
    "C49_constraint_is_sector",
    "C49_equal_constraints_hash_equal",
    "C49_random_state_constrained",
    "C49_random_state_free",
    "C49_random_state_onto"
   ],
   "note": ""
  },
  {
   "property": "C50",
   "status": "partial",
   "theorems": [
    "C50_pow_unconstrained_partial",
    "C50_pow_constrained_fails",
    "C50_pow_refuted"
   ],
   "note": "__pow__ raises UnboundLocalError on every constrained space (refuted); unconstrained proved."
  },
  {
   "property": "C51",
   "status": "partial",
   "theorems": [
    "C51_partial",
    "C51_stale_refuted",
    "C51_alias_refuted"
   ],
   "note": "Proved for every history of reference-site changes, fit steps, predictions and epsilon resets (missing: updates of epsilon outside a fit step). False when update_epsilon_with_weights is called after a reference-site change with no kernel matrix in between, and when the caller overwrites the ref_sites array it passed in."
  },
  {
   "property": "C52",
   "status": "proved",
   "theorems": [
    "C52_predict",
    "C52_independent"
   ],
   "note": "After any history of the public methods; the exp/log transform of QGPSLearningExp is applied to this value."
  },
  {
   "property": "C53",
   "status": "partial",
   "theorems": [
    "C53_minimal_partial",
    "C53_expand_partial",
    "C53_rule",
    "C53_rulex",
    "C53_weights",
    "C53_step",
    "C53_half_refuted"
   ],
   "note": "Minimiser over the active weights for any data, alpha, beta and activity, after any history of the learner, provided features with a column sum below kern_cutoff vanish exactly (missing: tiny non-zero features). With complex_expand the minimised loss has alpha/2 instead of alpha (C53_half_refuted). Linear solver assumed exact; existence of such solvers proved."
  },
  {
   "property": "C54",
   "status": "partial",
   "theorems": [
    "C54_noop",
    "C54_lost",
    "C54_refuted"
   ],
   "note": "False: np.copyto writes into the temporary made by boolean indexing, so the active weights are returned unchanged whatever the direction and step (C54_noop, universal)."
  },
  {
   "property": "C55",
   "status": "partial",
   "theorems": [
    "C55_partial",
    "C55_bias_partial",
    "C55_shift",
    "C55_round_trip",
    "C55_set_frame",
    "C55_refuted"
   ],
   "note": "Right without bias or without complex_expand. With both, C55_shift gives the exact wrong assignment for every shape."
  },
  {
   "property": "C56",
   "status": "proved",
   "theorems": [
    "C56_to_config"
   ],
   "note": ""
  },
  {
   "property": "C57",
   "status": "partial",
   "theorems": [
    "C57_step_partial",
    "C57_log_step",
    "C57_nested_error",
    "C57_nested_refuted"
   ],
   "note": "One step: amplitudes of (1 - tau H) psi for tau != 0 and psi(x) != 0. False for nested steps: the outer model pops the only tau collection, the inner model then raises KeyError for every configuration."
  },
  {
   "property": "C58",
   "status": "partial",
   "theorems": [
    "C58_partition_partial",
    "C58_balanced_partial",
    "C58_pairs_partial",
    "C58_gradient_partial",
    "C58_gradient_wrong",
    "C58_gradient_refuted"
   ],
   "note": "The split is a partition that keeps pairs together. The gradient is summed instead of averaged over the ranks: n_nodes times the gradient of the reported loss."
  },
  {
   "property": "C59",
   "status": "proved",
   "theorems": [
    "C59_ab_initio_symmetric"
   ],
   "note": ""
  },
  {
   "property": "C60",
   "status": "proved",
   "theorems": [
    "C60_hopping_detailed_balance"
   ],
   "note": "Without transition_probs."
  },
  {
   "property": "C61",
   "status": "proved",
   "theorems": [
    "C61_electron_sector"
   ],
   "note": ""
  },
  {
   "property": "C62",
   "status": "proved",
   "theorems": [
    "C62_rotation",
    "C62_orthonormal"
   ],
   "note": "cos and sin of the half angle are abstract field elements with ca^2+sa^2=1 for the overlap statement."
  },
  {
   "property": "C63",
   "status": "proved",
   "theorems": [
    "C63_antisymmetric",
    "C63_pauli"
   ],
   "note": "When the value is a number (for singular matrices the code can return nan, C39)."
  },
  {
   "property": "C64",
   "status": "proved",
   "theorems": [
    "C64_rotation",
    "C64_zero_magnetization"
   ],
   "note": "cos and sin of the half angle are abstract field elements."
  },
  {
   "property": "C65",
   "status": "partial",
   "theorems": [
    "C65_partial",
    "C65_refuted"
   ],
   "note": "Each driver is right for one of the two layouts of local_estimators; whichever holds, the other driver mispairs energies."
  },
  {
   "property": "C66",
   "status": "partial",
   "theorems": [
    "C66_partial",
    "C66_repack",
    "C66_refuted",
    "C66_complex_fails"
   ],
   "note": "One rank, or mode real with as many samples per rank as parameters. Otherwise the receive buffer of the other ranks has the wrong length; in mode complex the transposition already fails on them."
  },
  {
   "property": "C67",
   "status": "proved",
   "theorems": [
    "C67_gradient",
    "C67_hessian",
    "C67_symmetric",
    "C67_gradientx",
    "C67_hessianx",
    "C67_symmetricx",
    "C67_expand"
   ],
   "note": "Over Coq's real numbers with the true exp, cos and sin; real data, and complex data with complex_expand."
  },
  {
   "property": "C68",
   "status": "partial",
   "theorems": [
    "C68_erased",
    "C68_refuted"
   ],
   "note": "False: weights is the array self.weights itself, which is filled with zeros before being copied to itself; every second set-up returns zero weights."
  },
  {
   "property": "C69",
   "status": "partial",
   "theorems": [
    "C69_partial",
    "C69_noop",
    "C69_refuted"
   ],
   "note": "Holds only for precomputed features without bias; otherwise the property returns a fresh array and nothing is restored."
  },
  {
   "property": "C71",
   "status": "partial",
   "theorems": [
    "C71_partial",
    "C71_modified",
    "C71_refuted"
   ],
   "note": "Holds if all prior factors have modulus one (prior_mean = 0); otherwise multiplied in place, once more in each fit."
  },
  {
   "property": "C72",
   "status": "proved",
   "theorems": [
    "C72_arfull_fast_update",
    "C72_arfull_update_chain",
    "C72_same_model"
   ],
   "note": "Values of all symmetry copies and the cache written, any chain length. The code divides by parameters: configurations whose factors vanish are excluded (nonvanishing). C72_same_model ties the evaluation to the model of C26 to C31."
  },
  {
   "property": "C73",
   "status": "proved",
   "theorems": [
    "C73_slater_qgps_fast_update",
    "C73_slater_qgps_run"
   ],
   "note": "Runs through configurations with invertible orbital matrices and non-vanishing qGPS factors; the last target may be singular. Determinants and exponentials instead of logs, exp a parameter."
  },
  {
   "property": "C74",
   "status": "proved",
   "theorems": [
    "C74_backflow_fast_update",
    "C74_backflow_update_chain",
    "C74_initial_restricted",
    "C74_initial_unrestricted",
    "C74_initial_general",
    "C74_orbitals_restricted",
    "C74_orbitals_unrestricted",
    "C74_orbitals_general"
   ],
   "note": "Fast update for any correction module with a right fast update, and for the qGPS correction of the scripts (non-vanishing factors). Initial parameters without noise. With given orbitals the amplitude is the determinant of orbitals plus corrections."
  },
  {
   "property": "C75",
   "status": "partial",
   "theorems": [
    "C75_exchanged_fields_partial",
    "C75_backflow_jastrow_fails",
    "C75_backflow_jastrow_refuted"
   ],
   "note": "False: BackflowJastrow passes orbitals as the correction and the correction as orbitals and fails for all declared field values. With the fields exchanged by the caller the claim holds."
  },
  {
   "property": "C76",
   "status": "partial",
   "theorems": [
    "C76_one_determinant_partial",
    "C76_equal_coefficients_partial",
    "C76_no_symmetries",
    "C76_shape_mismatch",
    "C76_default_coefficients",
    "C76_product",
    "C76_antisymmetric",
    "C76_product_antisymmetric",
    "C76_coefficients_refuted"
   ],
   "note": "Antisymmetry and the odd product hold in general. The coefficient-weighted sum holds for one determinant or equal coefficients with as many determinants as symmetries; otherwise broadcasting weights wrongly or fails. sinh is an abstract odd function."
  },
  {
   "property": "C77",
   "status": "partial",
   "theorems": [
    "C77_sr_dense_partial",
    "C77_pinv",
    "C77_sr_dense_default_fails",
    "C77_sr_dense_netket_solvers_fail",
    "C77_sr_dense_default_refuted"
   ],
   "note": "Holds for solvers returning a bare vector. The default pinv and NetKet's solvers return (x, info) and the code then fails on every input."
  },
  {
   "property": "C78",
   "status": "partial",
   "theorems": [
    "C78_unique_qgt",
    "C78_partial_application_refuted"
   ],
   "note": "Proved for the direct call, every multiset of samples and number of ranks. The partial application drops diag_shift."
  },
  {
   "property": "C79",
   "status": "proved",
   "theorems": [
    "C79_moments",
    "C79_moments_real",
    "C79_update",
    "C79_step_default"
   ],
   "note": "Any history, decay in [0,1), zero initial moments; calls with steps 0,1,2,\u2026."
  },
  {
   "property": "C80",
   "status": "proved",
   "theorems": [
    "C80",
    "C80_expand"
   ],
   "note": "Exact Cholesky factor or exact inverse (contracts chol_ok, pinvh_ok, both met, see chol1_ok and invmx_ok). With complex_expand the code's s and q are half of the leave-one-out values of the real representation."
  },
  {
   "property": "C81",
   "status": "partial",
   "theorems": [
    "C81",
    "C81_monotone",
    "C81_expand_refuted"
   ],
   "note": "Real parameters: the step is the best change of a single precision (except that the last feature is never removed), so the evidence never decreases over any number of steps. With complex parameters (complex_expand) a step can lower the evidence."
  },
  {
   "property": "C82",
   "status": "partial",
   "theorems": [
    "C82_exp",
    "C82_log",
    "C82_expand",
    "C82_exp_weights",
    "C82_log_weights_partial",
    "C82_log_weights_refuted"
   ],
   "note": "Equal to the evidence for QGPSLearningExp (real and complex_expand) and QGPSLogSpaceFit (real). Integer weightings of QGPSLearningExp act as repeated data; those of QGPSLogSpaceFit do not, the data term lacks the weight (exact difference in C82_log_weights_partial)."
  },
  {
   "property": "C83",
   "status": "partial",
   "theorems": [
    "C83_exp_partial",
    "C83_log_partial",
    "C83_expand_partial",
    "C83_inactive",
    "C83_refuted"
   ],
   "note": "Holds for active features (QGPSLearningExp, QGPSLogSpaceFit, complex_expand). For an inactive feature with finite alpha (kernel or alpha beyond a cutoff) log_marg_lik is locally constant but the code returns 1/(2 alpha)."
  },
  {
   "property": "C86",
   "status": "partial",
   "theorems": [
    "C86_partial",
    "C86_exact",
    "C86_refuted"
   ],
   "note": "False: the value is the derivative times noise^4, so it is right exactly at noise 1 or where the derivative vanishes. Real parameters, no weightings."
  },
  {
   "property": "C87",
   "status": "partial",
   "theorems": [
    "C87_partial",
    "C87_exact",
    "C87_refuted",
    "C87_reweight_refuted"
   ],
   "note": "False: the trace term is added with the wrong sign, so the value is too small whenever a feature is active (C87_exact gives equality otherwise). With iterative_noise_est and noise_reweighting the derivative is that of neither. Weightings 1, real parameters, positive noise, no kernel diagonal exactly at the cutoff."
  },
  {
   "property": "C84",
   "status": "partial",
   "theorems": [
    "C84_partial",
    "C84_fixed_point",
    "C84_refuted"
   ],
   "note": "False: the last pass updates alpha and beta and does not refit. The weights are the posterior mean for the values one update earlier; they agree at a fixed point. Real parameters."
  },
  {
   "property": "C85",
   "status": "partial",
   "theorems": [
    "C85_rvm_log",
    "C85_shared_log",
    "C85_beta",
    "C85_rvm_exp",
    "C85_shared_exp",
    "C85_rvm_expand",
    "C85_shared_expand",
    "C85_expand_fails",
    "C85_expand_refuted"
   ],
   "note": "Proved for active features when the Cholesky factorisation succeeded, real and complex_expand, unweighted data for QGPSLogSpaceFit, and for beta with real parameters and a non-zero target. Optimising beta with complex_expand raises on every input (K has half as many columns as there are weights)."
  },
  {
   "property": "C88",
   "status": "proved",
   "theorems": [
    "C88_real",
    "C88_expand"
   ],
   "note": "Any number of passes, real parameters and complex_expand. Optimising beta needs unweighted data with a non-zero target (and real parameters, see C85). Real arithmetic instead of floats."
  },
  {
   "property": "C70",
   "status": "partial",
   "theorems": [
    "C70_exact",
    "C70_partial",
    "C70_refuted"
   ],
   "note": "False with a non-zero prior mean: setup_fit subtracts the prior mean from the target, the write-back does not add it. C70_exact: the result is the optimum minus the prior mean; without prior mean it is the optimum. Real parameters, log-space fit."
  },
  {
   "property": "C89",
   "status": "partial",
   "theorems": [
    "C89_contract_suffices",
    "C89_hubbard",
    "C89_qgps",
    "C89_plaquette",
    "C89_arfull",
    "C89_slater",
    "C89_slater_qgps",
    "C89_backflow",
    "C89_cpd_hubbard_partial",
    "C89_heisenberg",
    "C89_heisenberg_qgps",
    "C89_cpd_ab_initio_refuted"
   ],
   "note": "Proved for qGPS, PlaquetteqGPS (plaquettes without repeated sites), ARqGPSFull, Slater, SlaterqGPS and Backflow with all fermionic Hamiltonians and for qGPS with the Heisenberg ones, at configurations whose factors do not vanish (invertible orbital matrices). CPDBackflow: proved for the Hubbard model, false for the ab-initio energies, whose update lists repeat sites (refuted)."
  },
  {
   "property": "C90",
   "status": "partial",
   "theorems": [
    "C90_kernel_hubbard",
    "C90_kernel_ab_initio",
    "C90_default_kernels",
    "C90_default_kernel_raises_refuted"
   ],
   "note": "SlaterJastrow, BackflowJastrow, ASymmqGPS, ASymmqGPSProd and ARqGPSModPhaseFull carry apply_fast_update=True but their __call__ accepts neither cache_intermediates nor update_sites, so the kernel raises (refuted; C90_default_kernels: exactly these five). For the others the energy is that of the amplitudes, under the contract of C89."
  },
  {
   "property": "C91",
   "status": "partial",
   "theorems": [
    "C91_sample_chain",
    "C91_sample_next_partial",
    "C91_sample_next_fails",
    "C91_sample_next_refuted"
   ],
   "note": "_sample_next squeezes the chain axis instead of the length axis: right for one chain per rank, raises for any other number (refuted)."
  },
  {
   "property": "C92",
   "status": "partial",
   "theorems": [
    "C92_select_largest",
    "C92_none",
    "C92_zero",
    "C92_zero_refuted"
   ],
   "note": "Proved for n >= 1, for any argsort that is a permutation sorting the values. select_largest=0 returns the whole data set (refuted)."
  },
  {
   "property": "C93",
   "status": "partial",
   "theorems": [
    "C93_real",
    "C93_complex_partial",
    "C93_complex_default",
    "C93_complex_refuted",
    "C93_term",
    "C93_orthogonal",
    "C93_shape"
   ],
   "note": "The branch is chosen by the dtype given to normal(), not by the one of the parameter: with the default normal() (SlaterqGPS) complex parameters are 1 + sigma z and not of unit modulus (refuted). orthogonal: contract of jax.nn.initializers.orthogonal assumed."
  },
  {
   "property": "C94",
   "status": "partial",
   "theorems": [
    "C94_file_restricted",
    "C94_file_unrestricted",
    "C94_file_general_partial",
    "C94_file_general_fails",
    "C94_file_general_refuted",
    "C94_hubbard_restricted",
    "C94_hubbard_unrestricted",
    "C94_hubbard_general",
    "C94_hubbard_restricted_general_fails"
   ],
   "note": "Generalised orbitals read from a file with n_up != n_dn: the down block is cut at the wrong column and the assignment raises (unless n_dn = 1) (refuted). Generalised determinant with restricted Hartree-Fock orbitals raises."
  },
  {
   "property": "C96",
   "status": "proved",
   "theorems": [
    "C96_spin_correlation",
    "C96_singlet",
    "C96_sites",
    "C96_only_singlets"
   ],
   "note": "P_B symmetric (as in all uses). C96_only_singlets: for a triplet the function returns <S.S>/3, which differs from <Sz Sz>."
  },
  {
   "property": "C97",
   "status": "partial",
   "theorems": [
    "C97_rdm1",
    "C97_rdm2_partial",
    "C97_rdm2_refuted",
    "C97_trace",
    "C97_trace_partial",
    "C97_trace_refuted"
   ],
   "note": "rdm1 is right up to the number of samples: with several ranks n_samples is a total, so sums over all samples are divided by too much (refuted), and with chunk sizes not divisible by the number of chains. rdm2 is right after symmetrising over exchange of the index pairs only (refuted otherwise)."
  },
  {
   "property": "C99",
   "status": "partial",
   "theorems": [
    "C99_top_k",
    "C99_matrix_used",
    "C99_exchange_partial",
    "C99_exchange_refuted"
   ],
   "note": "The sorting is right (k >= 1). The matrix is transformed twice to local orbitals and never to canonical ones, so the exchange matrix of the basis is used only if the basis is that of the atomic orbitals (refuted)."
  },
  {
   "property": "C95",
   "status": "partial",
   "theorems": [
    "C95_hamiltonian",
    "C95_marshall",
    "C95_on_the_fly_partial",
    "C95_on_the_fly_fails",
    "C95_on_the_fly_refuted"
   ],
   "note": "on_the_fly_en=True: HeisenbergOnTheFly derives from LocalOperator and cannot be constructed with J and sign_rule (refuted, library contract in J1J2_Build_Model). Otherwise right; C95_on_the_fly_partial: with the operators of Heisenberg the kernel would give the same energy."
  },
  {
   "property": "C98",
   "status": "partial",
   "theorems": [
    "C98_gauge",
    "C98_argps_periodic",
    "C98_argps_open",
    "C98_argps_open_refuted",
    "C98_chain",
    "C98_chain_uniform",
    "C98_grid",
    "C98_grid_seam"
   ],
   "note": "ARGPS chain with pbc=False keeps the bond between the ends (C98_argps_open: exactly this extra term; refuted). Everything else proved for lengths of at least three."
  },
  {
   "property": "C100",
   "status": "partial",
   "theorems": [
    "C100_real",
    "C100_complex",
    "C100_complex_iff",
    "C100_laplace",
    "C100_laplacex",
    "C100_refuted"
   ],
   "note": "Proved for real parameters. Complex parameters: log_marg_lik is the Laplace approximation, but the derivative misses a factor 1/2 on sum(gamma), so it is right only if gamma = 0 (C100_complex_iff; refuted)."
  },
  {
   "property": "C101",
   "status": "partial",
   "theorems": [
    "C101_step",
    "C101_fixed",
    "C101_descent",
    "C101_inactive",
    "C101_refuted"
   ],
   "note": "Proved for real data when the inactive weights are zero. Otherwise the residual includes the inactive weights but the right-hand side of the step does not compensate for them and a stationary point is not a fixed point (refuted)."
  },
  {
   "property": "C102",
   "status": "partial",
   "theorems": [
    "C102_limit_partial",
    "C102_weighted",
    "C102_weighting_refuted",
    "C102_iterative_refuted",
    "C102_noiseless_refuted",
    "C102_evidence_raises"
   ],
   "note": "Proved for real parameters, positive noise, with or without noise reweighting, without weightings and without the iterative noise estimate. With weightings the target of a zero amplitude is not weighted (C102_weighted: exact error; refuted) and log_marg_lik raises (C102_evidence_raises); with the iterative estimate and without noise there is no limit (refuted)."
  },
  {
   "property": "C103",
   "status": "partial",
   "theorems": [
    "C103_modulus",
    "C103_invariant",
    "C103_phase",
    "C103_phase_plain",
    "C103_spin_norm",
    "C103_electron_norm",
    "C103_modphase_modulus",
    "C103_modphase_partial",
    "C103_modphase_refuted"
   ],
   "note": "Proved for ARqGPS. The modulus-phase models evaluate their phase qGPS without the symmetries, so with apply_symmetries their amplitude is not invariant (refuted; exact condition in C103_modphase_partial)."
  },
  {
   "property": "C104",
   "status": "partial",
   "theorems": [
    "C104_best_parameters",
    "C104_patience",
    "C104_restart",
    "C104_single_line_refuted",
    "C104_count_refuted",
    "C104_killed_late_refuted",
    "C104_cubic_partial",
    "C104_cubic_restart",
    "C104_cubic_refuted",
    "C104_cubic_stop_refuted",
    "C104_cubic_forget_refuted"
   ],
   "note": "H2O.py, H50_1D.py: best parameters and stopping rule proved through any interruptions between or during evaluations; the counter after a restart is ahead by one, a single line cannot be read back, a kill between best_pars.pickle and its line breaks the claim (refuted). H4x4x4.py: exact content of best_pars.pickle (initial parameters if iteration min_global_count is the best), restart keeps the best variance only in a tie, can stop at once or forget (refuted)."
  },
  {
   "property": "C105",
   "status": "proved",
   "theorems": [
    "C105_checkpoint",
    "C105_rows",
    "C105_repeated",
    "C105_complete"
   ],
   "note": "The random numbers of a step are taken to be the same in whichever session it is done (the sampler state is not check-pointed); contract of flax save_checkpoint/restore_checkpoint: the latest one."
  },
  {
   "property": "C106",
   "status": "partial",
   "theorems": [
    "C106_best_partial",
    "C106_undominated",
    "C106_checkpoint_partial",
    "C106_rows_partial",
    "C106_complete_partial",
    "C106_last_step",
    "C106_descent",
    "C106_last_step_refuted",
    "C106_ema_refuted",
    "C106_best_refuted",
    "C106_descent_refuted"
   ],
   "note": "Proved for drivers without a running average and the training loop unless exactly one step is missing. VMC_SRRMSProp loses its running average; one missing step is never done; a restart within descent finishing leaves out a step and shifts the labels; best_params pairs the energy of a step with the parameters after its update and is undominated rather than lowest in energy (all refuted, with exact statements)."
  },
  {
   "property": "C107",
   "status": "partial",
   "theorems": [
    "C107_runtime",
    "C107_resumed_partial",
    "C107_resumed_refuted",
    "C107_descent_refuted",
    "C107_printed",
    "C107_printed_refuted"
   ],
   "note": "Proved for runs from step 1 and for durations that are not negative. A resumed run divides its first run time by the step number; in descent finishing the remaining time is negative and is printed as a positive one (refuted)."
  },
  {
   "property": "C108",
   "status": "partial",
   "theorems": [
    "C108_pfaffian_qgps_update",
    "C108_pfaffian_qgps_chain",
    "C108_slater_qgps_update",
    "C108_pfaffian_energies",
    "C108_projected_partial",
    "C108_projected",
    "C108_slater_reference",
    "C108_pfaffian_reference",
    "C108_amplitudes",
    "C108_projection_trivial",
    "C108_nan_refuted"
   ],
   "note": "Proved where the Hartree-Fock amplitude does not vanish; where it does the Pfaffian can be nan because of the missing pivoting guard (refuted). Updates: n_elec up = down, amplitudes of the cached determinants nonsingular."
  },
  {
   "property": "C109",
   "status": "proved",
   "theorems": [
    "C109_entry",
    "C109_trace",
    "C109_exact"
   ],
   "note": "C109_exact: real amplitudes, weights psi^2."
  },
  {
   "property": "C110",
   "status": "partial",
   "theorems": [
    "C110_support_partial",
    "C110_zero_start_partial",
    "C110_nan_refuted"
   ],
   "note": "Proved for cached updates that are right from every configuration visited (good = non-zero amplitude for a chain started there, every configuration for a start at a zero). False for qGPS with a zero parameter: 0/0 makes every update nan and the chain never moves although all amplitudes are positive."
  },
  {
   "property": "C111",
   "status": "partial",
   "theorems": [
    "C111_exact",
    "C111_derivative_partial",
    "C111_complex_partial",
    "C111_eigenstate",
    "C111_refuted"
   ],
   "note": "Without zeros of the wave function the gradient is the derivative; in general the terms of the never sampled zeros are missing (C111_exact states them), and C111_refuted shows a zero where the gradient is 0 and the derivative 2."
  },
  {
   "property": "C112",
   "status": "partial",
   "theorems": [
    "C112_split",
    "C112_partial",
    "C112_filter_partial",
    "C112_inverse",
    "C112_filter_refuted"
   ],
   "note": "Proved for every model but FilterGPS, on spins (the only systems for which a graph is passed). FilterGPS has the translations of its graph only, whatever is asked for: spin inversion refuted."
  },
  {
   "property": "C113",
   "status": "proved",
   "theorems": [
    "C113_chain",
    "C113_lattice"
   ],
   "note": "Contract of NetKet: the translations of a periodic lattice form a group with exactly one translation of site 0 to any site."
  },
  {
   "property": "C114",
   "status": "proved",
   "theorems": [
    "C114_spectrum",
    "C114_argps"
   ],
   "note": "Square bases (as many orbitals as atomic functions), exact arithmetic, a field where 2 is invertible; pair symmetry (pq|rs) = (rs|pq) of the repulsion integrals."
  },
  {
   "property": "C115",
   "status": "partial",
   "theorems": [
    "C115_h2o_one_basis",
    "C115_h2o_again",
    "C115_cpd_one_run",
    "C115_cpd_fresh",
    "C115_orbitals",
    "C115_exchange",
    "C115_ranks",
    "C115_h2o_basis_type_refuted",
    "C115_exchange_canonical_refuted"
   ],
   "note": "np.save of one file is atomic. The exchange matrix belongs to the basis in local bases; in the canonical basis the matrix over atomic orbitals is stored (refuted). A run restarted with another type of basis gets the old basis (refuted)."
  },
  {
   "property": "C116",
   "status": "proved",
   "theorems": [
    "C116_energy",
    "C116_symmetries"
   ],
   "note": "Energies as exact sums over the electron sector, integrals in any field with absolute value; pair symmetry (pq|rs) = (rs|pq)."
  },
  {
   "property": "C117",
   "status": "proved",
   "theorems": [
    "C117_round",
    "C117_closest",
    "C117_no_atoms",
    "C117_sheet",
    "C117_spacing",
    "C117_chain",
    "C117_bulk",
    "C117_radial",
    "C117_constant"
   ],
   "note": "Exact square root. The outer correlations are sums over the four neighbours, not averages over pairs (C117_constant)."
  },
  {
   "property": "C118",
   "status": "partial",
   "theorems": [
    "C118_heisenberg",
    "C118_hubbard",
    "C118_hydrogen",
    "C118_guard",
    "C118_guard_refuted"
   ],
   "note": "Proved for the configurations as shipped, with any symmetries; spins in the sector of zero magnetisation. The guard of get_sampler tests an entry no configuration has, so an overridden sampler name is accepted for MaskedGPS and its samples do not follow |psi|^2 (refuted)."
  },
  {
   "property": "C119",
   "status": "partial",
   "theorems": [
    "C119_direction",
    "C119_descends",
    "C119_unique_samples",
    "C119_srrmsprop",
    "C119_driver",
    "C119_minsr",
    "C119_minsr_shift",
    "C119_minsr_counts_refuted",
    "C119_minsr_real_refuted"
   ],
   "note": "Exact samples: weights equal to |psi|^2 / norm, for the driver sample frequencies equal to them. The minSR update is a descent direction for equal weights and complex parameters (or real amplitudes); with the weights of MCStateUniqueSamples and with real parameters of complex amplitudes it can point uphill (refuted)."
  },
  {
   "property": "C120",
   "status": "partial",
   "theorems": [
    "C120_causal",
    "C120_normalised",
    "C120_support",
    "C120_sampler",
    "C120_unconstrained",
    "C120_magnetisation",
    "C120_zero_magnetisation",
    "C120_global",
    "C120_global_refuted"
   ],
   "note": "Proved for causal constraints, shown to include zero magnetisation; a gauge function that reads the whole configuration, which the interface allows, gives a state of norm |S|/D^N instead of one and nan amplitudes (refuted). Odd kernel sizes, as C42. netket's __call__ and _conditional are modelled from their documentation."
  },
  {
   "property": "C121",
   "status": "proved",
   "theorems": [
    "C121_statistics",
    "C121_batch",
    "C121_chunks",
    "C121_unique",
    "C121_zero_variance",
    "C121_unbiased",
    "C121_spread",
    "C121_variance",
    "C121_error",
    "C121_rayleigh",
    "C121_hubbard",
    "C121_ab_initio"
   ],
   "note": "NetKet's chunking and statistics are modelled from their documented behaviour; the error estimate from blocks of few long chains is not modelled. Hubbard graphs without self loops (C07). With use_fast_update under the contracts proved in C89."
  },
  {
   "property": "C122",
   "status": "partial",
   "theorems": [
    "C122_weighted",
    "C122_plain",
    "C122_error_wrong",
    "C122_error_expected",
    "C122_error_refuted"
   ],
   "note": "Mean and variance are proved. The reported error is wrong: the flattened energies are reshaped to one row and the number of rows is taken as the number of samples, so that the squared error is the variance over the number of ranks, larger than the standard error by the number of samples per rank (C122_error_wrong, for every input with non-zero variance)."
  },
  {
   "property": "C123",
   "status": "partial",
   "theorems": [
    "C123_reaches",
    "C123_stationary",
    "C123_averages_partial",
    "C123_exchanges_only",
    "C123_dimer_refuted",
    "C123_exchanges_only_refuted"
   ],
   "note": "One chain, positive amplitudes, no transition_probs (distance-dependent hops), hop_probability > 0. False for two sites with equal amplitudes, no full spin species and an even sweep size (also NetKet's default, the number of sites): the chain alternates and the returned samples never leave the start (C123_dimer_refuted). False for hop_probability = 0 (the number of doubly occupied sites never changes)."
  },
  {
   "property": "C124",
   "status": "partial",
   "theorems": [
    "C124_reaches",
    "C124_stationary",
    "C124_averages_partial",
    "C124_spins",
    "C124_disconnected",
    "C124_dimer_refuted"
   ],
   "note": "One chain, positive amplitudes. The averages are proved to converge when some local state occurs twice or the sweep size is odd. False otherwise: for two sites with opposite spins, equal amplitudes and an even sweep size (also NetKet's default, the number of sites) the returned samples never leave the start. compute_clusters of NetKet is not modelled, the list of pairs is arbitrary. By C23 the chain never leaves the rearrangements of its start."
  },
  {
   "property": "C125",
   "status": "partial",
   "theorems": [
    "C125_distinct",
    "C125_inclusion",
    "C125_weighted_partial",
    "C125_full",
    "C125_biased",
    "C125_weighted_refuted"
   ],
   "note": "The weighted loss is the expected one exactly when the mini-batch has one item or all |y|^2 agree (C125_weighted_partial, C125_biased): drawing without replacement gives the most probable item too small a weight, and a batch of the whole data set ignores |y|^2 (C125_full). In general the weights grow with |y|^2 and none exceeds 1/mini_batch_size (C125_inclusion). One rank; jax.random.choice without replacement is taken to be successive draws."
  },
  {
   "property": "C126",
   "status": "partial",
   "theorems": [
    "C126_hopping_rule",
    "C126_exchange_rule",
    "C126_metropolis",
    "C126_autoreg",
    "C126_keys_of_sampler",
    "C126_random_state_reuses_keys",
    "C126_state_fitting_reuses_keys",
    "C126_used_once_refuted",
    "C126_random_state_partial",
    "C126_state_fitting_partial",
    "C126_stratified_reuses_keys"
   ],
   "note": "Proved for the Metropolis sampler with both rules and for the autoregressive sampler, any number of chains, steps, sites and calls, together with every later proper use of the key left. False for the fermionic random states, the mini-batches and stratified sampling, which draw with a key and split it again; there only distinct keys per draw (random states, mini-batches) hold."
  },
  {
   "property": "C127",
   "status": "partial",
   "theorems": [
    "C127_candidates_shift",
    "C127_top_up_copies",
    "C127_evaluations_overlap",
    "C127_independent_refuted",
    "C127_samples_partial"
   ],
   "note": "False: random_state walks along the same chain of keys as the rejection loop, so each turn of the loop proposes the candidates of the turn before shifted by one, and successive evaluations repeat each other's samples, for every generator. What holds: number and support of the samples."
  },
  {
   "property": "C128",
   "status": "partial",
   "theorems": [
    "C128_unbiased_partial",
    "C128_raw_sums",
    "C128_two",
    "C128_rare_overweighted",
    "C128_weight_ex",
    "C128_unbiased_refuted"
   ],
   "note": "False: sampling stops at the n_samples-th different configuration, which correlates the number of raw samples with their values. C128_two is the exact expectation for two unique samples, any space and any number of draws: rare configurations get too much weight (C128_rare_overweighted). Unbiased if sampling is never cut short (more unique samples asked for than configurations, or no more draws than samples); the sums over the raw samples are right on average for every n_samples (C128_raw_sums). Missing: the exact bias for more than two unique samples."
  },
  {
   "property": "C129",
   "status": "partial",
   "theorems": [
    "C129_normalised_partial",
    "C129_rand_norm",
    "C129_harmonic_norm",
    "C129_unbiased_refuted"
   ],
   "note": "False with renormalize=True, for both values of rand_norm: the norm is estimated and divided by; witness with three configurations. What holds: the mean is unbiased for normalised models (renormalize=False); the norm estimate from random samples is unbiased; the reciprocal of the harmonic norm estimate is unbiased; all for any number of ranks and samples and any dependence among the samples."
  },
  {
   "property": "C130",
   "status": "partial",
   "theorems": [
    "C130_update_partial",
    "C130_loss_grad_zero",
    "C130_loss_grad_real_partial",
    "C130_loss_grad_refuted"
   ],
   "note": "The update does not depend on the mode (all weights, ranks, chunks, exact least-squares solvers). The gradient is false: the log-derivatives are not conjugated (L109), so in mode holomorphic _loss_grad is right only for real log-derivatives, and in mode complex it is zero for every holomorphic amplitude. nk.jax.tree_to_real is modelled from its documentation."
  },
  {
   "property": "C131",
   "status": "partial",
   "theorems": [
    "C131_complex_partial",
    "C131_repack",
    "C131_shape",
    "C131_real_mode_refuted"
   ],
   "note": "Holds in mode complex, for every exact solver. False in mode real (the default for amplitudes with real values): the updates of complex parameters are not repacked (L72) and do not fit the parameters, and C131_shape shows that this is the only case. The columns of nk.jax.jacobian for complex parameters are modelled from its documentation."
  },
  {
   "property": "C132",
   "status": "partial",
   "theorems": [
    "C132_shift",
    "C132_raises",
    "C132_failed_state",
    "C132_retry",
    "C132_failed_unchanged_refuted"
   ],
   "note": "The shift is validated as claimed, after every history of successful and failing calls. False: the moving average is updated (L80) before step and schedule are checked, so a call that raises has already added its gradient; C132_failed_state says exactly what a failed call changes, and C132_retry that a repeated first call solves with 1 + decay times the squared gradient. One complex leaf of parameters; assignments to diag_shift from outside are not modelled."
  }
 ]
}