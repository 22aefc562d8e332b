# Formal model of GPSKet in Rocq (Coq 8.16.1)

The code in /repo is never run here. Every model definition is a hand
transcription; the comment above it cites the file and lines it mirrors and says
where it simplifies. A theorem is about the model; the tie to the code is the
transcription.

## 1. Trusted base

1. The kernel of Coq 8.16.1 (`coqc`, `coqchk`). No plugin, no disabled check, no
   axiom, `Admitted` or open obligation in `rocq/theories`.
2. What `Print Assumptions` lists. The table at the end gives it for every theorem
   of MANIFEST.json. Almost all are closed under the global context. The theorems
   on the logarithm, the exponential or derivatives use Coq's real numbers and
   therefore its standard library axioms:
   * `sig` = `ClassicalDedekindReals.sig_forall_dec`,
     `not` = `ClassicalDedekindReals.sig_not_dec`,
     `fun` = `FunctionalExtensionality.functional_extensionality_dep`
     (construction of R);
   * `cla` = `Classical_Prop.classic`, `eps` = `Epsilon.epsilon_statement`
     (R as a mathcomp `realFieldType`, Rstruct.v; `eps` gives the choice structure).
   The gate also lists the opaque module fields of mathcomp and of `Reals`
   (`bigopE`, `cardEdef`, `Rplus_def`, ...). They are sealed definitions with a body
   in their libraries and not assumptions of our theorems.
3. The transcription of Python into the model files (section 4), including the
   reading of NumPy, JAX, SciPy, flax, NetKet and MPI in section 3.

## 2. Conventions of the model

* Arrays are `seq`s, finite functions or matrices; loops are `map` / `fold` /
  `iter`; in-place updates return the new value; where aliasing matters (supervised
  learner, ASEP rows, output buffers) arrays live in an explicit heap or buffer.
* Exceptions, `nan` and results of the wrong shape are `None`.
* Indices, counts and occupancies are `nat`; uint8 arithmetic has an explicit
  `mod 256` (`u8`, `w8`) wherever a value could leave 0..255.
* Amplitudes, integrals and parameters are elements of an arbitrary commutative
  ring / field / ordered field (mathcomp classes): exact arithmetic. Floating point
  rounding and overflow are not modelled.
* Log-amplitudes are modelled by amplitudes: `exp(logpsi(x') - logpsi(x))` is
  `psi x' / psi x`, log-determinants are determinants, `-inf` is 0. Masks of
  autoregressive models carry a flag "some -inf was added".
* `exp`, `sqrt`, `log`, `sinh`, `cos`, `sin` are parameters with the few equations
  used, except in C67 and C80-C88, which use Coq's real functions.
* Random draws are arguments ("for every outcome"). For statements on probabilities
  the exact finite distribution of the draws is used.
* MPI ranks are lists of per-rank values, rank 0 first; `mpi_sum`, `gather`,
  `bcast`, `scatter` act on these lists.
* Random keys are paths in a tree: `split(k, n)[i]` is a new key, different from all
  others (Keys_Model). Elsewhere the draws are independent of each other.
* Everything is per sample where the code `vmap`s over a batch.
* Update lists `(sites, occs)`: `denotes x y sites occs` (Update_Proto.v) is the
  protocol the code itself uses. The first occurrence of a site carries its new
  occupancy, later occurrences carry the old one.

Layout of `rocq/theories`: `X_Model.v` (mirrors the code), `X_Spec.v` (independent
specification), `X_Proofs.v` / `X_Lemmas.v`, `X_Props.v` (property theorems, each with
a concrete example next to it). `properties.jsonl` lists the properties,
`MANIFEST.json` the theorems per property, `seeded/LOG.jsonl` the wrong programs the
theorems were tested against.

A property that is false of the faithful model has a theorem `..._refuted` that
exhibits a witness (`exists ...`) and, where something weaker holds, `..._partial`
theorems. These findings concern the code as written, e.g. an off-by-one parity
window (C02), buffers never written for an empty edge list (C06), an uninitialised
local variable (C50), an error bar that does not shrink with the number of samples (C122), a two-site
chain whose returned samples never leave their start (C123, C124), mini-batches biased towards rare data (C125),
"random" samples that repeat each other (C127), unique samples that overweight rare configurations (C128).

## 3. Behaviour of libraries that is assumed

* NumPy: `array_split` (first `len mod n` parts one longer), boolean indexing returns
  a copy, `a[mask] = v` writes in place, broadcasting, `argmax` takes the first
  maximum, `nan_to_num`; `finfo.eps` tests are abstract predicates (`big`).
* JAX: out-of-range gather indices clamp, `dynamic_slice` clamps, `jnp.cumsum`
  keeps uint8 (C41), `jax.random.choice` is the inverse-CDF algorithm (C19-C21),
  `linear_transpose` returns real cotangents for real parameters (C48),
  scatter `.at[].set` with repeated indices: last write wins (C34, C35 avoid it).
* SciPy: `cholesky` returns the lower triangular factor with positive diagonal or
  raises (`chol_ok`), `pinvh` of an invertible matrix is its inverse (`pinvh_ok`),
  other linear solvers satisfy the normal equations (`exact_solver`, least squares);
  for each contract a function satisfying it is constructed. `np.linalg.pinv` is an
  inner inverse (C77).
* flax: convolutions with SAME padding (C42), `FrozenDict.pop` (C57), dataclass
  fields and positional arguments (C75).
* NetKet: `vmap_chunked`, `vjp_chunked` and `statistics` (Expect_Model), layout of `local_estimators` (two versions, a flag), rescaling of
  `nk.jax.jacobian` with `pdf` (two versions, a flag), `states_to_local_indices`,
  graph edges as an arbitrary list of pairs, operators by their connected elements.
* mpi4jax: on ranks other than the root `mpi_gather` returns its input (C66).

## 4. Code that is modelled, and code that is not

| file | modelled | not modelled |
|---|---|---|
| operator/fermion.py | all (Hopping_Model) | |
| operator/hamiltonian/hubbard.py | constructor data, kernel with cursor and buffers, on-the-fly energy, choice of the kernel (Hubbard_Model, Fast_Dispatch) | with `use_fast_update` the model is a function with the contract of Fast_Contract |
| operator/hamiltonian/ab_initio.py | constructor, kernel, on-the-fly energy, RDMs, update helpers (AbInitio_Model, AbInitioOtf_Model) | with `use_fast_update` the model is a function with the contract of Fast_Contract |
| operator/hamiltonian/ab_initio_sparse.py | CSR construction, on-the-fly energy (Sparse_Model) | |
| operator/hamiltonian/J1J2.py | on-the-fly energy (J1J2_Model), construction (J1J2_Build_Model) | NetKet's graphs and operator classes (contracts) |
| operator/asep.py, hamiltonian/asep.py | all (Asep_Model) | |
| hilbert/* | constraint, sizes, random states, `__pow__` (Hilbert_Model), random keys (Keys_Model) | discrete_asep.py (one line of NetKet) |
| sampler/rules/*, fermionic_hopping.py | proposals and their exact distribution (Rule_Model, Choice_Model); the hopping and exchange rules as Markov chains (Chain_Model, Exchange_Chain_Model) | |
| sampler/metropolis_fast.py | `_sample_next` (Metropolis_Model; random keys in Keys_Model; with -inf, inf, nan in Metro_Inf_Model; as a Markov chain on a sector, one step and one sweep, in Chain_Model and Exchange_Chain_Model) | rounding, overflow of exp; independence of the draws of split random keys is assumed |
| sampler/autoreg.py | `_sample_chain`, `_sample_next`, `batch_choice` (AR_Model, Choice_Model, Select_Model), random keys (Keys_Model) | |
| models/qGPS.py, plaquetteqGPS.py | call, cache, fast update, symmetries (QGPS_Model, Plaq_Model) | flax parameter creation, `before_sym` permutations built by NetKet |
| models/autoreg_*.py | conditionals, caches, renormalisation, masks, ARqGPSFull fast update (AR_Model, ARFull_Model), symmetrised complex amplitudes, modulus-phase models (AR_Phase_Model) | initialisers |
| models/slater.py, slater_qGPS.py, slater_jastrow.py | call, cache, fast update, S2 rotations (Slater_Model, Backflow_Model) | orbital initialisation |
| models/pfaffian.py | Parlett-Reid, states (Pfaff_Model) | |
| models/backflow*.py, cpd_backflow.py | call, cache, fast update (Backflow_Model, CPD_Model) | |
| models/asymm_qGPS.py, jastrow.py, segmented_qGPS.py | call (Asymm_Model, Jastrow_Model, Seg_Model) | |
| models/pixelcnn.py, nn/causal_conv.py | layers and masks (Causal_Model), constraint, normalisation, amplitudes and sampling (Pixel_Model) | chunks of samples |
| nn/initializers.py | all, entry by entry (Init_Model) | random number generation, `orthogonal` of jax (contract) |
| driver/minSR.py | gradient, kernel, update, mean (MinSR_Model; descent: MinSR_Descent_Props), variance and error of the energy (MinSR_Stats_Model), pytrees of complex parameters in both modes (MinSR_Pytree_Model) | choice of the default mode, auto-correlation |
| driver/VMC_SRRMSProp.py | update and driver state (SRR_Model; descent of the energy: Descent_Props), complex parameters (SRR_Pytree_Model) | choice of the default mode |
| driver/*_state_fitting.py | split and gradient (Split_Model), mini-batches (MiniBatch_Model), random keys (Keys_Model) | logging, optimizer |
| optimizer/* | SRDense, SRRMSProp, pinv, all QGTs (UQGT_Model, QGT_Model; validation and state of SRRMSProp: SRPre_Model; descent of the energy: Descent_Props, with NetKet's Sgd modelled as theta - lr * dp) | pytree conversion |
| vqs/.../state_unique_samples.py, state_stratified_sampling.py | sampling, weights, expectation, gradient (Unique_Model, Strat_Model; the mean as a random variable: UniqueBias_Model, StratBias_Props; complex amplitudes and parameters: Energy_Grad_Model; chunks: Expect_Model; random keys and random samples of the norm: Keys_Model) | dtype casts |
| vqs/.../expect.py | chunks, chains, mean, variance, error of the mean (Expect_Model); layout of the estimators (C65) | error from blocks of few chains |
| supervised/supervised_qgps.py | caches and predictions (Sup_Model), log-space fit (Sup_Fit_Model), GLM (Sup_Glm_*), regularisation arrays (Sup_Alpha), evidence, its derivatives, the hyperparameter iteration and the relevance vector machine (Sup_RVM_*), evidence and reweighted least squares of the GLM (Sup_Glm_Ev_Model, Sup_Glm_Irls_Model), zero amplitudes (Sup_Zero_Model) | minimize_fun, scipy minimisers |
| supervised/imag_time_step.py | all (Imag_Model) | |
| datasets/h2o.py | `to_config` (H2O_Model), `select_largest` (Select_Model) | download, file formats |
| scripts/ARGPS/argps | models.py: fermionic masks (AR_Model), get_model, symmetry transformations and filters (Argps_Model); systems.py: Hubbard chain (Lattice_Model), integrals of molecules (Basis_Model), get_system (Dispatch_Model); samplers.py and configs: choice of classes (Dispatch_Model), hydrogen geometries (Sheet_Model); vmc.py: training loop and check-points (Vmc_Script_Model); utils.py: Timer (Timer_Model) | numerical entries of the configs, plots, tutorials, tests |
| scripts/GPS_for_ab_initio | H2O.py, H50_1D.py, H4x4x4.py: optimisation loop and restart (Ckpt_Model); H2O.py: PfaffianqGPS, SlaterqGPS and the reference states (H2O_Ref_Model); H4x4x4.py: one-body density matrices (H4_Model); H2O.py, H4x4x4.py: basis, integrals, their files and broadcast (Basis_Model); H_chain_timing_analysis.py: pruning (Prune_Model) | mean field and localisation (PySCF), timing and amplitude scripts |
| scripts/cpd-backflow/cpd_backflow | models.py: qGPS correction (Backflow_Model), Hartree-Fock orbitals (HF_Model), exchange environments (Select_Model); systems.py: Hubbard lattices (Lattice_Model), basis, integrals, orbitals and exchange matrix and their files (Basis_Model), pruning of integrals (Prune_Model); configs/hsheet.py: sheet, corrfunc.py: radial correlations (Sheet_Model); vmc.py: training loops, best parameters, check-points (Vmc_Script_Model); utils.py: Timer (Timer_Model); rdms.py (RDM_Model); corrfunc.py: correlations of pairs of sites (Corr_Model) | mean-field and localisation libraries, other scripts, plots |


## 5. Properties: model, result and limits

| id | property | status | files of the theorems | remarks |
|---|---|---|---|---|
| C01 | Single hop has the Jordan-Wigner sign and result | proved | Hubbard_Props | Model of apply_hopping with cumulative counts against Jordan-Wigner ladder operators (CAR checked in fock_spec_car). |
| C02 | Hop sign does not depend on whether cumulative counts are supplied | partial | Hubbard_Props | The full statement is false of the code: without cumulative counts the parity window is shifted. Exact characterisation of agreement proved. |
| C03 | Hubbard connected elements represent the Hubbard Hamiltonian | proved | Hubbard_Props |  |
| C04 | Hubbard and ab-initio connected configurations stay in the electron sector | proved | AbInitio_Props, Hubbard_Props |  |
| C05 | Hubbard matrix is symmetric, as is_hermitian promises | proved | Hubbard_Props |  |
| C06 | Hubbard flattened output and sections delimit the batch correctly | partial | Hubbard_Props | Holds for non-empty edge lists; for an empty edge list sections is never written (refuted). |
| C07 | Hubbard on-the-fly local energy equals the connected-element local energy | partial | Hubbard_Props | Holds for graphs without self loops; self loops give a different energy (refuted). With and without use_fast_update; with it, under the contract fast_ok_uniq, proved for the models in C89. |
| C08 | Ab-initio connected elements represent the molecular Hamiltonian | proved | AbInitio_Props | Pair-exchange symmetry of eri is a hypothesis of the property. |
| C09 | Ab-initio buffers and sections are exact | proved | AbInitio_Props |  |
| C10 | Ab-initio on-the-fly local energy equals the Hamiltonian action | proved | AbInitio_Props | With and without use_fast_update; with it, under the contract fast_ok on the cached evaluation of the model, proved for the models in C89. |
| C11 | Local density matrices reproduce the local energy linearly | proved | AbInitio_Props | Needs at least one site. With and without use_fast_update, no assumption on the cached evaluation. |
| C12 | Sparse ab-initio local energy equals the dense one | proved | Sparse_Props | With and without use_fast_update; with it, under the contract fast_ok, proved for the models in C89. |
| C13 | Sparse integral storage is lossless | proved | Sparse_Props |  |
| C14 | Partial updates with repeated sites mean the intended configuration | proved | AbInitio_Props |  |
| C15 | On-the-fly Heisenberg local energy | proved | J1J2_Props | Stated with the index convention of the code; with NetKet's convention it needs exchange-invariant terms (true of Heisenberg bonds), shown necessary by the refutation. With and without use_fast_update; with it, under exchange_fast_ok, proved for qGPS in C89. |
| C16 | ASEP generator conserves probability and respects exclusion | proved | Asep_Props | np.exp is a parameter. |
| C17 | ASEP is_hermitian flag is truthful | partial | Asep_Props | The flag is wrong: it only tests the sum of the boundary rates (refuted); for chains of any length > 1 the flag and symmetry together mean lambda = 0, p = q and pairwise equal boundary rates. |
| C18 | ASEP flattened output and sections | proved | Asep_Props |  |
| C19 | Hopping/exchange proposals stay in the electron sector | partial | Rule_Props | Proved for every configuration with at least one electron and every draw of non-zero probability (exchanges also from the empty configuration). From the empty configuration a hop writes 255 into the start site (refuted). |
| C20 | Hopping proposals are symmetric (no transition_probs) | proved | Rule_Props | Exact probabilities over all draws. |
| C21 | Hopping proposals with transition_probs are symmetric | partial | Rule_Props | Symmetric matrices with unequal row sums are accepted but give asymmetric proposals (refuted); exact characterisation and sufficient condition proved. |
| C22 | Reported update sites determine the proposal | proved | Rule_Props |  |
| C23 | Exchange proposals permute the configuration and are symmetric | proved | Rule_Props |  |
| C24 | Fast Metropolis sampling equals plain Metropolis sampling | proved | ARFull_Props, Metropolis_Inst, Metropolis_Props | Model and rule enter through their contracts; the contracts of both rules and of ARqGPSFull are proved. exp is a parameter; -inf/NaN not modelled. |
| C25 | batch_choice is inverse-CDF sampling | partial | Choice_Props | Proved for draws u in (0,1); the possible draw u = 0 selects index 0 even if its probability is zero (refuted). |
| C26 | Autoregressive direct sampling draws from |psi|^2 | proved | AR_Props | Generic in the constraint functions under the hypothesis that no reachable prefix is stuck, which is discharged for the code's own constraint functions. exp is a positive parameter. |
| C27 | Autoregressive conditionals are causal | proved | AR_Props | Every model, for plaquette masks that only select earlier sites, which those of the scripts do for any plaquettes. |
| C28 | Cached incremental conditionals equal the full evaluation | proved | AR_Props |  |
| C29 | Zero-magnetisation autoregressive models only sample the sector | proved | AR_Props |  |
| C30 | Unconstrained autoregressive models give every configuration positive probability | partial | AR_Props | Holds for four sites or more; with one to three sites configurations are forbidden although the space is unconstrained (refuted). |
| C31 | Triangular packing of site-resolved parameters is a bijection | proved | AR_Props |  |
| C32 | qGPS fast update equals full evaluation | proved | QGPS_Props | For update lists following the code's own protocol for repeated sites (first occurrence new, later occurrences old value, C14); lists carrying the new value twice are not supported (refuted). No factor of the old configuration may vanish, the code divides by it. |
| C33 | Symmetrised amplitudes are invariant | proved | QGPS_Props | For permutation groups, with and without spin flip (0/1 occupancies). |
| C34 | Plaquette qGPS fast update equals full evaluation | partial | Plaq_Props | Proved for plaquettes without repeated sites. A site repeated within a plaquette breaks the fast update (refuted); with dummy updates of repeated sites the value is right but the cached configuration can be stale (refuted). |
| C35 | CPD backflow fast update equals full evaluation | partial | CPD_Props | Proved for update lists changing every site at most once (through configurations without vanishing factors). For the repeated sites of ab-initio double moves the site products are updated twice (refuted). |
| C36 | Occupancies to electron positions is a faithful, ordered translation | proved | Elec_Props |  |
| C37 | Slater determinant fast update equals full evaluation | proved | Asymm_Props, Slater_Props | Every sector, every update list in the code's protocol (denotes), every number of determinants/rotations/symmetries, both constant_time_updates settings, blocked and generalised orbitals; the target may be singular. C37_block_orbitals: with fixed magnetisation the value is det(up) det(down). Log-determinants modelled as determinants over an abstract field. |
| C38 | Slater cached inverse stays the inverse | proved | Slater_Props | Whole cache (configuration, counts, electron ids, determinants, inverses, update matrices) equals full evaluation after any sequence of updates through non-singular configurations. |
| C39 | Pfaffian by Parlett-Reid | partial | Pfaff_Props | For non-singular skew matrices of every even dimension the value is the Pfaffian (expansion along the first row), squares to the determinant and is multiplied by det S under congruence. Singular matrices never give a non-zero number, but give nan instead of -inf unless the vanishing pivot is the last one (refuted: 4 x 4 zero matrix). |
| C40 | Jastrow factor is spin-exchange symmetric | proved | Jastrow_Props | Jastrow.__call__ over a commutative ring, any number of sites and symmetry copies. |
| C41 | Segmented GPS looks up parameters in range | partial | Seg_Props | The fermionic counters are right with fewer than 256 electrons of each spin. The uint8 cumulative sums wrap beyond that, and the property is refuted with 257 electrons (assuming jnp.cumsum keeps the uint8 type). |
| C42 | Causal convolutions are causal | partial | Causal_Props | Causal for every odd kernel size, all depths, weights, activations and inputs; refuted for every even kernel size, where the SAME padding lets the exclusive layer read its own site. The flax convolution is modelled from its documented behaviour; the optional gauge function of PixelCNN is the subject of C120. |
| C43 | Unique-sample weights reproduce plain Monte Carlo averages | proved | Unique_Props | Every stream of batches, ranks and samples per rank; the raw samples used are characterised (prefix of the stream cut at n distinct samples). With max_sampling_steps <= 0 the code raises (C43_zero_steps). |
| C44 | Stratified sampling weights are a proper estimator | proved | Strat_Props | Any underlying sampler step, any history of calls; the restricted one-chain kernel inherits detailed balance. Probabilities replace log-probabilities; C44_sum needs a non-zero norm estimate and at least one sample from the complement. |
| C45 | minSR distributes and restores samples without loss or reordering | partial | MinSR_Props | Holds for every number of ranks, chunks and samples if NetKet's local_estimators returns the transposed array (older NetKet), or with one chain per rank. With the layout of newer NetKet, which VMC_SRRMSProp and expect.py assume, L63 exchanges energies. |
| C46 | minSR solves the SR equation | partial | MinSR_SR | Uniform weights: least-norm SR solution (or, if the jacobian is not rescaled, 1/sqrt(N) times it). False for non-uniform counts under both jacobian conventions, and for real parameters with complex amplitudes. Solver assumed to be an exact least-squares solver (existence proved: lstsqP). |
| C47 | SR-RMSProp keeps a valid running second moment | partial | SRR_Props | Convex combination and range for initial_scale = 0 (default) and any history without reset; non-negativity for any initial_scale >= 0, positive definiteness for any state (diag_shift, eps > 0). False for initial_scale > 0 and after driver.reset(), which resets the step counter but keeps the moment. C47_equation: the linear system in terms of covariance and forces over all samples. |
| C48 | QGT matvec and dense form agree | proved | QGT_Props | Any number of ranks and samples; on-the-fly for complex (holomorphic) and real parameters. C48_same: for real parameters the on-the-fly operator equals the dense operator built from the centred real and imaginary jacobian rows over sqrt(N). Pytree conversions not modelled; jax.linear_transpose taken to return the real part for real parameters. |
| C49 | Hilbert space constraint accepts exactly the electron sector | proved | Hilbert_Props |  |
| C50 | Powers of fermionic Hilbert spaces | partial | Hilbert_Props | __pow__ raises UnboundLocalError on every constrained space (refuted); unconstrained proved. |
| C51 | Supervised learner's cached products stay correct through any history | partial | Sup_Cache | Proved for every history of reference-site changes, fit steps, predictions and epsilon resets (missing: updates of epsilon outside a fit step). False when update_epsilon_with_weights is called after a reference-site change with no kernel matrix in between, and when the caller overwrites the ref_sites array it passed in. |
| C52 | qGPS predictions do not depend on the chosen reference sites | proved | Sup_Cache | After any history of the public methods; the exp/log transform of QGPSLearningExp is applied to this value. |
| C53 | A log-space fit step returns the regularised least-squares minimiser | partial | Sup_Fit_Expand, Sup_Fit_Props, Sup_Fit_Step | Minimiser over the active weights for any data, alpha, beta and activity, after any history of the learner, provided features with a column sum below kern_cutoff vanish exactly (missing: tiny non-zero features). With complex_expand the minimised loss has alpha/2 instead of alpha (C53_half_refuted). Linear solver assumed exact; existence of such solvers proved. |
| C54 | Generalised linear model step applies its Newton update | partial | Sup_Glm_Props | False: np.copyto writes into the temporary made by boolean indexing, so the active weights are returned unchanged whatever the direction and step (C54_noop, universal). |
| C55 | Regularisation strengths act on the weights they belong to | partial | Sup_Alpha | Right without bias or without complex_expand. With both, C55_shift gives the exact wrong assignment for every shape. |
| C56 | H2O dataset configurations encode the determinant strings | proved | H2O_Props |  |
| C57 | Imaginary time step model | partial | Imag_Props | One step: amplitudes of (1 - tau H) psi for tau != 0 and psi(x) != 0. False for nested steps: the outer model pops the only tau collection, the inner model then raises KeyError for every configuration. |
| C58 | Dataset splitting across ranks is a partition | partial | Split_Props | The split is a partition that keeps pairs together. The gradient is summed instead of averaged over the ranks: n_nodes times the gradient of the reported loss. |
| C59 | Ab-initio matrix elements are symmetric | proved | AbInitio_Props |  |
| C60 | Metropolis sampling with the hopping rule satisfies detailed balance | proved | Metropolis_Inst | Without transition_probs. |
| C61 | Fermionic autoregressive masks sample exactly the electron sector | proved | AR_Props |  |
| C62 | S2 projection uses spin rotations of the orbitals | proved | Slater_Rot | cos and sin of the half angle are abstract field elements with ca^2+sa^2=1 for the overlap statement. |
| C63 | Pfaffian state is antisymmetric | proved | Pfaff_Props | When the value is a number (for singular matrices the code can return nan, C39). |
| C64 | Zero-magnetisation Pfaffian: rotation and determinant limit | proved | Pfaff_Props | cos and sin of the half angle are abstract field elements. |
| C65 | Both SR drivers pair samples with their own local energies | partial | SRR_Ranks | Each driver is right for one of the two layouts of local_estimators; whichever holds, the other driver mispairs energies. |
| C66 | SR-RMSProp returns the same update on all ranks | partial | SRR_Ranks | One rank, or mode real with as many samples per rank as parameters. Otherwise the receive buffer of the other ranks has the wrong length; in mode complex the transposition already fails on them. |
| C67 | GLM gradient and Hessian are the derivatives of the loss | proved | Sup_Glm_Grad | Over Coq's real numbers with the true exp, cos and sin; real data, and complex data with complex_expand. |
| C68 | A second GLM set-up keeps the weights found so far | partial | Sup_Glm_Props | False: weights is the array self.weights itself, which is filled with zeros before being copied to itself; every second set-up returns zero weights. |
| C69 | Each evaluation of the noise objective restarts from alpha_init | partial | Sup_Alpha | Holds only for precomputed features without bias; otherwise the property returns a fresh array and nothing is restored. |
| C71 | Setting up a GLM fit leaves the caller's weightings alone | partial | Sup_Glm_Props | Holds if all prior factors have modulus one (prior_mean = 0); otherwise multiplied in place, once more in each fit. |
| C72 | ARqGPSFull fast update equals full evaluation | proved | ARFull_Props | Values of all symmetry copies and the cache written, any chain length. The code divides by parameters: configurations whose factors vanish are excluded (nonvanishing). C72_same_model ties the evaluation to the model of C26 to C31. |
| C73 | SlaterqGPS fast update equals full evaluation | proved | Backflow_Props | Runs through configurations with invertible orbital matrices and non-vanishing qGPS factors; the last target may be singular. Determinants and exponentials instead of logs, exp a parameter. |
| C74 | Backflow fast update and Hartree-Fock initialisation | proved | Backflow_Props, HF_Props | Fast update for any correction module with a right fast update, and for the qGPS correction of the scripts (non-vanishing factors). Initial parameters without noise. With given orbitals the amplitude is the determinant of orbitals plus corrections. |
| C75 | BackflowJastrow is Jastrow times the sum of backflow determinants | partial | Backflow_Props | False: BackflowJastrow passes orbitals as the correction and the correction as orbitals and fails for all declared field values. With the fields exchanged by the caller the claim holds. |
| C76 | Antisymmetric qGPS amplitudes | partial | Asymm_Props | Antisymmetry and the odd product hold in general. The coefficient-weighted sum holds for one determinant or equal coefficients with as many determinants as symmetries; otherwise broadcasting weights wrongly or fails. sinh is an abstract odd function. |
| C77 | SRDense solves the linear system | partial | UQGT_Props | Holds for solvers returning a bare vector. The default pinv and NetKet's solvers return (x, info) and the code then fails on every input. |
| C78 | Geometric tensor over unique samples equals the one over raw samples | partial | UQGT_Props | Proved for the direct call, every multiset of samples and number of ranks. The partial application drops diag_shift. |
| C79 | SRRMSProp moments are convex combinations and its update solves the regularised system | proved | UQGT_Props | Any history, decay in [0,1), zero initial moments; calls with steps 0,1,2,…. |
| C80 | Sparsity and quality factors of the relevance vector machine are leave-one-out quantities | proved | Sup_RVM_Props | Exact Cholesky factor or exact inverse (contracts chol_ok, pinvh_ok, both met, see chol1_ok and invmx_ok). With complex_expand the code's s and q are half of the leave-one-out values of the real representation. |
| C81 | Every step of the relevance vector machine increases the evidence | partial | Sup_RVM_Ex, Sup_RVM_Props | Real parameters: the step is the best change of a single precision (except that the last feature is never removed), so the evidence never decreases over any number of steps. With complex parameters (complex_expand) a step can lower the evidence. |
| C82 | log_marg_lik is the logarithm of the evidence | partial | Sup_RVM_Ex2, Sup_RVM_Marg | Equal to the evidence for QGPSLearningExp (real and complex_expand) and QGPSLogSpaceFit (real). Integer weightings of QGPSLearningExp act as repeated data; those of QGPSLogSpaceFit do not, the data term lacks the weight (exact difference in C82_log_weights_partial). |
| C83 | log_marg_lik_alpha_der is the gradient of log_marg_lik | partial | Sup_RVM_AlphaDer | Holds for active features (QGPSLearningExp, QGPSLogSpaceFit, complex_expand). For an inactive feature with finite alpha (kernel or alpha beyond a cutoff) log_marg_lik is locally constant but the code returns 1/(2 alpha). |
| C86 | The noise derivative of QGPSLogSpaceFit is the derivative of its evidence | partial | Sup_RVM_Noise, Sup_RVM_Noise_Ex | False: the value is the derivative times noise^4, so it is right exactly at noise 1 or where the derivative vanishes. Real parameters, no weightings. |
| C87 | The noise derivative of QGPSLearningExp is the derivative of its evidence | partial | Sup_RVM_NoiseExp | False: the trace term is added with the wrong sign, so the value is too small whenever a feature is active (C87_exact gives equality otherwise). With iterative_noise_est and noise_reweighting the derivative is that of neither. Weightings 1, real parameters, positive noise, no kernel diagonal exactly at the cutoff. |
| C84 | The weights left by opt_alpha_beta belong to the precisions it leaves | partial | Sup_RVM_Exit | False: the last pass updates alpha and beta and does not refit. The weights are the posterior mean for the values one update earlier; they agree at a fixed point. Real parameters. |
| C85 | Fixed points of opt_alpha_beta are the stationary points of the evidence | partial | Sup_RVM_Exit, Sup_RVM_Fixed | Proved for active features when the Cholesky factorisation succeeded, real and complex_expand, unweighted data for QGPSLogSpaceFit, and for beta with real parameters and a non-zero target. Optimising beta with complex_expand raises on every input (K has half as many columns as there are weights). |
| C88 | opt_alpha_beta keeps precisions positive and within the cutoff | proved | Sup_RVM_Fixed, Sup_RVM_Hyper_Props | Any number of passes, real parameters and complex_expand. Optimising beta needs unweighted data with a non-zero target (and real parameters, see C85). Real arithmetic instead of floats. |
| C70 | The growing fit writes the optimum of the regularised loss | partial | Sup_RVM_Write | False with a non-zero prior mean: setup_fit subtracts the prior mean from the target, the write-back does not add it. C70_exact: the result is the optimum minus the prior mean; without prior mean it is the optimum. Real parameters, log-space fit. |
| C89 | On-the-fly energies from cached updates equal those from full evaluations | partial | Fast_Props | Proved for qGPS, PlaquetteqGPS (plaquettes without repeated sites), ARqGPSFull, Slater, SlaterqGPS and Backflow with all fermionic Hamiltonians and for qGPS with the Heisenberg ones, at configurations whose factors do not vanish (invertible orbital matrices). CPDBackflow: proved for the Hubbard model, false for the ab-initio energies, whose update lists repeat sites (refuted). |
| C90 | Every model has an on-the-fly local energy with its default settings | partial | Fast_Dispatch | SlaterJastrow, BackflowJastrow, ASymmqGPS, ASymmqGPSProd and ARqGPSModPhaseFull carry apply_fast_update=True but their __call__ accepts neither cache_intermediates nor update_sites, so the kernel raises (refuted; C90_default_kernels: exactly these five). For the others the energy is that of the amplitudes, under the contract of C89. |
| C91 | Autoregressive sampling returns the batch chain by chain | partial | Select_Props | _sample_next squeezes the chain axis instead of the length axis: right for one chain per rank, raises for any other number (refuted). |
| C92 | select_largest returns the most probable configurations | partial | Select_Props | Proved for n >= 1, for any argsort that is a permutation sorting the values. select_largest=0 returns the whole data set (refuted). |
| C93 | Initial parameters of qGPS models | partial | Init_Props | The branch is chosen by the dtype given to normal(), not by the one of the parameter: with the default normal() (SlaterqGPS) complex parameters are 1 + sigma z and not of unit modulus (refuted). orthogonal: contract of jax.nn.initializers.orthogonal assumed. |
| C94 | The backflow model of the scripts starts from the Hartree-Fock determinant | partial | HF_Props | Generalised orbitals read from a file with n_up != n_dn: the down block is cut at the wrong column and the assignment raises (unless n_dn = 1) (refuted). Generalised determinant with restricted Hartree-Fock orbitals raises. |
| C96 | spin_spin_correlation is the spin-spin correlation of the state | proved | Corr_Props | P_B symmetric (as in all uses). C96_only_singlets: for a triplet the function returns <S.S>/3, which differs from <Sz Sz>. |
| C97 | The density matrices of the script are the sample averages of the operators | partial | RDM_Props | rdm1 is right up to the number of samples: with several ranks n_samples is a total, so sums over all samples are divided by too much (refuted), and with chunk sizes not divisible by the number of chains. rdm2 is right after symmetrising over exchange of the index pairs only (refuted otherwise). |
| C99 | The environment of an orbital consists of its strongest exchange partners | partial | Select_Props | The sorting is right (k >= 1). The matrix is transformed twice to local orbitals and never to canonical ones, so the exchange matrix of the basis is used only if the basis is that of the atomic orbitals (refuted). |
| C95 | get_J1_J2_Hamiltonian is the J1-J2 Heisenberg model | partial | J1J2_Build_Props | on_the_fly_en=True: HeisenbergOnTheFly derives from LocalOperator and cannot be constructed with J and sign_rule (refuted, library contract in J1J2_Build_Model). Otherwise right; C95_on_the_fly_partial: with the operators of Heisenberg the kernel would give the same energy. |
| C98 | Boundary conditions of the Hubbard lattices of the scripts | partial | Lattice_Props | ARGPS chain with pbc=False keeps the bond between the ends (C98_argps_open: exactly this extra term; refuted). Everything else proved for lengths of at least three. |
| C100 | The beta derivative of the generalised linear model is the derivative of its evidence | partial | Sup_Glm_Ev, Sup_Glm_Ev_Props | Proved for real parameters. Complex parameters: log_marg_lik is the Laplace approximation, but the derivative misses a factor 1/2 on sum(gamma), so it is right only if gamma = 0 (C100_complex_iff; refuted). |
| C101 | Reweighted least squares steps descend to the minimum of the loss | partial | Sup_Glm_Irls, Sup_Glm_Irls_Ex | Proved for real data when the inactive weights are zero. Otherwise the residual includes the inactive weights but the right-hand side of the step does not compensate for them and a stationary point is not a fixed point (refuted). |
| C102 | Zero amplitudes enter the log-space fit as the limit of small amplitudes | partial | Sup_Zero, Sup_Zero_Props | Proved for real parameters, positive noise, with or without noise reweighting, without weightings and without the iterative noise estimate. With weightings the target of a zero amplitude is not weighted (C102_weighted: exact error; refuted) and log_marg_lik raises (C102_evidence_raises); with the iterative estimate and without noise there is no limit (refuted). |
| C103 | Complex amplitudes of the autoregressive models | partial | AR_Phase | Proved for ARqGPS. The modulus-phase models evaluate their phase qGPS without the symmetries, so with apply_symmetries their amplitude is not invariant (refuted; exact condition in C103_modphase_partial). |
| C104 | Check-pointed optimisation of the ab-initio scripts | partial | Ckpt_Props | H2O.py, H50_1D.py: best parameters and stopping rule proved through any interruptions between or during evaluations; the counter after a restart is ahead by one, a single line cannot be read back, a kill between best_pars.pickle and its line breaks the claim (refuted). H4x4x4.py: exact content of best_pars.pickle (initial parameters if iteration min_global_count is the best), restart keeps the best variance only in a tie, can stop at once or forget (refuted). |
| C105 | Resumed training of the autoregressive models | proved | Vmc_Script_Props | The random numbers of a step are taken to be the same in whichever session it is done (the sampler state is not check-pointed); contract of flax save_checkpoint/restore_checkpoint: the latest one. |
| C106 | Resumed training and best parameters of the backflow models | partial | Vmc_Backflow_Props | Proved for drivers without a running average and the training loop unless exactly one step is missing. VMC_SRRMSProp loses its running average; one missing step is never done; a restart within descent finishing leaves out a step and shifts the labels; best_params pairs the energy of a step with the parameters after its update and is undominated rather than lowest in energy (all refuted, with exact statements). |
| C107 | Progress timer of the training scripts | partial | Timer_Props | Proved for runs from step 1 and for durations that are not negative. A resumed run divides its first run time by the step number; in descent finishing the remaining time is negative and is printed as a positive one (refuted). |
| C108 | Models and reference states of the H2O script | partial | H2O_Ref_Props | Proved where the Hartree-Fock amplitude does not vanish; where it does the Pfaffian can be nan because of the missing pivoting guard (refuted). Updates: n_elec up = down, amplitudes of the cached determinants nonsingular. |
| C109 | One-body density matrices of the H4x4x4 script | proved | H4_Props | C109_exact: real amplitudes, weights psi^2. |
| C110 | The Metropolis sampler in the presence of zero amplitudes | partial | Metro_Inf_Props | Proved for cached updates that are right from every configuration visited (good = non-zero amplitude for a chain started there, every configuration for a start at a zero). False for qGPS with a zero parameter: 0/0 makes every update nan and the chain never moves although all amplitudes are positive. |
| C111 | The gradient of the energy is its derivative | partial | Energy_Grad_Props | Without zeros of the wave function the gradient is the derivative; in general the terms of the never sampled zeros are missing (C111_exact states them), and C111_refuted shows a zero where the gradient is 0 and the derivative 2. |
| C112 | The models of the ARGPS scripts have the symmetries asked for | partial | Argps_Props | Proved for every model but FilterGPS, on spins (the only systems for which a graph is passed). FilterGPS has the translations of its graph only, whatever is asked for: spin inversion refuted. |
| C113 | Filters of the autoregressive filter models | proved | Argps_Filter | Contract of NetKet: the translations of a periodic lattice form a group with exactly one translation of site 0 to any site. |
| C114 | The spectrum does not depend on the orbital basis | proved | Basis_Props | Square bases (as many orbitals as atomic functions), exact arithmetic, a field where 2 is invertible; pair symmetry (pq/rs) = (rs/pq) of the repulsion integrals. |
| C115 | Integrals kept on disk belong to one run and one orthonormal basis | partial | Basis_Files | np.save of one file is atomic. The exchange matrix belongs to the basis in local bases; in the canonical basis the matrix over atomic orbitals is stored (refuted). A run restarted with another type of basis gets the old basis (refuted). |
| C116 | Pruning small integrals changes energies by at most the threshold times the number of integrals | proved | Prune_Props | Energies as exact sums over the electron sector, integrals in any field with absolute value; pair symmetry (pq/rs) = (rs/pq). |
| C117 | Hydrogen sheets and their radial correlations | proved | Sheet_Props | Exact square root. The outer correlations are sums over the four neighbours, not averages over pairs (C117_constant). |
| C118 | The ARGPS scripts sample directly only from models they normalise | partial | Dispatch_Props | Proved for the configurations as shipped, with any symmetries; spins in the sector of zero magnetisation. The guard of get_sampler tests an entry no configuration has, so an overridden sampler name is accepted for MaskedGPS and its samples do not follow psi^2 (refuted). |
| C119 | Stochastic reconfiguration updates lower the energy | partial | Descent_Props, MinSR_Descent_Props | Exact samples: weights equal to psi^2 / norm, for the driver sample frequencies equal to them. The minSR update is a descent direction for equal weights and complex parameters (or real amplitudes); with the weights of MCStateUniqueSamples and with real parameters of complex amplitudes it can point uphill (refuted). |
| C120 | PixelCNN with a gauge constraint is a normalised, exactly sampled state | partial | Pixel_Props | Proved for causal constraints, shown to include zero magnetisation; a gauge function that reads the whole configuration, which the interface allows, gives a state of norm /S//D^N instead of one and nan amplitudes (refuted). Odd kernel sizes, as C42. netket's __call__ and _conditional are modelled from their documentation. |
| C121 | The energy estimate does not depend on chunks and has an honest error bar | proved | Expect_Props | NetKet's chunking and statistics are modelled from their documented behaviour; the error estimate from blocks of few long chains is not modelled. Hubbard graphs without self loops (C07). With use_fast_update under the contracts proved in C89. |
| C122 | The minSR driver reports mean, variance and error of its energy samples | partial | MinSR_Stats_Props | Mean and variance are proved. The reported error is wrong: the flattened energies are reshaped to one row and the number of rows is taken as the number of samples, so that the squared error is the variance over the number of ranks, larger than the standard error by the number of samples per rank (C122_error_wrong, for every input with non-zero variance). |
| C123 | The Metropolis sampler with the hopping rule is ergodic and its averages converge | partial | Chain_Props | One chain, positive amplitudes, no transition_probs (distance-dependent hops), hop_probability > 0. False for two sites with equal amplitudes, no full spin species and an even sweep size (also NetKet's default, the number of sites): the chain alternates and the returned samples never leave the start (C123_dimer_refuted). False for hop_probability = 0 (the number of doubly occupied sites never changes). |
| C124 | The exchange sampler is ergodic on a connected lattice and its averages converge | partial | Exchange_Chain_Props | One chain, positive amplitudes. The averages are proved to converge when some local state occurs twice or the sweep size is odd. False otherwise: for two sites with opposite spins, equal amplitudes and an even sweep size (also NetKet's default, the number of sites) the returned samples never leave the start. compute_clusters of NetKet is not modelled, the list of pairs is arbitrary. By C23 the chain never leaves the rearrangements of its start. |
| C125 | Mini-batches of the state-fitting driver represent the |y|^2-weighted loss | partial | MiniBatch_Props | The weighted loss is the expected one exactly when the mini-batch has one item or all /y/^2 agree (C125_weighted_partial, C125_biased): drawing without replacement gives the most probable item too small a weight, and a batch of the whole data set ignores /y/^2 (C125_full). In general the weights grow with /y/^2 and none exceeds 1/mini_batch_size (C125_inclusion). One rank; jax.random.choice without replacement is taken to be successive draws. |
| C126 | No random key is consumed twice | partial | Keys_Props | Proved for the Metropolis sampler with both rules and for the autoregressive sampler, any number of chains, steps, sites and calls, together with every later proper use of the key left. False for the fermionic random states, the mini-batches and stratified sampling, which draw with a key and split it again; there only distinct keys per draw (random states, mini-batches) hold. |
| C127 | The random samples of the stratified norm estimate are independent | partial | Keys_Props | False: random_state walks along the same chain of keys as the rejection loop, so each turn of the loop proposes the candidates of the turn before shifted by one, and successive evaluations repeat each other's samples, for every generator. What holds: number and support of the samples. |
| C128 | The mean over unique samples is an unbiased estimate | partial | UniqueBias_Props | False: sampling stops at the n_samples-th different configuration, which correlates the number of raw samples with their values. C128_two is the exact expectation for two unique samples, any space and any number of draws: rare configurations get too much weight (C128_rare_overweighted). Unbiased if sampling is never cut short (more unique samples asked for than configurations, or no more draws than samples); the sums over the raw samples are right on average for every n_samples (C128_raw_sums). Missing: the exact bias for more than two unique samples. |
| C129 | The mean of stratified sampling is an unbiased estimate | partial | StratBias_Props | False with renormalize=True, for both values of rand_norm: the norm is estimated and divided by; witness with three configurations. What holds: the mean is unbiased for normalised models (renormalize=False); the norm estimate from random samples is unbiased; the reciprocal of the harmonic norm estimate is unbiased; all for any number of ranks and samples and any dependence among the samples. |
| C130 | The pytrees of minSRVMC do not depend on the mode, and its loss gradient is the gradient | partial | MinSR_Pytree_Props | The update does not depend on the mode (all weights, ranks, chunks, exact least-squares solvers). The gradient is false: the log-derivatives are not conjugated (L109), so in mode holomorphic _loss_grad is right only for real log-derivatives, and in mode complex it is zero for every holomorphic amplitude. nk.jax.tree_to_real is modelled from its documentation. |
| C131 | VMC_SRRMSProp returns the complex SR update for complex parameters | partial | SRR_Pytree_Props | Holds in mode complex, for every exact solver. False in mode real (the default for amplitudes with real values): the updates of complex parameters are not repacked (L72) and do not fit the parameters, and C131_shape shows that this is the only case. The columns of nk.jax.jacobian for complex parameters are modelled from its documentation. |
| C132 | The SRRMSProp preconditioner validates its shift, and a call that raises leaves it unchanged | partial | SRPre_Props | The shift is validated as claimed, after every history of successful and failing calls. False: the moving average is updated (L80) before step and schedule are checked, so a call that raises has already added its gradient; C132_failed_state says exactly what a failed call changes, and C132_retry that a repeated first call solves with 1 + decay times the squared gradient. One complex leaf of parameters; assignments to diag_shift from outside are not modelled. |

## 6. Assumptions of every theorem

`-` means closed under the global context; abbreviations as in section 1.

| theorem | file | Print Assumptions |
|---|---|---|
| C01_apply_hopping_is_fermionic_hop | Hubbard_Props | - |
| C01_apply_hopping_ket | Hubbard_Props | - |
| C02_none_branch_refuted | Hubbard_Props | - |
| C02_none_branch_partial | Hubbard_Props | - |
| C03_hubbard_conn_is_hamiltonian | Hubbard_Props | - |
| C03_hubbard_batch_is_hamiltonian | Hubbard_Props | - |
| C04_hubbard_sector | Hubbard_Props | - |
| C04_ab_initio_sector | AbInitio_Props | - |
| C05_hubbard_symmetric | Hubbard_Props | - |
| C06_hubbard_sections_partial | Hubbard_Props | - |
| C06_hubbard_sections_refuted | Hubbard_Props | - |
| C07_hubbard_on_the_fly_partial | Hubbard_Props | - |
| C07_hubbard_on_the_fly_hamiltonian_partial | Hubbard_Props | - |
| C07_hubbard_self_loop_refuted | Hubbard_Props | - |
| C08_ab_initio_conn_is_molecular_hamiltonian | AbInitio_Props | - |
| C08_ab_initio_batch_is_molecular_hamiltonian | AbInitio_Props | - |
| C09_ab_initio_buffers_exact | AbInitio_Props | - |
| C10_ab_initio_on_the_fly_hamiltonian | AbInitio_Props | - |
| C10_ab_initio_on_the_fly_connected | AbInitio_Props | - |
| C11_local_rdms | AbInitio_Props | - |
| C12_sparse_energy_hamiltonian | Sparse_Props | - |
| C12_sparse_energy_equals_dense | Sparse_Props | - |
| C13_one_body_storage_lossless | Sparse_Props | - |
| C13_two_body_storage_lossless | Sparse_Props | - |
| C14_double_hop_updates | AbInitio_Props | - |
| C15_heisenberg_on_the_fly | J1J2_Props | - |
| C15_heisenberg_on_the_fly_netket | J1J2_Props | - |
| C15_netket_index_order_refuted | J1J2_Props | - |
| C16_asep_generator | Asep_Props | - |
| C16_asep_probability_conserved | Asep_Props | - |
| C16_asep_exclusion | Asep_Props | - |
| C17_asep_is_hermitian_refuted | Asep_Props | - |
| C17_asep_symmetric_partial | Asep_Props | - |
| C17_asep_flag_partial | Asep_Props | - |
| C18_asep_sections | Asep_Props | - |
| C19_hopping_sector_partial | Rule_Props | - |
| C19_draws_normalised | Rule_Props | - |
| C19_empty_configuration_refuted | Rule_Props | - |
| C20_hopping_symmetric | Rule_Props | - |
| C21_transition_probs_refuted | Rule_Props | - |
| C21_transition_probs_iff_partial | Rule_Props | - |
| C21_transition_probs_partial | Rule_Props | - |
| C22_hopping_update_sites | Rule_Props | - |
| C22_hopping_batch | Rule_Props | - |
| C22_exchange_update_sites | Rule_Props | - |
| C23_exchange_permutation | Rule_Props | - |
| C23_exchange_symmetric | Rule_Props | - |
| C24_fast_metropolis_steps | Metropolis_Props | - |
| C24_fast_metropolis_calls | Metropolis_Props | - |
| C24_hopping_rule_contract | Metropolis_Inst | - |
| C24_exchange_rule_contract | Metropolis_Inst | - |
| C24_arfull_contract | ARFull_Props | - |
| C25_batch_choice_partial | Choice_Props | - |
| C25_zero_draw | Choice_Props | - |
| C25_zero_probability_refuted | Choice_Props | - |
| C26_sampling_probability | AR_Props | - |
| C26_symmetrised_sampling | AR_Props | - |
| C26_normalised | AR_Props | - |
| C26_spin_sampler | AR_Props | - |
| C26_electron_sampler | AR_Props | - |
| C27_conditionals_causal | AR_Props | - |
| C27_script_plaquettes | AR_Props | - |
| C28_cached_conditionals | AR_Props | - |
| C29_zero_magnetisation | AR_Props | - |
| C30_unconstrained_positive_partial | AR_Props | - |
| C30_small_systems_refuted | AR_Props | - |
| C31_triangular_packing | AR_Props | - |
| C32_qgps_fast_update | QGPS_Props | - |
| C32_qgps_update_chain | QGPS_Props | - |
| C32_repeated_new_value_refuted | QGPS_Props | - |
| C24_qgps_contract | QGPS_Props | - |
| C33_symmetrised_invariant | QGPS_Props | - |
| C33_qgps_invariant | QGPS_Props | - |
| C34_plaquette_fast_update_partial | Plaq_Props | - |
| C34_plaquette_cache_partial | Plaq_Props | - |
| C34_plaquette_update_chain_partial | Plaq_Props | - |
| C34_repeated_plaquette_site_refuted | Plaq_Props | - |
| C34_cached_configuration_refuted | Plaq_Props | - |
| C35_cpd_fast_update_partial | CPD_Props | - |
| C35_cpd_update_chain_partial | CPD_Props | - |
| C35_repeated_site_refuted | CPD_Props | - |
| C36_occupancies_to_electrons | Elec_Props | - |
| C37_slater_full_evaluation | Slater_Props | - |
| C37_slater_fast_update | Slater_Props | - |
| C37_block_orbitals | Asymm_Props | - |
| C38_slater_cache_run | Slater_Props | - |
| C38_cached_inverse | Slater_Props | - |
| C39_log_pfaffian_partial | Pfaff_Props | - |
| C39_singular_partial | Pfaff_Props | - |
| C39_two_by_two | Pfaff_Props | - |
| C39_congruence_partial | Pfaff_Props | - |
| C39_singular_nan_refuted | Pfaff_Props | - |
| C40_spin_exchange | Jastrow_Props | - |
| C40_symmetric_part | Jastrow_Props | - |
| C40_value | Jastrow_Props | - |
| C41_fermion_counters_partial | Seg_Props | - |
| C41_many_electrons_refuted | Seg_Props | - |
| C41_spin_counters | Seg_Props | - |
| C41_value | Seg_Props | - |
| C42_vertical_partial | Causal_Props | - |
| C42_horizontal_partial | Causal_Props | - |
| C42_layer_partial | Causal_Props | - |
| C42_pixelcnn_partial | Causal_Props | - |
| C42_even_kernel_refuted | Causal_Props | - |
| C43 | Unique_Props | - |
| C43_expect | Unique_Props | - |
| C43_defined | Unique_Props | - |
| C43_zero_steps | Unique_Props | - |
| C44_complement | Strat_Props | - |
| C44_random | Strat_Props | - |
| C44_kernel | Strat_Props | - |
| C44_sum | Strat_Props | - |
| C44_exact | Strat_Props | - |
| C44_nonneg | Strat_Props | - |
| C45_partial | MinSR_Props | - |
| C45_one_chain | MinSR_Props | - |
| C45_refuted | MinSR_Props | - |
| C46_partial | MinSR_SR | - |
| C46_unscaled_partial | MinSR_SR | - |
| C46_shift_partial | MinSR_SR | - |
| C46_complex_update_partial | MinSR_SR | - |
| C46_plain_partial | MinSR_SR | - |
| C46_counts_refuted | MinSR_SR | - |
| C46_real_refuted | MinSR_SR | - |
| C47_partial | SRR_Props | - |
| C47_range_partial | SRR_Props | - |
| C47_nonneg | SRR_Props | - |
| C47_posdef | SRR_Props | - |
| C47_solvable | SRR_Props | - |
| C47_equation | SRR_Props | - |
| C47_initial_scale_refuted | SRR_Props | - |
| C47_reset_refuted | SRR_Props | - |
| C48_dense | QGT_Props | - |
| C48_onthefly_complex | QGT_Props | - |
| C48_onthefly_real | QGT_Props | - |
| C48_same | QGT_Props | - |
| C49_constraint_is_sector | Hilbert_Props | - |
| C49_equal_constraints_hash_equal | Hilbert_Props | - |
| C49_random_state_constrained | Hilbert_Props | - |
| C49_random_state_free | Hilbert_Props | - |
| C49_random_state_onto | Hilbert_Props | - |
| C50_pow_unconstrained_partial | Hilbert_Props | - |
| C50_pow_constrained_fails | Hilbert_Props | - |
| C50_pow_refuted | Hilbert_Props | - |
| C51_partial | Sup_Cache | - |
| C51_stale_refuted | Sup_Cache | - |
| C51_alias_refuted | Sup_Cache | - |
| C52_predict | Sup_Cache | - |
| C52_independent | Sup_Cache | - |
| C53_minimal_partial | Sup_Fit_Props | - |
| C53_expand_partial | Sup_Fit_Expand | - |
| C53_rule | Sup_Fit_Props | - |
| C53_rulex | Sup_Fit_Expand | - |
| C53_weights | Sup_Fit_Props | - |
| C53_step | Sup_Fit_Step | - |
| C53_half_refuted | Sup_Fit_Step | - |
| C54_noop | Sup_Glm_Props | - |
| C54_lost | Sup_Glm_Props | - |
| C54_refuted | Sup_Glm_Props | - |
| C55_partial | Sup_Alpha | - |
| C55_bias_partial | Sup_Alpha | - |
| C55_shift | Sup_Alpha | - |
| C55_round_trip | Sup_Alpha | - |
| C55_set_frame | Sup_Alpha | - |
| C55_refuted | Sup_Alpha | - |
| C56_to_config | H2O_Props | - |
| C57_step_partial | Imag_Props | - |
| C57_log_step | Imag_Props | - |
| C57_nested_error | Imag_Props | - |
| C57_nested_refuted | Imag_Props | - |
| C58_partition_partial | Split_Props | - |
| C58_balanced_partial | Split_Props | - |
| C58_pairs_partial | Split_Props | - |
| C58_gradient_partial | Split_Props | - |
| C58_gradient_wrong | Split_Props | - |
| C58_gradient_refuted | Split_Props | - |
| C59_ab_initio_symmetric | AbInitio_Props | - |
| C60_hopping_detailed_balance | Metropolis_Inst | - |
| C61_electron_sector | AR_Props | - |
| C62_rotation | Slater_Rot | - |
| C62_orthonormal | Slater_Rot | - |
| C63_antisymmetric | Pfaff_Props | - |
| C63_pauli | Pfaff_Props | - |
| C64_rotation | Pfaff_Props | - |
| C64_zero_magnetization | Pfaff_Props | - |
| C65_partial | SRR_Ranks | - |
| C65_refuted | SRR_Ranks | - |
| C66_partial | SRR_Ranks | - |
| C66_repack | SRR_Ranks | - |
| C66_refuted | SRR_Ranks | - |
| C66_complex_fails | SRR_Ranks | - |
| C67_gradient | Sup_Glm_Grad | not, sig, fun |
| C67_hessian | Sup_Glm_Grad | not, sig, fun |
| C67_symmetric | Sup_Glm_Grad | not, sig, fun |
| C67_gradientx | Sup_Glm_Grad | not, sig, fun |
| C67_hessianx | Sup_Glm_Grad | not, sig, fun |
| C67_symmetricx | Sup_Glm_Grad | not, sig, fun |
| C67_expand | Sup_Glm_Grad | sig, fun |
| C68_erased | Sup_Glm_Props | - |
| C68_refuted | Sup_Glm_Props | - |
| C69_partial | Sup_Alpha | - |
| C69_noop | Sup_Alpha | - |
| C69_refuted | Sup_Alpha | - |
| C71_partial | Sup_Glm_Props | - |
| C71_modified | Sup_Glm_Props | - |
| C71_refuted | Sup_Glm_Props | - |
| C72_arfull_fast_update | ARFull_Props | - |
| C72_arfull_update_chain | ARFull_Props | - |
| C72_same_model | ARFull_Props | - |
| C73_slater_qgps_fast_update | Backflow_Props | - |
| C73_slater_qgps_run | Backflow_Props | - |
| C74_backflow_fast_update | Backflow_Props | - |
| C74_backflow_update_chain | Backflow_Props | - |
| C74_initial_restricted | Backflow_Props | - |
| C74_initial_unrestricted | Backflow_Props | - |
| C74_initial_general | Backflow_Props | - |
| C74_orbitals_restricted | HF_Props | - |
| C74_orbitals_unrestricted | HF_Props | - |
| C74_orbitals_general | HF_Props | - |
| C75_exchanged_fields_partial | Backflow_Props | - |
| C75_backflow_jastrow_fails | Backflow_Props | - |
| C75_backflow_jastrow_refuted | Backflow_Props | - |
| C76_one_determinant_partial | Asymm_Props | - |
| C76_equal_coefficients_partial | Asymm_Props | - |
| C76_no_symmetries | Asymm_Props | - |
| C76_shape_mismatch | Asymm_Props | - |
| C76_default_coefficients | Asymm_Props | - |
| C76_product | Asymm_Props | - |
| C76_antisymmetric | Asymm_Props | - |
| C76_product_antisymmetric | Asymm_Props | - |
| C76_coefficients_refuted | Asymm_Props | - |
| C77_sr_dense_partial | UQGT_Props | - |
| C77_pinv | UQGT_Props | - |
| C77_sr_dense_default_fails | UQGT_Props | - |
| C77_sr_dense_netket_solvers_fail | UQGT_Props | - |
| C77_sr_dense_default_refuted | UQGT_Props | - |
| C78_unique_qgt | UQGT_Props | - |
| C78_partial_application_refuted | UQGT_Props | - |
| C79_moments | UQGT_Props | - |
| C79_moments_real | UQGT_Props | - |
| C79_update | UQGT_Props | - |
| C79_step_default | UQGT_Props | - |
| C80 | Sup_RVM_Props | sig, fun, eps |
| C80_expand | Sup_RVM_Props | sig, fun, eps |
| C81 | Sup_RVM_Props | not, sig, fun, eps, cla |
| C81_monotone | Sup_RVM_Props | not, sig, fun, eps, cla |
| C81_expand_refuted | Sup_RVM_Ex | not, sig, fun, eps, cla |
| C82_exp | Sup_RVM_Marg | not, sig, fun, eps, cla |
| C82_log | Sup_RVM_Marg | not, sig, fun, eps, cla |
| C82_expand | Sup_RVM_Marg | not, sig, fun, eps, cla |
| C82_exp_weights | Sup_RVM_Marg | not, sig, fun, eps, cla |
| C82_log_weights_partial | Sup_RVM_Marg | not, sig, fun, eps, cla |
| C82_log_weights_refuted | Sup_RVM_Ex2 | not, sig, fun, eps, cla |
| C83_exp_partial | Sup_RVM_AlphaDer | not, sig, fun, eps, cla |
| C83_log_partial | Sup_RVM_AlphaDer | not, sig, fun, eps, cla |
| C83_expand_partial | Sup_RVM_AlphaDer | not, sig, fun, eps, cla |
| C83_inactive | Sup_RVM_AlphaDer | not, sig, fun, eps, cla |
| C83_refuted | Sup_RVM_AlphaDer | not, sig, fun, eps, cla |
| C86_partial | Sup_RVM_Noise | not, sig, fun, eps, cla |
| C86_exact | Sup_RVM_Noise | not, sig, fun, eps, cla |
| C86_refuted | Sup_RVM_Noise_Ex | not, sig, fun, eps, cla |
| C87_partial | Sup_RVM_NoiseExp | not, sig, fun, eps, cla |
| C87_exact | Sup_RVM_NoiseExp | not, sig, fun, eps, cla |
| C87_refuted | Sup_RVM_NoiseExp | not, sig, fun, eps, cla |
| C87_reweight_refuted | Sup_RVM_NoiseExp | not, sig, fun, eps, cla |
| C84_partial | Sup_RVM_Exit | sig, fun, eps |
| C84_fixed_point | Sup_RVM_Exit | sig, fun, eps |
| C84_refuted | Sup_RVM_Exit | not, sig, fun, eps |
| C85_rvm_log | Sup_RVM_Fixed | not, sig, fun, eps, cla |
| C85_shared_log | Sup_RVM_Fixed | not, sig, fun, eps, cla |
| C85_beta | Sup_RVM_Fixed | not, sig, fun, eps, cla |
| C85_rvm_exp | Sup_RVM_Fixed | not, sig, fun, eps, cla |
| C85_shared_exp | Sup_RVM_Fixed | not, sig, fun, eps, cla |
| C85_rvm_expand | Sup_RVM_Fixed | not, sig, fun, eps, cla |
| C85_shared_expand | Sup_RVM_Fixed | not, sig, fun, eps, cla |
| C85_expand_fails | Sup_RVM_Fixed | sig, fun, eps |
| C85_expand_refuted | Sup_RVM_Exit | not, sig, fun, eps |
| C88_real | Sup_RVM_Hyper_Props | sig, fun, eps |
| C88_expand | Sup_RVM_Fixed | sig, fun, eps |
| C70_exact | Sup_RVM_Write | fun |
| C70_partial | Sup_RVM_Write | fun |
| C70_refuted | Sup_RVM_Write | fun |
| C89_contract_suffices | Fast_Props | - |
| C89_hubbard | Fast_Props | - |
| C89_qgps | Fast_Props | - |
| C89_plaquette | Fast_Props | - |
| C89_arfull | Fast_Props | - |
| C89_slater | Fast_Props | - |
| C89_slater_qgps | Fast_Props | - |
| C89_backflow | Fast_Props | - |
| C89_cpd_hubbard_partial | Fast_Props | - |
| C89_heisenberg | Fast_Props | - |
| C89_heisenberg_qgps | Fast_Props | - |
| C89_cpd_ab_initio_refuted | Fast_Props | fun |
| C90_kernel_hubbard | Fast_Dispatch | - |
| C90_kernel_ab_initio | Fast_Dispatch | - |
| C90_default_kernels | Fast_Dispatch | - |
| C90_default_kernel_raises_refuted | Fast_Dispatch | - |
| C91_sample_chain | Select_Props | - |
| C91_sample_next_partial | Select_Props | - |
| C91_sample_next_fails | Select_Props | - |
| C91_sample_next_refuted | Select_Props | - |
| C92_select_largest | Select_Props | - |
| C92_none | Select_Props | - |
| C92_zero | Select_Props | - |
| C92_zero_refuted | Select_Props | - |
| C93_real | Init_Props | sig, fun, eps |
| C93_complex_partial | Init_Props | not, sig, fun, eps |
| C93_complex_default | Init_Props | sig, fun, eps |
| C93_complex_refuted | Init_Props | not, sig, fun, eps |
| C93_term | Init_Props | not, sig, fun, eps |
| C93_orthogonal | Init_Props | sig, fun, eps |
| C93_shape | Init_Props | sig, fun, eps |
| C94_file_restricted | HF_Props | - |
| C94_file_unrestricted | HF_Props | - |
| C94_file_general_partial | HF_Props | - |
| C94_file_general_fails | HF_Props | - |
| C94_file_general_refuted | HF_Props | - |
| C94_hubbard_restricted | HF_Props | - |
| C94_hubbard_unrestricted | HF_Props | - |
| C94_hubbard_general | HF_Props | - |
| C94_hubbard_restricted_general_fails | HF_Props | - |
| C96_spin_correlation | Corr_Props | - |
| C96_singlet | Corr_Props | - |
| C96_sites | Corr_Props | - |
| C96_only_singlets | Corr_Props | - |
| C97_rdm1 | RDM_Props | - |
| C97_rdm2_partial | RDM_Props | - |
| C97_rdm2_refuted | RDM_Props | - |
| C97_trace | RDM_Props | - |
| C97_trace_partial | RDM_Props | - |
| C97_trace_refuted | RDM_Props | - |
| C99_top_k | Select_Props | - |
| C99_matrix_used | Select_Props | - |
| C99_exchange_partial | Select_Props | - |
| C99_exchange_refuted | Select_Props | - |
| C95_hamiltonian | J1J2_Build_Props | - |
| C95_marshall | J1J2_Build_Props | - |
| C95_on_the_fly_partial | J1J2_Build_Props | - |
| C95_on_the_fly_fails | J1J2_Build_Props | - |
| C95_on_the_fly_refuted | J1J2_Build_Props | - |
| C98_gauge | Lattice_Props | - |
| C98_argps_periodic | Lattice_Props | - |
| C98_argps_open | Lattice_Props | - |
| C98_argps_open_refuted | Lattice_Props | - |
| C98_chain | Lattice_Props | - |
| C98_chain_uniform | Lattice_Props | - |
| C98_grid | Lattice_Props | - |
| C98_grid_seam | Lattice_Props | - |
| C100_real | Sup_Glm_Ev | not, sig, fun, eps, cla |
| C100_complex | Sup_Glm_Ev | not, sig, fun, eps, cla |
| C100_complex_iff | Sup_Glm_Ev | not, sig, fun, eps, cla |
| C100_laplace | Sup_Glm_Ev_Props | not, sig, fun, eps, cla |
| C100_laplacex | Sup_Glm_Ev_Props | not, sig, fun, eps, cla |
| C100_refuted | Sup_Glm_Ev_Props | not, sig, fun, eps, cla |
| C101_step | Sup_Glm_Irls | not, sig, fun, eps, cla |
| C101_fixed | Sup_Glm_Irls | not, sig, fun, eps, cla |
| C101_descent | Sup_Glm_Irls | not, sig, fun, eps, cla |
| C101_inactive | Sup_Glm_Irls | not, sig, fun, eps, cla |
| C101_refuted | Sup_Glm_Irls_Ex | not, sig, fun, eps, cla |
| C102_limit_partial | Sup_Zero | not, sig, fun, cla |
| C102_weighted | Sup_Zero | not, sig, fun, cla |
| C102_weighting_refuted | Sup_Zero_Props | not, sig, fun, cla |
| C102_iterative_refuted | Sup_Zero_Props | not, sig, fun, cla |
| C102_noiseless_refuted | Sup_Zero_Props | not, sig, fun, cla |
| C102_evidence_raises | Sup_Zero_Props | sig, fun |
| C103_modulus | AR_Phase | not, sig, fun, eps |
| C103_invariant | AR_Phase | not, sig, fun, eps |
| C103_phase | AR_Phase | not, sig, fun, eps |
| C103_phase_plain | AR_Phase | not, sig, fun, eps |
| C103_spin_norm | AR_Phase | not, sig, fun, eps |
| C103_electron_norm | AR_Phase | not, sig, fun, eps |
| C103_modphase_modulus | AR_Phase | not, sig, fun, eps |
| C103_modphase_partial | AR_Phase | not, sig, fun, eps |
| C103_modphase_refuted | AR_Phase | not, sig, fun, eps |
| C104_best_parameters | Ckpt_Props | - |
| C104_patience | Ckpt_Props | - |
| C104_restart | Ckpt_Props | - |
| C104_single_line_refuted | Ckpt_Props | - |
| C104_count_refuted | Ckpt_Props | - |
| C104_killed_late_refuted | Ckpt_Props | - |
| C104_cubic_partial | Ckpt_Props | - |
| C104_cubic_restart | Ckpt_Props | - |
| C104_cubic_refuted | Ckpt_Props | - |
| C104_cubic_stop_refuted | Ckpt_Props | - |
| C104_cubic_forget_refuted | Ckpt_Props | - |
| C105_checkpoint | Vmc_Script_Props | - |
| C105_rows | Vmc_Script_Props | - |
| C105_repeated | Vmc_Script_Props | - |
| C105_complete | Vmc_Script_Props | - |
| C106_best_partial | Vmc_Backflow_Props | - |
| C106_undominated | Vmc_Backflow_Props | - |
| C106_checkpoint_partial | Vmc_Backflow_Props | - |
| C106_rows_partial | Vmc_Backflow_Props | - |
| C106_complete_partial | Vmc_Backflow_Props | - |
| C106_last_step | Vmc_Backflow_Props | - |
| C106_descent | Vmc_Backflow_Props | - |
| C106_last_step_refuted | Vmc_Backflow_Props | - |
| C106_ema_refuted | Vmc_Backflow_Props | - |
| C106_best_refuted | Vmc_Backflow_Props | - |
| C106_descent_refuted | Vmc_Backflow_Props | - |
| C107_runtime | Timer_Props | - |
| C107_resumed_partial | Timer_Props | - |
| C107_resumed_refuted | Timer_Props | - |
| C107_descent_refuted | Timer_Props | - |
| C107_printed | Timer_Props | - |
| C107_printed_refuted | Timer_Props | - |
| C108_pfaffian_qgps_update | H2O_Ref_Props | - |
| C108_pfaffian_qgps_chain | H2O_Ref_Props | - |
| C108_slater_qgps_update | H2O_Ref_Props | - |
| C108_pfaffian_energies | H2O_Ref_Props | - |
| C108_projected_partial | H2O_Ref_Props | - |
| C108_projected | H2O_Ref_Props | - |
| C108_slater_reference | H2O_Ref_Props | - |
| C108_pfaffian_reference | H2O_Ref_Props | - |
| C108_amplitudes | H2O_Ref_Props | - |
| C108_projection_trivial | H2O_Ref_Props | - |
| C108_nan_refuted | H2O_Ref_Props | fun |
| C109_entry | H4_Props | - |
| C109_trace | H4_Props | - |
| C109_exact | H4_Props | - |
| C110_support_partial | Metro_Inf_Props | not, sig, fun, eps, cla |
| C110_zero_start_partial | Metro_Inf_Props | not, sig, fun, eps, cla |
| C110_nan_refuted | Metro_Inf_Props | not, sig, fun, eps, cla |
| C111_exact | Energy_Grad_Props | sig, fun, eps |
| C111_derivative_partial | Energy_Grad_Props | sig, fun, eps |
| C111_complex_partial | Energy_Grad_Props | sig, fun, eps |
| C111_eigenstate | Energy_Grad_Props | sig, fun, eps |
| C111_refuted | Energy_Grad_Props | sig, fun, eps |
| C112_split | Argps_Props | - |
| C112_partial | Argps_Props | not, sig, fun, eps |
| C112_filter_partial | Argps_Props | not, sig, fun, eps |
| C112_inverse | Argps_Props | - |
| C112_filter_refuted | Argps_Props | not, sig, fun, eps |
| C113_chain | Argps_Filter | - |
| C113_lattice | Argps_Filter | - |
| C114_spectrum | Basis_Props | - |
| C114_argps | Basis_Props | - |
| C115_h2o_one_basis | Basis_Files | - |
| C115_h2o_again | Basis_Files | - |
| C115_cpd_one_run | Basis_Files | - |
| C115_cpd_fresh | Basis_Files | - |
| C115_orbitals | Basis_Files | - |
| C115_exchange | Basis_Files | - |
| C115_ranks | Basis_Files | - |
| C115_h2o_basis_type_refuted | Basis_Files | - |
| C115_exchange_canonical_refuted | Basis_Files | - |
| C116_energy | Prune_Props | - |
| C116_symmetries | Prune_Props | - |
| C117_round | Sheet_Props | - |
| C117_closest | Sheet_Props | - |
| C117_no_atoms | Sheet_Props | - |
| C117_sheet | Sheet_Props | - |
| C117_spacing | Sheet_Props | - |
| C117_chain | Sheet_Props | - |
| C117_bulk | Sheet_Props | - |
| C117_radial | Sheet_Props | - |
| C117_constant | Sheet_Props | - |
| C118_heisenberg | Dispatch_Props | not, sig, fun, eps |
| C118_hubbard | Dispatch_Props | not, sig, fun, eps |
| C118_hydrogen | Dispatch_Props | not, sig, fun, eps |
| C118_guard | Dispatch_Props | - |
| C118_guard_refuted | Dispatch_Props | not, sig, fun, eps, cla |
| C119_direction | Descent_Props | sig, fun, eps |
| C119_descends | Descent_Props | sig, fun, eps |
| C119_unique_samples | Descent_Props | not, sig, fun, eps |
| C119_srrmsprop | Descent_Props | not, sig, fun, eps |
| C119_driver | Descent_Props | not, sig, fun, eps |
| C119_minsr | MinSR_Descent_Props | - |
| C119_minsr_shift | MinSR_Descent_Props | - |
| C119_minsr_counts_refuted | MinSR_Descent_Props | - |
| C119_minsr_real_refuted | MinSR_Descent_Props | - |
| C120_causal | Pixel_Props | - |
| C120_normalised | Pixel_Props | - |
| C120_support | Pixel_Props | - |
| C120_sampler | Pixel_Props | - |
| C120_unconstrained | Pixel_Props | - |
| C120_magnetisation | Pixel_Props | - |
| C120_zero_magnetisation | Pixel_Props | - |
| C120_global | Pixel_Props | - |
| C120_global_refuted | Pixel_Props | - |
| C121_statistics | Expect_Props | - |
| C121_batch | Expect_Props | - |
| C121_chunks | Expect_Props | - |
| C121_unique | Expect_Props | - |
| C121_zero_variance | Expect_Props | - |
| C121_unbiased | Expect_Props | - |
| C121_spread | Expect_Props | - |
| C121_variance | Expect_Props | - |
| C121_error | Expect_Props | - |
| C121_rayleigh | Expect_Props | - |
| C121_hubbard | Expect_Props | - |
| C121_ab_initio | Expect_Props | - |
| C122_weighted | MinSR_Stats_Props | - |
| C122_plain | MinSR_Stats_Props | - |
| C122_error_wrong | MinSR_Stats_Props | - |
| C122_error_expected | MinSR_Stats_Props | - |
| C122_error_refuted | MinSR_Stats_Props | - |
| C123_reaches | Chain_Props | - |
| C123_stationary | Chain_Props | - |
| C123_averages_partial | Chain_Props | - |
| C123_exchanges_only | Chain_Props | - |
| C123_dimer_refuted | Chain_Props | - |
| C123_exchanges_only_refuted | Chain_Props | - |
| C124_reaches | Exchange_Chain_Props | - |
| C124_stationary | Exchange_Chain_Props | - |
| C124_averages_partial | Exchange_Chain_Props | - |
| C124_spins | Exchange_Chain_Props | - |
| C124_disconnected | Exchange_Chain_Props | - |
| C124_dimer_refuted | Exchange_Chain_Props | - |
| C125_distinct | MiniBatch_Props | - |
| C125_inclusion | MiniBatch_Props | - |
| C125_weighted_partial | MiniBatch_Props | - |
| C125_full | MiniBatch_Props | - |
| C125_biased | MiniBatch_Props | - |
| C125_weighted_refuted | MiniBatch_Props | - |
| C126_hopping_rule | Keys_Props | - |
| C126_exchange_rule | Keys_Props | - |
| C126_metropolis | Keys_Props | - |
| C126_autoreg | Keys_Props | - |
| C126_keys_of_sampler | Keys_Props | - |
| C126_random_state_reuses_keys | Keys_Props | - |
| C126_state_fitting_reuses_keys | Keys_Props | - |
| C126_used_once_refuted | Keys_Props | - |
| C126_random_state_partial | Keys_Props | - |
| C126_state_fitting_partial | Keys_Props | - |
| C126_stratified_reuses_keys | Keys_Props | - |
| C127_candidates_shift | Keys_Props | - |
| C127_top_up_copies | Keys_Props | - |
| C127_evaluations_overlap | Keys_Props | - |
| C127_independent_refuted | Keys_Props | - |
| C127_samples_partial | Keys_Props | - |
| C128_unbiased_partial | UniqueBias_Props | - |
| C128_raw_sums | UniqueBias_Props | - |
| C128_two | UniqueBias_Props | - |
| C128_rare_overweighted | UniqueBias_Props | - |
| C128_weight_ex | UniqueBias_Props | - |
| C128_unbiased_refuted | UniqueBias_Props | - |
| C129_normalised_partial | StratBias_Props | - |
| C129_rand_norm | StratBias_Props | - |
| C129_harmonic_norm | StratBias_Props | - |
| C129_unbiased_refuted | StratBias_Props | - |
| C130_update_partial | MinSR_Pytree_Props | - |
| C130_loss_grad_zero | MinSR_Pytree_Props | - |
| C130_loss_grad_real_partial | MinSR_Pytree_Props | - |
| C130_loss_grad_refuted | MinSR_Pytree_Props | - |
| C131_complex_partial | SRR_Pytree_Props | - |
| C131_repack | SRR_Pytree_Props | - |
| C131_shape | SRR_Pytree_Props | - |
| C131_real_mode_refuted | SRR_Pytree_Props | - |
| C132_shift | SRPre_Props | - |
| C132_raises | SRPre_Props | - |
| C132_failed_state | SRPre_Props | - |
| C132_retry | SRPre_Props | - |
| C132_failed_unchanged_refuted | SRPre_Props | - |
