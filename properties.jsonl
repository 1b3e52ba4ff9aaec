{"id": "C01", "title": "Comb population control draws exactly the target number of walkers", "statement": "When the walker population is resampled with the comb method, the copy counts assigned to the walkers add up to the target population, whatever the weights and the random offset, and the selection loop stays inside its arrays and terminates.", "quantifier": "all numbers of walkers n>=1, all non-negative weights with positive sum, all target populations, all random offsets r in [0,1)", "why_tests_cant": "The loop indexes two arrays with two cursors whose motion depends on every weight and on a random number; a test samples a few weight vectors and seeds, the claim is about all of them.", "anchors": ["pauxy/walkers/handler.py:Walkers.comb"]}
{"id": "C02", "title": "Comb copy counts are proportional to the weights up to rounding", "statement": "In comb resampling every walker receives either the floor or the ceiling of (its weight * target / total weight) copies; in particular zero-weight walkers receive none and a walker of at least twice the mean weight receives at least two.", "quantifier": "all weight vectors, all targets, all random offsets, all walkers", "why_tests_cant": "Low-variance property for every offset in a continuum of random numbers.", "anchors": ["pauxy/walkers/handler.py:Walkers.comb"]}
{"id": "C03", "title": "Comb resampling is unbiased", "statement": "Averaged over the random offset, the number of comb teeth that select a walker equals weight*target/total: the set of offsets for which walker i gets the larger of its two possible counts has measure equal to the fractional part; on any equispaced grid of m offsets shifted by any amount the mean count is within 1/m of it.", "quantifier": "all weight vectors, all walkers, all grid sizes m", "why_tests_cant": "Unbiasedness is a statement over the whole distribution of the random offset.", "anchors": ["pauxy/walkers/handler.py:Walkers.comb"]}
{"id": "C04", "title": "After comb population control the population is the drawn multiset", "statement": "After comb population control walker i of the old population is present exactly as many times as its copy count says: killed walkers are gone, a walker with count m occupies m slots.", "quantifier": "all copy-count vectors that sum to the number of walkers, all distributions of walkers over MPI ranks", "why_tests_cant": "Whether a slot is overwritten depends on the pairing of two index lists for every possible count vector; tests use small populations where counts above two do not occur.", "anchors": ["pauxy/walkers/handler.py:Walkers.comb", "pauxy/walkers/walker.py:get_buffer,set_buffer"]}
{"id": "C05", "title": "Comb walker transfer is deadlock free and schedule independent", "statement": "The exchange phase of comb (each rank posts its sends and receives for the list of (clone,kill) pairs) always completes, every posted message is received exactly once by the matching receive, and the final walkers on every rank equal those of the sequential copy, for every interleaving of the ranks.", "quantifier": "all numbers of ranks, all walkers per rank, all clone/kill lists, all interleavings and message delays", "why_tests_cant": "Interleavings of MPI processes cannot be enumerated by tests.", "anchors": ["pauxy/walkers/handler.py:Walkers.comb"]}
{"id": "C06", "title": "Pair branching conserves total weight and population size", "statement": "Pair-branch population control leaves the sum of the walker weights unchanged and leaves exactly as many live walkers as before, for every outcome of the random draws.", "quantifier": "all population sizes, all non-negative weights, all thresholds, all random draws", "why_tests_cant": "Holds for each of exponentially many branch outcomes and every weight vector.", "anchors": ["pauxy/walkers/handler.py:Walkers.pair_branch"]}
{"id": "C07", "title": "Pair branching matches every clone to exactly one killed walker and leaves others alone", "statement": "In pair branching every killed slot is overwritten by a copy of a doubled walker and every doubled walker ends up in exactly two slots (its own and one killed slot), both carrying half of the weight of its pair; every walker outside a pair keeps its state and weight. This holds even though messages between the same two ranks share a tag.", "quantifier": "all population sizes, weights, thresholds, random draws and rank layouts", "why_tests_cant": "Index gymnastics (argsort, inverse argsort, scatter, per-rank send/receive lists) over all permutations.", "anchors": ["pauxy/walkers/handler.py:Walkers.pair_branch"]}
{"id": "C08", "title": "Pair branching brings every weight inside the window", "statement": "After pair branching no walker of weight above max_weight or below min_weight is left unpaired as long as it still has an unprocessed partner: on exit either all unprocessed walkers are inside [min,max] or at most one walker is unprocessed.", "quantifier": "all weights, thresholds and draws", "why_tests_cant": "Loop exit condition over all sorted inputs.", "anchors": ["pauxy/walkers/handler.py:Walkers.pair_branch"]}
{"id": "C09", "title": "Pair branching is unbiased", "statement": "For each pair the expectation over the uniform draw of the weight carried by each walker's state equals its weight before branching.", "quantifier": "all pairs of weights with positive sum", "why_tests_cant": "Statement on a distribution.", "anchors": ["pauxy/walkers/handler.py:Walkers.pair_branch"]}
{"id": "C10", "title": "Population control normalises the total weight", "statement": "Before resampling, weights are divided by total/target so that afterwards the global sum of |weight| equals the target population; relative weights are preserved; a single walker population is left untouched and a vanishing total weight stops the run.", "quantifier": "all rank layouts and weight vectors, every comb / pair-branch call that follows", "why_tests_cant": "Global reduction over any number of ranks and all weights.", "anchors": ["pauxy/walkers/handler.py:Walkers.pop_control"]}
{"id": "C11", "title": "Walkers are shared evenly between MPI processes", "statement": "Given a requested population and a number of processes, every process holds the same positive number of walkers, the reported total equals processes*walkers-per-process, and it never exceeds the request unless the request is smaller than the number of processes; the numbering i + nwalkers*rank of walkers is a bijection onto 0..ntot-1.", "quantifier": "all requested populations and numbers of processes", "why_tests_cant": "All pairs of integers.", "anchors": ["pauxy/qmc/afqmc.py:AFQMC.__init__", "pauxy/qmc/thermal_afqmc.py", "pauxy/qmc/calc.py:setup_parallel", "pauxy/walkers/handler.py:Walkers.write_walkers"]}
{"id": "C12", "title": "Random streams of different processes are seeded differently", "statement": "With a given base seed each process seeds its generator with a different value, and the mapping is reproducible.", "quantifier": "all seeds and ranks", "why_tests_cant": "All pairs of ranks.", "anchors": ["pauxy/qmc/utils.py:set_rng_seed", "pauxy/qmc/calc.py"]}
{"id": "C13", "title": "Walker buffers round-trip", "statement": "Packing a walker into its communication buffer and unpacking it in another walker of the same shape reproduces every listed attribute, in any order of scalar, vector and nested field-configuration attributes, and never reads or writes past the buffer.", "quantifier": "all attribute lists, all shapes, all values (int, float, complex)", "why_tests_cant": "Depends on running offsets over arbitrary attribute shapes and types.", "anchors": ["pauxy/walkers/walker.py:Walker.get_buffer,set_buffer", "pauxy/walkers/stack.py:FieldConfig.get_buffer,set_buffer"]}
{"id": "C14", "title": "Stored auxiliary fields are those of the last propagation window", "statement": "After any sequence of propagation steps and resets the field history returns, for the current block, exactly the fields and factors pushed during that block in order; the accumulated factor is the product of the pushed factors and no write falls outside the allocated history.", "quantifier": "all sequences of push/update/reset operations and all window and split sizes", "why_tests_cant": "Cyclic buffer behaviour over unbounded operation sequences.", "anchors": ["pauxy/walkers/stack.py:FieldConfig", "pauxy/estimators/back_propagation.py"]}
{"id": "C15", "title": "Thermal propagator stack always represents the current field path", "statement": "After any number of time-slice updates the product of the stored bins (cyclically from the current bin) equals the ordered product of the single-slice propagators applied so far and trial propagators for the remaining slices; bin and counter bookkeeping stays consistent with the time slice.", "quantifier": "all stack sizes dividing the number of slices, all sequences of updates", "why_tests_cant": "Ordered products of arbitrarily many non-commuting matrices.", "anchors": ["pauxy/walkers/stack.py:PropagatorStack"]}
{"id": "C16", "title": "Resetting the thermal stack starts a fresh path", "statement": "Resetting a propagator stack restores every observable part of it to the freshly constructed state so the next path is not contaminated by the previous one.", "quantifier": "all operation histories before the reset", "why_tests_cant": "History dependent.", "anchors": ["pauxy/walkers/stack.py:PropagatorStack.reset"]}
{"id": "C17", "title": "Stack size selection returns a divisor close to the request", "statement": "The automatic stack size adjustment returns a positive divisor of the number of time slices, the nearest one to the request with ties towards smaller, and terminates.", "quantifier": "all requested sizes and slice counts", "why_tests_cant": "Divisor search over all integers.", "anchors": ["pauxy/utils/misc.py:update_stack", "pauxy/walkers/handler.py:Walkers.__init__"]}
{"id": "C18", "title": "Restart files reproduce the walkers", "statement": "Writing all walkers to a restart file from every process and reading them back restores weight, phase, overlap and Slater determinant of each walker; a failed read leaves a complete walker.", "quantifier": "all rank layouts, all crash points between init and read", "why_tests_cant": "File histories and crash points.", "anchors": ["pauxy/walkers/handler.py:Walkers.write_walkers,read_walkers,get_write_buffer,set_walker_from_buffer"]}
{"id": "C19", "title": "Estimator output blocks are stored under increasing, collision-free names", "statement": "Successive blocks pushed to the HDF5 output get distinct names whose lexicographic order is the chronological order, so reading them back in name order gives the time series.", "quantifier": "all numbers of pushes and averaging windows", "why_tests_cant": "Unbounded sequences of pushes.", "anchors": ["pauxy/estimators/utils.py:H5EstimatorHelper", "pauxy/analysis/extraction.py:extract_data"]}
{"id": "C20", "title": "A new estimator file never overwrites an existing one", "statement": "Choosing the output file name terminates and returns a name that does not exist yet.", "quantifier": "all sets of existing files and base names", "why_tests_cant": "All directory states.", "anchors": ["pauxy/estimators/handler.py:Estimators.__init__"]}
{"id": "C21", "title": "Mixed estimator ratios are weight averages over all walkers of all ranks", "statement": "The printed energies are sum(w*E)/sum(w) over all walkers of all processes since the last print; they do not depend on how walkers are distributed over processes nor on a common scale of the weights; total energy equals one-body plus two-body; column k of the output is the quantity named in header column k.", "quantifier": "all walker weights/energies, all rank layouts, all numbers of steps between prints", "why_tests_cant": "Sums over arbitrary populations and layouts.", "anchors": ["pauxy/estimators/mixed.py:Mixed.update,print_step,get_estimator_enum"]}
{"id": "C22", "title": "Measurement accumulators are reset between blocks", "statement": "Each printed block contains exactly the measurements made since the previous print, none lost or counted twice.", "quantifier": "all run lengths and print schedules", "why_tests_cant": "Schedules over arbitrary step counts.", "anchors": ["pauxy/qmc/afqmc.py:AFQMC.run", "pauxy/estimators/mixed.py:Mixed.print_step,zero"]}
{"id": "C23", "title": "Simulation schedule performs each periodic action at its period", "statement": "Over a run of nsteps steps orthogonalisation, population control, energy-shift update and output happen exactly at the multiples of their periods, and the weight cap keeps every weight at or below 10% of the total weight afterwards.", "quantifier": "all step counts and periods", "why_tests_cant": "All combinations of periods.", "anchors": ["pauxy/qmc/afqmc.py:AFQMC.run", "pauxy/qmc/thermal_afqmc.py:ThermalAFQMC.run"]}
{"id": "C24", "title": "Input options follow key, alias, default precedence", "statement": "Looking an option up returns the value of its key if present (also when falsy), else of the first alias present, else the default.", "quantifier": "all option dictionaries, alias lists and values", "why_tests_cant": "All dictionaries.", "anchors": ["pauxy/utils/io.py:get_input_value", "pauxy/utils/misc.py:get_from_dict"]}
{"id": "C25", "title": "Merging option dictionaries keeps both sides", "statement": "Merging two nested dictionaries yields every key of both, recursing into sub-dictionaries, and reports a conflict exactly when both define a different leaf at the same path; it never drops a value silently.", "quantifier": "all nested dictionaries", "why_tests_cant": "Structural recursion on arbitrary trees.", "anchors": ["pauxy/utils/misc.py:merge_dicts", "pauxy/utils/io.py:write_input"]}
{"id": "C26", "title": "FCIDUMP files round-trip the Hamiltonian", "statement": "Writing integrals with permutational symmetry 1, 4 or 8 and reading them back with the same symmetry reproduces every integral of a Hamiltonian having that symmetry; the writer emits exactly one representative of each symmetry class.", "quantifier": "all basis sizes and all tensors with the declared symmetry", "why_tests_cant": "All index quadruples of all sizes.", "anchors": ["pauxy/utils/hamiltonian_converter.py:read_fcidump,write_fcidump,check_sym"]}
{"id": "C27", "title": "Sparse Cholesky integrals round-trip through the QMCPACK format", "statement": "Writing Cholesky vectors in sparse chunks and reading the chunks back gives the same matrix for every chunking; row/column index interleaving is inverted exactly.", "quantifier": "all matrices and chunk sizes", "why_tests_cant": "All chunkings.", "anchors": ["pauxy/utils/io.py:write_qmcpack_sparse,to_sparse,to_qmcpack_index", "pauxy/utils/hamiltonian_converter.py:read_cholesky"]}
{"id": "C28", "title": "Wavefunction files round-trip", "statement": "Multi-determinant occupation strings and coefficients written to file are recovered with the same alpha and beta occupations, and orbital matrices are recovered with spin blocks in place.", "quantifier": "all numbers of electrons (also unequal spins), orbitals and determinants", "why_tests_cant": "All occupation lists.", "anchors": ["pauxy/utils/io.py:write_phmsd,read_phmsd,write_nomsd,read_nomsd,write_phfmol,read_phfmol"]}
{"id": "C29", "title": "Slater-Condon matrix elements are those of the second-quantised Hamiltonian", "statement": "The Hamiltonian matrix element between two determinants is the one of the second-quantised operator: zero beyond double excitations, the correct fermionic sign, and the Slater-Condon rules for 0, 1, 2 excitations; the matrix is Hermitian.", "quantifier": "all determinants, basis sizes and integrals", "why_tests_cant": "All pairs of occupation lists of any length.", "anchors": ["pauxy/estimators/ci.py:get_hmatel,get_perm,slater_condon0,slater_condon1,slater_condon2,map_orb"]}
{"id": "C30", "title": "Occupation enumeration is complete and duplicate free", "statement": "The enumeration of unlabeled balls in labeled boxes lists each admissible occupation exactly once and nothing else.", "quantifier": "all ball counts and box capacities", "why_tests_cant": "Combinatorial generator for all sizes.", "anchors": ["pauxy/estimators/ci.py:unlabeled_balls_in_labeled_boxes"]}
{"id": "C31", "title": "Lattice site numbering is a bijection consistent with coordinates", "statement": "Site index to coordinates and back are mutually inverse on the lattice, and every routine that indexes sites uses the same order.", "quantifier": "all lattice dimensions and sites", "why_tests_cant": "All lattice sizes.", "anchors": ["pauxy/systems/hubbard.py:decode_basis,encode_basis", "pauxy/utils/fft.py"]}
{"id": "C32", "title": "Hopping matrix is Hermitian and connects exactly nearest neighbours", "statement": "The kinetic matrix is Hermitian for every twist, couples two sites iff they are nearest neighbours on the (periodic or open) lattice, each bond once.", "quantifier": "all lattice sizes, boundary conditions and twists", "why_tests_cant": "All lattice sizes.", "anchors": ["pauxy/systems/hubbard_holstein.py:kinetic", "pauxy/systems/hubbard.py:kinetic_pinning,kinetic_pinning_alt"]}
{"id": "C33", "title": "Plane-wave lookup inverts the basis list", "statement": "Looking up a plane-wave vector returns its index in the basis when it is within the cutoff and nothing otherwise; no two basis vectors share an index.", "quantifier": "all energy cutoffs, all integer vectors, all twists", "why_tests_cant": "All cutoffs; index hashing over all vectors.", "anchors": ["pauxy/systems/ueg.py:sp_energies,create_lookup_table,lookup_basis,map_basis_to_index"]}
{"id": "C34", "title": "Momentum-transfer lists are sound and complete", "statement": "For each momentum transfer q the precomputed (i, k+q) lists contain exactly the pairs of basis functions differing by q.", "quantifier": "all cutoffs and transfers", "why_tests_cant": "All vectors.", "anchors": ["pauxy/systems/ueg.py:UEG.__init__", "pauxy/systems/ueg.py:scaled_density_operator_incore"]}
{"id": "C35", "title": "Rank-1 Green's function and overlap updates equal recomputation", "statement": "The fast updates of inverse overlaps, Green's functions and determinant ratios after changing a single row or site equal the values recomputed from scratch whenever the ratio is non-zero.", "quantifier": "all matrix sizes, all invertible matrices, all update vectors over any field", "why_tests_cant": "Matrix identities for all sizes.", "anchors": ["pauxy/utils/linalg.py:sherman_morrison", "pauxy/walkers/single_det.py:inverse_overlap,update_inverse_overlap", "pauxy/thermal_propagation/hubbard.py:update_greens_function,calculate_overlap_ratio", "pauxy/propagation/hubbard.py:calculate_overlap_ratio_single_det"]}
{"id": "C36", "title": "A site sweep keeps the stored overlap equal to the true overlap", "statement": "After a sweep of single-site field updates the walker's stored overlap with the trial equals the determinant computed from its current orbitals.", "quantifier": "all lattice sizes, field choices and HS decompositions", "why_tests_cant": "Unbounded sequences of random updates.", "anchors": ["pauxy/propagation/hubbard.py:two_body_single_site", "pauxy/walkers/single_det.py:update_overlap,calc_overlap"]}
{"id": "C37", "title": "Discrete Hubbard-Stratonovich transformation is exact", "statement": "Averaging the one-body site factors over the two field values reproduces exp(-dt U n_up n_down) on every occupation of a site, for the spin and charge decompositions, including normalisation.", "quantifier": "all U, dt > 0 and all four site occupations", "why_tests_cant": "Identity in real parameters.", "anchors": ["pauxy/propagation/hubbard.py:Hirsch.__init__", "pauxy/thermal_propagation/hubbard.py:ThermalDiscrete.__init__"]}
{"id": "C38", "title": "Importance sampling of fields reproduces the un-biased sum", "statement": "Choosing fields with the biased probabilities and multiplying the weight by the returned factor gives, in expectation, the same as summing over uniformly distributed fields.", "quantifier": "all positive overlap ratios", "why_tests_cant": "Statement on a distribution.", "anchors": ["pauxy/propagation/hubbard.py:two_body_single_site,two_body_direct", "pauxy/propagation/continuous.py:two_body_propagator"]}
{"id": "C39", "title": "Phaseless weights stay real and non-negative and bounded", "statement": "Under the phaseless/hybrid weight update weights never become negative, rejected moves give weight zero, and the energy entering the exponent is clipped to the stated window around the shift.", "quantifier": "all overlaps, energies, phases, time steps", "why_tests_cant": "All complex inputs.", "anchors": ["pauxy/propagation/continuous.py:update_weight_hybrid,update_weight_local_energy,apply_bound_hybrid,apply_bound_local_energy,two_body_propagator", "pauxy/propagation/operations.py:local_energy_bound,kinetic_real"]}
{"id": "C40", "title": "Force-bias rescaling caps the modulus and preserves direction", "statement": "Force-bias components with modulus above one are rescaled to modulus one, the others are unchanged, and the number of rescalings is counted.", "quantifier": "all complex vectors", "why_tests_cant": "All inputs.", "anchors": ["pauxy/propagation/continuous.py:two_body_propagator"]}
{"id": "C41", "title": "Walker re-orthogonalisation does not change physical estimators", "statement": "Replacing orbitals by an orthonormal basis of the same span leaves the Green's function and local energies unchanged, multiplies the overlap by the determinant of the triangular factor, and the bookkeeping keeps overlap and weight consistent.", "quantifier": "all walkers and trials of full rank", "why_tests_cant": "Matrix identities for all sizes.", "anchors": ["pauxy/walkers/single_det.py:reortho", "pauxy/utils/linalg.py:reortho", "pauxy/walkers/handler.py:Walkers.orthogonalise"]}
{"id": "C42", "title": "Mixed Green's function is a projector of the right trace", "statement": "The Green's function built from trial and walker is idempotent, has trace equal to the number of particles, is independent of the choice of basis of either span, and the half-rotated and full forms agree.", "quantifier": "all sizes, all trial/walker pairs with invertible overlap", "why_tests_cant": "Matrix identities for all sizes.", "anchors": ["pauxy/estimators/greens_function.py:gab,gab_mod,gab_spin,gab_mod_ovlp", "pauxy/walkers/single_det.py:greens_function"]}
{"id": "C43", "title": "Finite-temperature Green's function inverts 1 + A", "statement": "The stabilised (SVD / QR / stratified) Green's function routines return (1+A)^{-1} for the ordered slice product A, the density matrix is consistent with it, and the inverse routine returns 1+A.", "quantifier": "all sizes and products, all decompositions the library may return", "why_tests_cant": "Matrix identities for any decomposition result.", "anchors": ["pauxy/estimators/thermal.py:greens_function,inverse_greens_function,inverse_greens_function_qr,one_rdm,one_rdm_from_G", "pauxy/walkers/thermal.py:greens_function_svd,greens_function_qr,greens_function_qr_strat"]}
{"id": "C44", "title": "All local energy implementations agree", "statement": "For integrals given by Cholesky vectors the explicit-integral, Cholesky and half-rotated (optimised) local energy routines return the same total, one-body and two-body energies.", "quantifier": "all basis sizes, Green's functions, Cholesky vectors", "why_tests_cant": "Multilinear identities in all sizes.", "anchors": ["pauxy/estimators/generic.py:local_energy_generic,local_energy_generic_opt,local_energy_generic_cholesky,local_energy_generic_cholesky_opt,core_contribution,core_contribution_cholesky", "pauxy/estimators/mixed.py:local_energy"]}
{"id": "C45", "title": "Hubbard local energy implements the Hubbard Hamiltonian", "statement": "The Hubbard local energy equals the Wick expectation of T + U sum n_up n_dn, and the particle-hole symmetric option changes it by the documented terms.", "quantifier": "all lattice sizes, Green's functions, U", "why_tests_cant": "All inputs.", "anchors": ["pauxy/estimators/hubbard.py:local_energy_hubbard"]}
{"id": "C46", "title": "Reordering the two-body operator changes the one-body term consistently", "statement": "The modified one-body Hamiltonian plus sum of squares equals the original Hamiltonian.", "quantifier": "all Cholesky vectors and one-body matrices", "why_tests_cant": "Operator identity in all sizes.", "anchors": ["pauxy/systems/generic.py:construct_h1e_mod,hijkl", "pauxy/systems/ueg.py:mod_one_body"]}
{"id": "C47", "title": "Modified Cholesky decomposition reproduces the matrix to the requested accuracy", "statement": "On termination the diagonal residual is below the threshold and each pivot row is reproduced exactly; in-core and out-of-core variants produce the same vectors and all are stored.", "quantifier": "all symmetric positive matrices, thresholds, chunk sizes", "why_tests_cant": "Loop invariant over all matrices.", "anchors": ["pauxy/utils/linalg.py:modified_cholesky", "pauxy/utils/from_pyscf.py:chunked_cholesky,chunked_cholesky_outcore,cholesky"]}
{"id": "C48", "title": "Shell lookup finds the shell containing an orbital", "statement": "For every atomic orbital index the shell search returns the shell whose index range contains it, with the right offset.", "quantifier": "all shell structures and orbital indices", "why_tests_cant": "All shell lists.", "anchors": ["pauxy/utils/from_pyscf.py:chunked_cholesky"]}
{"id": "C49", "title": "Matrix exponential routines return the truncated Taylor series", "statement": "The matrix exponential helpers return the Taylor polynomial of the requested order applied to the identity or to the walker, so applying to a walker equals multiplying by the matrix form.", "quantifier": "all matrices, orders", "why_tests_cant": "All sizes and orders.", "anchors": ["pauxy/utils/linalg.py:exponentiate_matrix", "pauxy/propagation/continuous.py:apply_exponential"]}
{"id": "C50", "title": "Chemical potential search meets its tolerance", "statement": "If the search returns a chemical potential, the particle number there is within the tolerance of the target, the bracket always contains a sign change, and for continuous monotone particle numbers it converges.", "quantifier": "all monotone particle-number functions, targets and tolerances", "why_tests_cant": "Quantifies over functions.", "anchors": ["pauxy/trial_density_matrices/chem_pot.py:find_chemical_potential", "pauxy/analysis/thermal.py:find_chem_pot"]}
{"id": "C51", "title": "Back propagation applies the adjoint of the forward propagator in reverse order", "statement": "Back-propagating the trial with a stored field path gives the adjoint of the forward product so the overlap of back-propagated trial with the old walker equals the overlap of the trial with the propagated walker.", "quantifier": "all path lengths and fields, with and without intermediate orthogonalisation", "why_tests_cant": "Products of arbitrary length.", "anchors": ["pauxy/propagation/hubbard.py:back_propagate,construct_propagator_matrix", "pauxy/propagation/generic.py:back_propagate_generic,construct_propagator_matrix_generic"]}
{"id": "C52", "title": "Back-propagated estimator layout and averaging", "statement": "Each accumulated back-propagated quantity is stored in its own non-overlapping slice of the buffer and each printed block divides by the accumulated weight.", "quantifier": "all system sizes and option combinations", "why_tests_cant": "All option combinations and sizes.", "anchors": ["pauxy/estimators/back_propagation.py:BackPropagation"]}
{"id": "C53", "title": "Work distribution of half-rotation covers every Cholesky vector once", "statement": "The split of Cholesky vectors over processes is a partition, and the per-determinant slices of the rotated tensor tile it without overlap.", "quantifier": "all numbers of vectors and processes", "why_tests_cant": "All integers.", "anchors": ["pauxy/trial_wavefunction/multi_slater.py:half_rotate,rot_chol,rot_hs_pot"]}
{"id": "C54", "title": "Multi-determinant trial contractions conjugate coefficients correctly", "statement": "Expectation values with a multi-determinant trial are sesquilinear in the coefficients, and zero-overlap determinants contribute nothing.", "quantifier": "all complex coefficients and overlaps", "why_tests_cant": "All complex inputs.", "anchors": ["pauxy/trial_wavefunction/multi_slater.py:contract_one_body", "pauxy/walkers/multi_det.py:greens_function", "pauxy/estimators/mixed.py:variational_energy_ortho_det"]}
{"id": "C55", "title": "Statistical analysis uses the stated estimators", "statement": "Ratio estimates are Re(numerator/denominator); equilibration discards exactly the data before the start time; reblocking partitions the retained samples into equal blocks; the standard error uses the number of retained samples.", "quantifier": "all data series and parameters", "why_tests_cant": "All series.", "anchors": ["pauxy/analysis/blocking.py:average_ratio,average_rdm,analyse_back_prop,analyse_estimates", "pauxy/analysis/autocorr.py:reblock_by_autocorr,auto_window,next_pow_two"]}
{"id": "C56", "title": "Freezing core orbitals preserves the energy", "statement": "The energy of an active-space state with the frozen-core Hamiltonian equals the full Hamiltonian energy of that state together with the doubly occupied core.", "quantifier": "all basis sizes, core sizes, active density matrices", "why_tests_cant": "Multilinear identity in all sizes.", "anchors": ["pauxy/utils/from_pyscf.py:freeze_core", "pauxy/estimators/generic.py:core_contribution_cholesky"]}
{"id": "C57", "title": "Spin-exchange symmetry of extended Koopmans matrices", "statement": "Exchanging the roles of the spin channels in the inputs exchanges the extended Koopmans Fock matrices.", "quantifier": "all density matrices and integrals", "why_tests_cant": "All inputs.", "anchors": ["pauxy/estimators/ekt.py:ekt_1p_fock_opt,ekt_1h_fock_opt"]}
{"id": "C58", "title": "Imaginary-time discretisation is used consistently", "statement": "The number of time slices used by the driver equals the number of slices for which the trial density matrix was built.", "quantifier": "all beta and timestep values", "why_tests_cant": "Floating point rounding over all inputs.", "anchors": ["pauxy/trial_density_matrices/onebody.py", "pauxy/qmc/thermal_afqmc.py"]}
{"id": "C59", "title": "Every thermal path is reweighted relative to the trial density matrix", "statement": "In a thermal run the product of the overlap ratios accumulated along a path is the determinant of one plus the sampled path divided by the determinant for the trial path, for the first path and for every later one.", "quantifier": "all numbers of paths, all sampled propagators, all stack sizes dividing the number of slices", "why_tests_cant": "The state that leaks from one path to the next only shows over sequences of paths.", "anchors": ["pauxy/walkers/handler.py:Walkers.reset", "pauxy/walkers/thermal.py:ThermalWalker.__init__", "pauxy/thermal_propagation/continuous.py:propagate_walker_phaseless", "pauxy/qmc/thermal_afqmc.py:run"]}
{"id": "C60", "title": "Stochastic resolution of the identity is unbiased", "statement": "With random signs the stochastic exchange energy, with and without its control variate, has the exact energy as its mean, and every option combination that selects it evaluates.", "quantifier": "all basis sizes, Green's functions, Cholesky vectors, numbers of samples", "why_tests_cant": "An average over all sign vectors, in all sizes.", "anchors": ["pauxy/estimators/generic.py:local_energy_generic_cholesky_opt_stochastic", "pauxy/estimators/mixed.py:local_energy", "pauxy/walkers/single_det.py:local_energy"]}
{"id": "C61", "title": "The local energy of the electron gas is the contraction of its Hamiltonian", "statement": "The kinetic and potential energies computed from the lists of shifted plane waves are the Wick contractions of the plane wave Hamiltonian with the Green's functions.", "quantifier": "all plane wave bases, transfer lists, Green's functions, numbers of up and down electrons, with and without finite temperature", "why_tests_cant": "The sums over transfers must be matched with four-index sums for every basis size; the tests have as many up as down electrons.", "anchors": ["pauxy/estimators/ueg.py:local_energy_ueg", "pauxy/estimators/ueg_kernels.pyx:coulomb_greens_function_per_qvec", "pauxy/estimators/ueg_kernels.pyx:exchange_greens_function_per_qvec", "pauxy/systems/ueg.py:UEG.__init__"]}
{"id": "C62", "title": "Fock matrices are derivatives of the energy", "statement": "The Fock matrix of a system at a density matrix is the derivative of the mean-field energy with respect to the density matrix.", "quantifier": "all systems, basis sizes and density matrices", "why_tests_cant": "Derivatives in every direction at every density matrix; the tests only have real symmetric density matrices.", "anchors": ["pauxy/estimators/fock.py:fock_matrix", "pauxy/estimators/ueg.py:fock_ueg", "pauxy/estimators/ueg_kernels.pyx:build_J_opt", "pauxy/estimators/ueg_kernels.pyx:build_K_opt", "pauxy/estimators/generic.py:fock_generic", "pauxy/estimators/hubbard.py:fock_hubbard"]}
{"id": "C63", "title": "Phonon wavefunctions have the derivatives and the local energy they claim, and importance sampling keeps the weight right", "statement": "The gradient and the Laplacian that the oscillator trial functions return are those of the function they return as value (position and momentum space, also when summed over permutations of the sites), the ground state has constant local energy, and a step of the boson walker multiplies the weight by the exponential of the mean local energy.", "quantifier": "all numbers of sites, displacements, masses, frequencies, shifts, coefficients, permutations and numbers of steps", "why_tests_cant": "Derivatives are limits at every point of a space of any dimension; the tests evaluate none of them.", "anchors": ["pauxy/trial_wavefunction/harmonic_oscillator.py:HarmonicOscillator", "pauxy/trial_wavefunction/harmonic_oscillator.py:HarmonicOscillatorMomentum", "pauxy/trial_wavefunction/coherent_state.py:CoherentState.value", "pauxy/trial_wavefunction/coherent_state.py:CoherentState.gradient", "pauxy/trial_wavefunction/coherent_state.py:CoherentState.laplacian", "pauxy/trial_wavefunction/coherent_state.py:CoherentState.bosonic_local_energy", "pauxy/propagation/hubbard_holstein.py:HirschDMC.boson_importance_sampling", "pauxy/propagation/hubbard_holstein.py:HirschDMC.boson_free_propagation", "pauxy/propagation/hubbard_holstein.py:HirschDMC.acceptance"]}
{"id": "C64", "title": "Hubbard-Holstein energies are expectation values of the Hamiltonian", "statement": "The local energy in position space is that of the Hubbard-Holstein Hamiltonian, the one in momentum space that of its Lang-Firsov transform, the first shift of a coherent state is the best one, and the energy of a superposition of coherent states is the expectation value in it.", "quantifier": "all lattices, sizes, couplings, masses, frequencies, Green's functions, displacements, and all numbers of states in the superposition", "why_tests_cant": "Identities in all parameters; the defects need complex coefficients, a mass other than 1/w0 or a lattice without full permutation symmetry, which no test has.", "anchors": ["pauxy/estimators/hubbard.py:local_energy_hubbard_holstein", "pauxy/estimators/hubbard.py:local_energy_hubbard_holstein_momentum", "pauxy/systems/hubbard_holstein.py:HubbardHolstein.__init__", "pauxy/trial_wavefunction/coherent_state.py:gab", "pauxy/trial_wavefunction/coherent_state.py:local_energy_hubbard_holstein_jax", "pauxy/trial_wavefunction/coherent_state.py:CoherentState.__init__", "pauxy/trial_wavefunction/coherent_state.py:CoherentState.calculate_energy"]}
{"id": "C65", "title": "The kinetic step in momentum space is the one in real space", "statement": "Fourier transforming a walker, multiplying by exp(-dt e_k/2) and transforming back gives exp(-dt T/2) applied to it; the plane waves of transform_matrix are eigenvectors of the hopping matrix with energies ek; and the option ffts makes the propagator use this step.", "quantifier": "all lattice sizes, hoppings, time steps, walkers, numbers of columns and both dtypes", "why_tests_cant": "An identity of linear maps on lattices of every size; no test switches the option on, and the layout only matters on rectangles.", "anchors": ["pauxy/propagation/hubbard.py:kinetic_kspace", "pauxy/propagation/hubbard.py:Hirsch.__init__", "pauxy/propagation/hubbard.py:Hirsch.kinetic_importance_sampling", "pauxy/propagation/hubbard_holstein.py:kinetic_kspace", "pauxy/propagation/operations.py:kinetic_real", "pauxy/utils/fft.py:fft_wavefunction", "pauxy/utils/fft.py:ifft_wavefunction", "pauxy/systems/hubbard.py:kpoints", "pauxy/systems/hubbard.py:ek", "pauxy/systems/hubbard.py:transform_matrix"]}
{"id": "C66", "title": "Thermal Hartree-Fock density matrices are self-consistent", "statement": "The density matrix returned is that of the Fock matrix returned and of the chemical potential returned, the Fock matrix is that of a density matrix closer than the threshold, the number of electrons is the target, and the stored Green's function belongs to the same density matrix.", "quantifier": "all systems (any Fock map), mixing parameters, thresholds, iteration limits, chemical potentials and sign conventions", "why_tests_cant": "The iteration has unbounded depth and every test uses systems where it converges to the same point; the order of the updates of mu and P does not show once both are converged.", "anchors": ["pauxy/trial_density_matrices/mean_field.py:MeanField.__init__", "pauxy/trial_density_matrices/mean_field.py:MeanField.thermal_hartree_fock", "pauxy/trial_density_matrices/mean_field.py:MeanField.scf", "pauxy/trial_density_matrices/onebody.py:OneBody.__init__", "pauxy/trial_density_matrices/chem_pot.py:compute_rho", "pauxy/estimators/thermal.py:entropy"]}
{"id": "C67", "title": "The low-rank stack carries the Green's function and weight of the path", "statement": "After every update of the low-rank propagator stack, the Green's function is the inverse of one plus the product of the path (sampled slices followed by trial slices), the weight is its determinant, and the stored factors multiply to the product of the sampled slices, up to what the threshold allows; a reset returns the stack to the trial path.", "quantifier": "all numbers of orbitals, thresholds, diagonal trials, bin sizes, path lengths, sequences of propagators and pivoted QR factorisations", "why_tests_cant": "The truncation depends on the scales met along the path; tests use one ordered trial and one path, so dropped orbitals, unsorted scales and the second path never appear.", "anchors": ["pauxy/walkers/stack.py:PropagatorStack.update_low_rank", "pauxy/walkers/stack.py:PropagatorStack.set_all", "pauxy/walkers/stack.py:PropagatorStack.reset", "pauxy/walkers/stack.py:PropagatorStack.initialize_left", "pauxy/walkers/thermal.py:ThermalWalker.__init__", "pauxy/walkers/handler.py:Walkers.reset"]}
{"id": "C68", "title": "Imaginary time Green's functions are the time-displaced functions of the path", "statement": "The greater and lesser single-particle Green's functions accumulated for every time up to the requested one are, for each walker, the equal-time functions of the back-propagated trial and the walker's old determinant multiplied by the propagators of the path (or their inverses), whether or not the stabilised form is used; what is written is their average over all walkers of all processes with the weights of the paths, and each block starts from zero with the current determinants.", "quantifier": "all numbers of orbitals and electrons, paths of invertible propagators of any length, trials not orthogonal to the path, stabilisation intervals, QR factorisations, walkers, weights and processes", "why_tests_cant": "The stabilised and the plain form agree for one slice and for propagators that leave the trial alone; wrong determinants and swapped spins show only for longer paths of different spins, and the plain form is never run.", "anchors": ["pauxy/estimators/itcf.py:ITCF.calculate_spgf_stable", "pauxy/estimators/itcf.py:ITCF.calculate_spgf_unstable", "pauxy/estimators/itcf.py:ITCF.initial_greens_function_uhf", "pauxy/estimators/itcf.py:ITCF.increment_tau_uhf_stable", "pauxy/estimators/itcf.py:ITCF.increment_tau_uhf_unstable", "pauxy/estimators/itcf.py:ITCF.increment_tau_ghf_stable", "pauxy/estimators/itcf.py:ITCF.increment_tau_ghf_unstable", "pauxy/estimators/itcf.py:ITCF.accumulate_uhf", "pauxy/estimators/itcf.py:ITCF.print_step", "pauxy/walkers/handler.py:Walkers.copy_init_wfn"]}
{"id": "C69", "title": "Mean-field shifts and force biases leave the Hamiltonian of a step alone", "statement": "For every continuous Hubbard-Stratonovich propagator the core energy, the shifted one-body matrices, the potential of a field and the field's mean-field factor belong together: completing the square gives back the Hamiltonian (less the chemical potential times the number of electrons at finite temperature), whatever density matrix the shift was computed from. The average of a step over the fields agrees with 1 - dt H to third order in the square root of dt. A force bias, rescaled or not, is compensated by its factor, and an unbounded bias cancels the fluctuations of the weight to first order. The fast bias from rotated vectors equals the slow one.", "quantifier": "all numbers of orbitals, electrons and fields, Hamiltonians, density matrices, time steps, biases, bounds, fields, algebras with the canonical anticommutation relations, and weighted fields with the first three moments of normal ones", "why_tests_cant": "A wrong sign or a missing term in the shift changes the energy by an amount of the size of the shift; tests compare single steps with stored numbers made by the same code, and the wrong branches (spin decomposition, sparse rotated vectors, thermal plane waves with off-diagonal density matrices) agree with the right ones for the trials tested.", "anchors": ["pauxy/propagation/generic.py:GenericContinuous", "pauxy/propagation/hubbard.py:HubbardContinuous", "pauxy/propagation/hubbard.py:HubbardContinuousSpin", "pauxy/propagation/planewave.py:PlaneWave", "pauxy/propagation/continuous.py:Continuous.two_body_propagator", "pauxy/thermal_propagation/generic.py:GenericContinuous", "pauxy/thermal_propagation/hubbard.py:HubbardContinuous", "pauxy/thermal_propagation/planewave.py:PlaneWave"]}
{"id": "C70", "title": "Single-determinant trial wavefunctions are the determinants they claim to be", "statement": "The free-electron trial occupies orthonormal eigenvectors of each spin and no determinant has a lower energy without interaction; a reference list gives the orbitals chosen; Hartree-Fock orbitals read from a file are occupied as asked, also after an excitation; spin-pure orbitals are told apart by their components. The unrestricted Hartree-Fock search restores the interaction, returns a determinant from a converged iteration with its energy, which no other converged attempt beats by more than the tolerance, that is self-consistent up to the tolerance, together with its densities, and prints its total spin. The checkerboard start has opposite spins on neighbouring sites.", "quantifier": "all numbers of sites and electrons, Hermitian one-body matrices, eigenvector routines and orderings that meet their specification, starting matrices, mixing parameters, tolerances and numbers of iterations", "why_tests_cant": "Whether an iteration stops at a self-consistent field cannot be seen from the energies of one run: the test in the code compares successive outputs, which also agree at points that are not self-consistent. Nodes in orbitals, open shells, complex orbitals and lattices other than 4 by 4 are not among the tested inputs.", "anchors": ["pauxy/trial_wavefunction/free_electron.py:FreeElectron", "pauxy/trial_wavefunction/hartree_fock.py:HartreeFock", "pauxy/trial_wavefunction/uhf.py:UHF", "pauxy/utils/linalg.py:diagonalise_sorted"]}
{"id": "C71", "title": "The plane wave system on a grid is the sphere below the cutoff, and its energy by fast Fourier transforms is exact", "statement": "The system for fast Fourier transforms has exactly the plane waves below the cutoff and all momentum transfers between them, its lookup table finds plane waves of the basis and no others, convolutions by zero-padded transforms do not wrap around, and the local energy computed with them from half-rotated Green's functions is the Wick contraction of the plane wave Hamiltonian for every trial wavefunction and number of electrons, also when called by the mixed estimator.", "quantifier": "all cutoffs, box sizes (with |2 pi/L|^2 at least 1e-10), twists, grid sizes, padded lengths, numbers of electrons, trial wavefunctions and Green's functions", "why_tests_cant": "The index arithmetic of scatter, convolve, flip and gather is right or wrong for a whole family of grids, and aliasing depends on the padded length chosen by the library; tests have one cutoff and compare with the same routine. The lookup table uses a radix that is too small by one and only works because of which vectors are in the sphere.", "anchors": ["pauxy/systems/pw_fft.py:PW_FFT", "pauxy/estimators/pw_fft.py:local_energy_pw_fft", "pauxy/estimators/utils.py:convolve", "pauxy/estimators/ueg_kernels.pyx:exchange_greens_function_fft", "pauxy/estimators/mixed.py:local_energy"]}
{"id": "C72", "title": "The propagator of plane waves by fast Fourier transforms applies the Taylor polynomial of the field operator, shifted by the force bias", "statement": "A step of the plane wave propagator shifts the fields by the expectation values of the two density operators of each momentum transfer, cut to length 1, returns the logarithm of the ratio of Gaussian weights, and applies to the orbitals exactly the Taylor polynomial of the operator of the shifted fields in the plane wave basis; valid convolutions, flips and masks lose or alias no plane wave. The squares of these operators and the modified one-body matrix add up to the plane wave Hamiltonian. This holds for every number of electrons of each spin.", "quantifier": "all cutoffs, box sizes, padded lengths, orders of the expansion, fields, trial wavefunctions, Green's functions and walkers", "why_tests_cant": "The valid part of a convolution of a 4n+1 and a 2n+1 grid, the reversed grids and the mask between orders are correct as a family of index identities; the tests compare energies for one cutoff within statistical or loose tolerances.", "anchors": ["pauxy/propagation/pw.py:PW.apply_two_body_propagator", "pauxy/propagation/pw.py:PW.construct_force_bias_fft", "pauxy/estimators/utils.py:scipy_fftconvolve", "pauxy/estimators/ueg_kernels.pyx:mod_one_body"]}
{"id": "C73", "title": "The exact diagonalisation of electrons and phonons uses every basis state once and the matrix of the Hubbard-Holstein Hamiltonian", "statement": "The balls-in-boxes generator yields every distribution respecting the box sizes exactly once; the boson basis of simple_fci_bose_fermi is every vector of phonon numbers with total at most nboson_max exactly once, and every element of Htot equals the element of He + w0 sum b^dagger b + g sum n_i (b_i + b_i^dagger) between the corresponding product states, for every integral table.", "quantifier": "all box sizes and numbers of balls; all numbers of sites, electrons of each spin and phonons, all integrals, frequencies and couplings", "why_tests_cant": "The only test compares the ground state of one system with one number; a wrong offset of a phonon sector or a missing state shows only for other sizes.", "anchors": ["pauxy/estimators/ci.py:simple_fci_bose_fermi", "pauxy/estimators/ci.py:unlabeled_balls_in_labeled_boxes", "pauxy/estimators/ci.py:_unlabeled_balls_in_labeled_boxes"]}
{"id": "C74", "title": "The FCIDUMP file written from k-point Cholesky vectors holds every momentum-conserving integral once", "statement": "write_fcidump_kpoint writes the same lines, in another order, as write_fcidump for the integrals between all Bloch orbitals, where (IK|JL) is the sum of Cholesky products of the one transfer that takes k_I to k_K and k_L to k_J; reading the file gives back the integrals above the threshold, the block-diagonal one-body matrix, the core energy and the electron numbers. The vectors get_kpoint_chol supplies for missing transfers give Hermitian integrals, and real integrals can be written in the real format.", "quantifier": "all numbers of k points, orbitals per k point, transfers with a consistent table, Cholesky vectors, thresholds, symmetry settings 1 and 4", "why_tests_cant": "No test writes a k-point file; the running counters ik and lj, the offsets and the map from transfers to k points are right for one orbital per k point in many wrong versions.", "anchors": ["pauxy/utils/hamiltonian_converter.py:write_fcidump_kpoint", "pauxy/utils/hamiltonian_converter.py:get_kpoint_chol", "pauxy/utils/hamiltonian_converter.py:read_fcidump"]}
{"id": "C75", "title": "Recomputed CI coefficients give the lowest energy in the span of the determinants", "statement": "recompute_ci_coeffs returns the normalised coefficients whose linear combination of the determinants of the trial wavefunction has the lowest energy of all combinations: for orthogonal (particle-hole) expansions in terms of the Hamiltonian on Fock space, for other expansions in terms of the overlaps and the local energies of the pairs of determinants.", "quantifier": "all numbers of determinants, orbitals and electrons, all integrals, all thresholds, every eigensolver that meets its documentation", "why_tests_cant": "The one test calls the function with random real integrals and an orthogonal expansion and does not look at the result; complex integrals, non-orthogonal expansions and small overlaps are never run.", "anchors": ["pauxy/trial_wavefunction/multi_slater.py:recompute_ci_coeffs", "pauxy/trial_wavefunction/utils.py:get_trial_wavefunction", "pauxy/estimators/ci.py:get_hmatel"]}
{"id": "C76", "title": "Particle-hole trial wavefunctions: matrices, occupation lists and overlaps describe one state", "statement": "from_phmsd turns the occupation lists of a particle-hole expansion into orbital matrices (used in the overlaps with walkers) and into sorted lists spin_occs (used in the Hamiltonian matrix elements); both describe the same Slater determinants on Fock space, and the overlap of a walker with the expansion is the inner product of the states there.", "quantifier": "all numbers of orbitals, electrons and determinants, all occupation lists and coefficients, all walkers", "why_tests_cant": "Tests use sorted occupation lists of a few determinants and compare energies of one code path with another; signs of unsorted lists, repeated orbitals, lists of the wrong length and the orbs argument are never run.", "anchors": ["pauxy/trial_wavefunction/multi_slater.py:from_phmsd", "pauxy/walkers/multi_det.py:overlap_direct"]}
{"id": "C77", "title": "The regularised inverse solves a damped least squares problem", "statement": "regularise_matrix_inverse returns, for every square matrix and every nonzero real cutoff c, the matrix (A^H A + c^2)^-1 A^H, which maps b to the only minimum of |Ax-b|^2 + c^2|x|^2 and does not depend on the singular value decomposition; its norm is at most 1/(2c), and the distance from the inverse is given exactly.", "quantifier": "all sizes, all square complex matrices including singular ones, all real cutoffs, every singular value decomposition", "why_tests_cant": "No test calls the function; a few matrices could not show the minimum property, the bound for nearly singular matrices or the independence of the decomposition.", "anchors": ["pauxy/utils/linalg.py:regularise_matrix_inverse"]}
{"id": "C78", "title": "Errors of averages over independent calculations at one imaginary time", "statement": "average_tau returns, for each group of rows, the quotient of the means of numerator and denominator with the standard error of the delta method (the standard error of ENumer - E EDenom over the mean denominator), and the means of the other columns with their standard errors.", "quantifier": "all groups of all sizes, all real data", "why_tests_cant": "No test calls the function; that the number under the root is a sum of squares, and that correlated data give no error, are statements about all data.", "anchors": ["pauxy/analysis/blocking.py:average_tau", "pauxy/analysis/blocking.py:analyse_estimates"]}
{"id": "C79", "title": "One-body operators from sampled density matrices", "statement": "analyse_one_body returns one row for each back propagation time with the operator contracted with the mean of the sampled density matrices after the first skip ones, summed over spin, and the standard error of the contractions, for operators with and without a spin index.", "quantifier": "all operators, all numbers of orbitals, splits and samples", "why_tests_cant": "No test calls the function; that the mean of the contractions is the contraction of the mean holds for all samples, and the unused arguments only show when samples and operators vary.", "anchors": ["pauxy/analysis/rdm.py:analyse_split", "pauxy/analysis/rdm.py:analyse_one_body"]}
{"id": "C80", "title": "Hole and spin densities from sampled Green's functions", "statement": "average_correlation returns on every site the mean hole and spin densities with their standard errors, which obey the sum rules of the numbers of particles, and the mean Green's function.", "quantifier": "all numbers of sites and samples, all samples", "why_tests_cant": "Nothing in the repository calls the function; the sum rules and the errors are statements about all samples.", "anchors": ["pauxy/analysis/blocking.py:average_correlation"]}
{"id": "C81", "title": "The rotated Green's function", "statement": "rotated_greens_function sets Gmod to the half-rotated Green's function of the walker and the trial: the matrix with rows in the span of the walker's orbitals that is dual to the trial, the same as greens_function stores there, unchanged by reorthogonalisation.", "quantifier": "all trials and walkers with invertible overlap, all numbers of orbitals and electrons", "why_tests_cant": "Nothing in the repository calls the function; uniqueness and invariance quantify over all matrices.", "anchors": ["pauxy/walkers/single_det.py:rotated_greens_function", "pauxy/walkers/single_det.py:inverse_overlap"]}
{"id": "C82", "title": "Real orbitals for the uniform electron gas", "statement": "For a basis of distinct plane waves closed under inversion compute_real_transformation returns a unitary matrix whose columns are real orbitals, so that for integrals that are real and invariant under inversion eri_8 discards no imaginary part, and for those of a real and even potential over plane waves it has the eightfold symmetry; a wave vector without its opposite fails the assertion.", "quantifier": "all bases of all sizes, all inversion symmetric integrals", "why_tests_cant": "The only calls in the tests are commented out; the loop fills pairs in an order that depends on the basis, and unitarity is needed for all bases.", "anchors": ["pauxy/systems/ueg.py:compute_real_transformation", "pauxy/systems/ueg.py:eri_8"]}
{"id": "C83", "title": "Orthogonal atomic orbitals and the Roothaan equation", "statement": "get_orthoAO and get_ortho_ao_mod return orbitals X with X^+ S X = 1, one for each eigenvalue of the overlap matrix above the cutoff; the modified overlap matrix agrees with S on them and has X X^+ as generalised inverse; molecular_orbitals_rhf gives orthonormal solutions of F (X c) = S (X c) e on their span, everywhere if no eigenvalue is below the cutoff.", "quantifier": "all overlap and Hermitian Fock matrices of all sizes, all cutoffs >= 0", "why_tests_cant": "Linear dependence appears for some overlap matrices only, and which columns are kept depends on the spectrum.", "anchors": ["pauxy/utils/linalg.py:get_orthoAO", "pauxy/utils/from_pyscf.py:get_ortho_ao", "pauxy/utils/linalg.py:get_ortho_ao_mod", "pauxy/utils/linalg.py:molecular_orbitals_rhf"]}
{"id": "C84", "title": "Ionisation potentials and electron affinities", "statement": "analyse_ekt_ipea returns the diagonal elements of the screened 1h (1p) Fock matrix in orbitals that diagonalise it and are orthonormal with the spin-summed, screened, Hermitian and real density matrix G (with 2 - G^T); if all eigenvalues of the metric are above the cutoff they are the generalised eigenvalues of F z = e G z.", "quantifier": "all averages and errors, sizes, screening factors and cutoffs >= 0 for which the screened Fock matrices are Hermitian", "why_tests_cant": "Screening and the cutoff remove different elements and orbitals for every sample, and eigh ignores half of its argument.", "anchors": ["pauxy/analysis/blocking.py:analyse_ekt_ipea"]}
