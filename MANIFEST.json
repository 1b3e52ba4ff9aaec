{
 "claims": [
  {
   "property": "C01",
   "status": "proved",
   "theorems": [
    "C01_comb_counts_total"
   ],
   "note": "All weights, targets and offsets; loop proved to stay inside its arrays and to terminate."
  },
  {
   "property": "C02",
   "status": "proved",
   "theorems": [
    "C02_comb_counts_floor_ceil"
   ],
   "note": ""
  },
  {
   "property": "C03",
   "status": "proved",
   "theorems": [
    "C03_comb_unbiased"
   ],
   "note": "Mean over every equispaced grid of offsets, error below 1/m for every m."
  },
  {
   "property": "C04",
   "status": "partial",
   "theorems": [
    "C04_comb_multiset_refuted",
    "C04_comb_multiset_iff",
    "C04_comb_multiset_partial"
   ],
   "note": "False of the code: a walker drawn three or more times ends up in two slots. Proved exact scope: holds iff no count exceeds two."
  },
  {
   "property": "C05",
   "status": "proved",
   "theorems": [
    "C05_comb_transfer"
   ],
   "note": "All ranks, all interleavings, buffered and rendezvous sends."
  },
  {
   "property": "C06",
   "status": "proved",
   "theorems": [
    "C06_pair_branch_conserves"
   ],
   "note": ""
  },
  {
   "property": "C07",
   "status": "proved",
   "theorems": [
    "C07_pair_branch_transfer",
    "C08_pair_branch_window"
   ],
   "note": "Which copy lands in which killed slot is not determined by the code when several messages share a (source,destination) tag; the theorem gives the multiset and the untouched slots."
  },
  {
   "property": "C08",
   "status": "proved",
   "theorems": [
    "C08_pair_branch_window"
   ],
   "note": ""
  },
  {
   "property": "C09",
   "status": "proved",
   "theorems": [
    "C09_pair_branch_unbiased"
   ],
   "note": ""
  },
  {
   "property": "C10",
   "status": "proved",
   "theorems": [
    "C10_rescale",
    "C10_exit",
    "C10_single_walker",
    "C10_comb_total",
    "C10_pair_branch_total"
   ],
   "note": ""
  },
  {
   "property": "C11",
   "status": "partial",
   "theorems": [
    "C11_walkers",
    "C11_thermal",
    "C11_setup_parallel_refuted",
    "C11_setup_parallel_iff",
    "C11_numbering",
    "C11_numbering_inverse"
   ],
   "note": "Proved for both drivers; refuted for calc.setup_parallel (total reported as 0 when there are fewer walkers than processes), with the exact scope."
  },
  {
   "property": "C12",
   "status": "proved",
   "theorems": [
    "C12_seeds_distinct",
    "C12_seeds_value",
    "C12_seeds_accepted",
    "C12_seeds_shared_between_runs"
   ],
   "note": ""
  },
  {
   "property": "C13",
   "status": "partial",
   "theorems": [
    "C13_roundtrip",
    "C13_constructed_sized",
    "C13_tot_wfac_refuted"
   ],
   "note": "Exact scope proved (faithful iff each receiving scalar's python type is wide enough); refuted in general for the accumulated factor of a field history."
  },
  {
   "property": "C14",
   "status": "partial",
   "theorems": [
    "C14_history",
    "C14_push_history",
    "C14_windows",
    "C14_unpropagated_walker_refuted"
   ],
   "note": "Exact for one history and for runs in which every walker is propagated; refuted when the first walker is skipped for negligible weight, and when the number of splits does not divide the window."
  },
  {
   "property": "C15",
   "status": "partial",
   "theorems": [
    "C15_stack",
    "C15_overrun",
    "C15_indivisible",
    "C15_weight",
    "C15_update",
    "C15_update_when_read",
    "C15_update_refuted"
   ],
   "note": "Proved for the update used by every continuous propagator (plain and diagonal trial). The update of the discrete constrained propagator is refuted inside a bin, with its exact content, and proved right at every slice where that propagator reads it. The low-rank update is not covered here."
  },
  {
   "property": "C16",
   "status": "partial",
   "theorems": [
    "C16_reset_iff",
    "C16_paths",
    "C16_reset_refuted"
   ],
   "note": "Proved for any number of complete paths; refuted for a reset inside a bin (counter is not reset), with an exact iff. See C59 for what the walker's reset leaves behind."
  },
  {
   "property": "C17",
   "status": "proved",
   "theorems": [
    "C17_update_stack",
    "C17_walker_stack_size",
    "C17_zero",
    "C17_stabilisation"
   ],
   "note": ""
  },
  {
   "property": "C18",
   "status": "partial",
   "theorems": [
    "C18_roundtrip",
    "C18_same_file_refuted",
    "C18_crash_refuted"
   ],
   "note": "Round trip proved for all layouts and write orders; refuted when the read file is also the write file, and for a file left by a run that stopped before its first write."
  },
  {
   "property": "C19",
   "status": "partial",
   "theorems": [
    "C19_series_partial",
    "C19_order",
    "C19_window_refuted",
    "C19_order_refuted"
   ],
   "note": "Proved for an averaging window of one (what every caller uses) and up to 10^9 blocks; refuted for longer windows."
  },
  {
   "property": "C20",
   "status": "partial",
   "theorems": [
    "C20_fresh_partial",
    "C20_keeps",
    "C20_default_refuted",
    "C20_loop_refuted",
    "C20_value_error_refuted"
   ],
   "note": "Proved for overwrite=False and base names without a dot; refuted for the defaults and for dotted names."
  },
  {
   "property": "C21",
   "status": "partial",
   "theorems": [
    "C21_weighted_averages",
    "C21_total_is_sum",
    "C21_distribution",
    "C21_scale",
    "C21_one_rdm",
    "C21_columns",
    "C21_average_gf_refuted",
    "C21_two_rdm_refuted"
   ],
   "note": "Proved for every option set except average_gf (energies always nan) and two_rdm without one_rdm (raises), which are refuted."
  },
  {
   "property": "C22",
   "status": "partial",
   "theorems": [
    "C22_blocks_partial",
    "C22_blocks_quiet",
    "C22_quiet_refuted"
   ],
   "note": "Proved for verbose runs; refuted for verbose=False, with the exact content of every block."
  },
  {
   "property": "C23",
   "status": "partial",
   "theorems": [
    "C23_schedule",
    "C23_shift",
    "C23_thermal_schedule",
    "C23_cap",
    "C23_cap_current_total_refuted",
    "C23_cap_small_population",
    "C23_cap_large_population"
   ],
   "note": "Schedule proved. The cap is relative to the total at the last population control; relative to the current total it is refuted."
  },
  {
   "property": "C24",
   "status": "partial",
   "theorems": [
    "C24_key",
    "C24_alias",
    "C24_default",
    "C24_nested",
    "C24_null_refuted"
   ],
   "note": "Proved for keys present with a value other than None; refuted for an explicit null, which is treated as absent."
  },
  {
   "property": "C25",
   "status": "proved",
   "theorems": [
    "C25_merge",
    "C25_order",
    "C25_write_input"
   ],
   "note": "Aliasing of sub-dictionaries between the arguments is not modelled."
  },
  {
   "property": "C26",
   "status": "partial",
   "theorems": [
    "C26_representative",
    "C26_one_line",
    "C26_lines",
    "C26_roundtrip",
    "C26_imag_refuted",
    "C26_paren_refuted"
   ],
   "note": "Proved for the complex format and for real numbers (printing taken as exact, integrals below the threshold become zero). Refuted: the real format drops negative imaginary parts silently, the parenthesised format cannot be read back."
  },
  {
   "property": "C27",
   "status": "proved",
   "theorems": [
    "C27_chunks",
    "C27_writer",
    "C27_roundtrip",
    "C27_interleave",
    "C27_csr_index",
    "C27_old_hcore"
   ],
   "note": "Entries not above the cutoff come back as zero."
  },
  {
   "property": "C28",
   "status": "partial",
   "theorems": [
    "C28_phmsd",
    "C28_nelec_refuted",
    "C28_nomsd_nelec_refuted",
    "C28_orbitals",
    "C28_nomsd_rhf",
    "C28_nomsd_uhf_partial",
    "C28_nomsd_uhf_what",
    "C28_nomsd_uhf_stops",
    "C28_polarised_refuted",
    "C28_nomsd_uhf_refuted",
    "C28_phfmol"
   ],
   "note": "Occupations, restricted orbitals and one unrestricted determinant come back; unrestricted files with several determinants are read with the wrong alpha orbitals (exact content proved), a file without beta electrons cannot be read, and giving unequal electron numbers to the reader raises. Coefficients and the initial walker are not modelled."
  },
  {
   "property": "C29",
   "status": "partial",
   "theorems": [
    "C29_elements_partial",
    "C29_car",
    "C29_car_annihilate",
    "C29_beyond_double",
    "C29_hermitian",
    "C29_one_body",
    "C29_basis",
    "C29_spin_flip_refuted"
   ],
   "note": "Equality with the second-quantised matrix element, its one- and two-body parts and Hermiticity for all determinants with equal numbers of each spin, any basis size and any commutative ring with one half; refuted between determinants of different spin projection, where the code returns a nonzero element. Diagonalisation is not modelled."
  },
  {
   "property": "C30",
   "status": "proved",
   "theorems": [
    "C30_enumeration",
    "C30_errors"
   ],
   "note": "Exactly the admissible occupations, each once, in order; other inputs raise ValueError. Type checks are not modelled."
  },
  {
   "property": "C31",
   "status": "partial",
   "theorems": [
    "C31_decode_encode",
    "C31_encode_decode",
    "C31_injective",
    "C31_kpoints",
    "C31_fft",
    "C31_same_order_refuted"
   ],
   "note": "Coordinates and numbers are inverse for all sizes. The FFT routines number sites by columns: they see the neighbours of the lattice exactly for square lattices and chains (iff), so the same-order part is refuted for rectangles."
  },
  {
   "property": "C32",
   "status": "partial",
   "theorems": [
    "C32_kinetic",
    "C32_two_sites_refuted",
    "C32_two_sites_antiperiodic_refuted",
    "C32_pinning",
    "C32_pinning_alt",
    "C32_pinning_chain"
   ],
   "note": "Hermitian for all sizes, twists and boundary conditions, exact value as a sum over bonds, exactly one bond between neighbours for lengths other than two; refuted for periodic directions of length two (bond counted twice). Both pinning variants likewise; they raise IndexError on a chain."
  },
  {
   "property": "C33",
   "status": "partial",
   "theorems": [
    "C33_lookup",
    "C33_index_injective",
    "C33_untwisted",
    "C33_twisted",
    "C33_twist_refuted",
    "C33_negative_cutoff"
   ],
   "note": "For every cutoff and twist a constructed system looks up exactly its basis and the index is injective; construction succeeds iff the last plane wave has the largest norm, always without a twist, and is refuted for a twist (AssertionError). Exact arithmetic."
  },
  {
   "property": "C34",
   "status": "partial",
   "theorems": [
    "C34_ikpq",
    "C34_ipmq",
    "C34_transfers",
    "C34_transfers_complete",
    "C34_density",
    "C34_twist_refuted",
    "C34_down_refuted"
   ],
   "note": "Lists and density operators are sound and complete for all cutoffs, twists and transfers; the transfers are all nonzero vectors and cover every pair without a twist, refuted for a twist of one half; pairs of down electrons beyond nup are missing."
  },
  {
   "property": "C35",
   "status": "proved",
   "theorems": [
    "C35_sherman_morrison",
    "C35_determinant",
    "C35_inverse_overlap",
    "C35_green",
    "C35_ratio",
    "C35_ratio_multi_det",
    "C35_ratio_ghf",
    "C35_ratio_multi_ghf",
    "C35_thermal_update",
    "C35_thermal_ratio",
    "C35_thermal_sweep"
   ],
   "note": "All sizes, any field, any function as conjugation; includes the thermal sweep over all sites."
  },
  {
   "property": "C36",
   "status": "partial",
   "theorems": [
    "C36_sweep_factor",
    "C36_spin",
    "C36_orbitals",
    "C36_step",
    "C36_charge_refuted",
    "C36_polarised",
    "C36_calc_otrial",
    "C36_calc_overlap",
    "C36_log_shift",
    "C36_calc_overlap_refuted"
   ],
   "note": "Proved for the spin decomposition, all sizes and random numbers, including whole time steps (dead walkers excepted). Refuted for the charge decomposition, where the stored overlap carries the product of the field factors (exact value proved), and for calc_overlap with nup <> ndown."
  },
  {
   "property": "C37",
   "status": "partial",
   "theorems": [
    "C37_hirsch",
    "C37_lattice",
    "C37_attractive_spin",
    "C37_thermal",
    "C37_constrained_charge_refuted"
   ],
   "note": "Exact for both decompositions, all occupations and any number of sites, zero temperature and thermal; the spin decomposition is undefined (nan) for attractive U. Refuted for the constrained thermal propagator with charge decomposition, which leaves aux_wfac out (iff dt U = 0)."
  },
  {
   "property": "C38",
   "status": "partial",
   "theorems": [
    "C38_single_site",
    "C38_single_site_constrained",
    "C38_free",
    "C38_direct_general",
    "C38_direct_partial",
    "C38_direct_imaginary",
    "C38_direct_refuted",
    "C38_force_bias"
   ],
   "note": "Proved for single-site sampling, free projection and the Gaussian shift with a real force bias (any number of fields; expectations are iterated Riemann integrals). Refuted for two_body_direct, whose mean is too small by a factor of two for every site (exact factor proved). A complex force bias is not covered."
  },
  {
   "property": "C39",
   "status": "partial",
   "theorems": [
    "C39_hybrid_formula",
    "C39_hybrid_nonneg",
    "C39_hybrid_rejected",
    "C39_window",
    "C39_window_nearest",
    "C39_window_small_shift",
    "C39_local_energy_bound",
    "C39_hybrid_growth",
    "C39_pw",
    "C39_local_formula",
    "C39_local_nonneg",
    "C39_local_rejected",
    "C39_local_zero_overlap_refuted",
    "C39_local_shift_refuted",
    "C39_local_growth_refuted",
    "C39_local_overflow_refuted",
    "C39_thermal",
    "C39_kinetic"
   ],
   "note": "Proved for the hybrid update, the thermal update and the one-body step: sign, exact rejection condition, window, growth over any run. The local-energy update is non-negative, but refuted elsewhere: the energy it stores is not clipped, the shift enters with half its weight, a zero overlap is kept, an overflow raises NameError."
  },
  {
   "property": "C40",
   "status": "partial",
   "theorems": [
    "C40_cap",
    "C40_idempotent",
    "C40_calls",
    "C40_limit_refuted",
    "C40_limit_grows_refuted"
   ],
   "note": "Proved for all vectors with the limit one; refuted for the fb_bound option of the thermal plane-wave propagator, which always rescales to modulus one."
  },
  {
   "property": "C41",
   "status": "partial",
   "theorems": [
    "C41_reortho",
    "C41_single_orbitals",
    "C41_single_green",
    "C41_green_overlap",
    "C41_single_overlap",
    "C41_single_consistent",
    "C41_multi",
    "C41_multi_green_partial",
    "C41_multi_green_refuted",
    "C41_free",
    "C41_constrained",
    "C41_ghf",
    "C41_ghf_free_refuted"
   ],
   "note": "Proved for single- and multi-determinant walkers of full rank, all sizes and every QR with a real diagonal: orbitals, Green's functions, overlap, ot and, in free projection, weight times phase times overlap. Refuted for the multi-determinant Green's function where an unnormalised overlap is under the absolute threshold 1e-16, and for free projection with GHF walkers (TypeError). reortho_excite is not modelled."
  },
  {
   "property": "C42",
   "status": "partial",
   "theorems": [
    "C42_forms",
    "C42_response",
    "C42_projector",
    "C42_basis",
    "C42_half",
    "C42_spin",
    "C42_spin_refuted"
   ],
   "note": "Proved for all sizes and invertible overlaps; gab is the transpose of the other routines. Refuted for gab_spin without down electrons (UnboundLocalError)."
  },
  {
   "property": "C43",
   "status": "partial",
   "theorems": [
    "C43_greens_function",
    "C43_unstable",
    "C43_svd",
    "C43_qr",
    "C43_strat",
    "C43_errors",
    "C43_left_right",
    "C43_woodbury",
    "C43_rdm",
    "C43_rdm_stable",
    "C43_rdm_stable_zero",
    "C43_number",
    "C43_inverse_qr",
    "C43_inverse_svd_partial",
    "C43_inverse_svd_refuted"
   ],
   "note": "All Green's function routines, density matrices and particle numbers proved for all sizes, any stack contents and every admissible factorisation (exact arithmetic). inverse_greens_function returns (1+A)^dagger: right exactly for Hermitian A, refuted otherwise. The number of scales kept is not modelled; the truncated formula is proved for any number."
  },
  {
   "property": "C44",
   "status": "partial",
   "theorems": [
    "C44_generic",
    "C44_cholesky",
    "C44_half_rotated",
    "C44_exact_eri",
    "C44_pno",
    "C44_walker",
    "C44_core",
    "C44_multi_det"
   ],
   "note": "Agreement of every routine with Wick's theorem proved for all sizes. For the dispatch by options the exact outcome is proved: right or one of three exceptions (control variate without exact integrals, pair orbitals without both, stochastic). Floating point and timing branches are not modelled."
  },
  {
   "property": "C45",
   "status": "partial",
   "theorems": [
    "C45_hubbard",
    "C45_ghf",
    "C45_symmetric_refuted"
   ],
   "note": "Proved for all lattices; refuted for the symmetric option, whose extra term is computed and overwritten."
  },
  {
   "property": "C46",
   "status": "partial",
   "theorems": [
    "C46_generic",
    "C46_generic_gap",
    "C46_generic_refuted",
    "C46_hubbard",
    "C46_hubbard_symmetric",
    "C46_ueg"
   ],
   "note": "Operator identities in every algebra satisfying the anticommutation relations (Fock space given as an instance for every number of orbitals): proved for symmetric Cholesky vectors, the Hubbard model and the electron gas. For vectors that are not symmetric the routine subtracts 1/2 L L^T where 1/2 L L is needed: exact error proved, refuted in every such algebra. The symmetric Hubbard option gives an excess of U/2 per particle."
  },
  {
   "property": "C47",
   "status": "partial",
   "theorems": [
    "C47_modified_partial",
    "C47_enough",
    "C47_buffer_refuted",
    "C47_chunked",
    "C47_verbose_refuted",
    "C47_outcore_partial",
    "C47_outcore_refuted",
    "C47_chunk_one_refuted",
    "C47_dispatch_refuted"
   ],
   "note": "For every positive semidefinite Hermitian matrix and threshold: all entries within the threshold, pivot rows exact, at most n vectors, termination; in-core variant equal. Refuted: the buffer of cmax*sqrt(n) rows is too small for some matrices (IndexError), the out-of-core variant never stores the last incomplete chunk (exact contents proved), chunk size one loses the first vector, verbose output raises, and the entry point returns None when the memory estimate is small. Exact arithmetic."
  },
  {
   "property": "C48",
   "status": "proved",
   "theorems": [
    "C48_shell",
    "C48_empty_shell"
   ],
   "note": "For all lists of shells with at least one contraction each and all orbitals; the shell is unique. An empty shell, which no basis has, would break the lookup."
  },
  {
   "property": "C49",
   "status": "proved",
   "theorems": [
    "C49_exponentiate",
    "C49_apply",
    "C49_agree",
    "C49_grid",
    "C49_adjoint",
    "C49_basis",
    "C49_commute",
    "C49_diagonal",
    "C49_unitary_refuted"
   ],
   "note": "All sizes, orders and fields; includes the plane-wave loop (its convolutions taken as one linear map). The refuted theorem concerns the docstring, which calls the result the exponential: at every order above 0 it is not unitary for some antihermitian matrix."
  },
  {
   "property": "C50",
   "status": "partial",
   "theorems": [
    "C50_tolerance",
    "C50_bracket_partial",
    "C50_converges_partial",
    "C50_iterations_partial",
    "C50_fermi_partial",
    "C50_zero_refuted",
    "C50_unreachable_refuted",
    "C50_fit",
    "C50_fit_refuted",
    "C50_fit_last_refuted",
    "C50_fit_short_refuted"
   ],
   "note": "The tolerance holds for every function. Bracket and convergence for all continuous functions with a strict sign change on some interval tried (for independent fermions: whenever the target can be reached and no root is at an interval end). Refuted: a root at an interval end is lost; unreachable targets never end; the fit to data need not be the best one, forgets roots and raises for short series."
  },
  {
   "property": "C51",
   "status": "partial",
   "theorems": [
    "C51_qr_exists",
    "C51_forward_generic",
    "C51_forward_planewave",
    "C51_generic_partial",
    "C51_planewave_partial",
    "C51_overlap_partial",
    "C51_store",
    "C51_zero_refuted",
    "C51_order_refuted",
    "C51_hubbard_partial",
    "C51_hubbard_overlap",
    "C51_hubbard_overlap_refuted",
    "C51_charge_refuted",
    "C51_continuous_refuted",
    "C51_ghf_partial",
    "C51_ghf_refuted",
    "C51_single_refuted"
   ],
   "note": "Adjoint of the product for all paths, sizes and orthogonalisation intervals, overlaps up to a positive factor that is 1 without orthogonalisation, Green's functions exactly. Refuted: the expansion order is fixed at 6 on the way back; Hubbard paths lack exp(-dt U/2), use the spin matrices for charge fields and raise for continuous fields; GHF and single-walker variants raise."
  },
  {
   "property": "C52",
   "status": "partial",
   "theorems": [
    "C52_run_partial",
    "C52_average",
    "C52_spacing",
    "C52_last_iff",
    "C52_division_refuted",
    "C52_fock_refuted",
    "C52_two_false_refuted",
    "C52_structure_refuted",
    "C52_ghf_refuted"
   ],
   "note": "All runs, processes, sizes and options in which Fock matrices come with one_rdm and two_rdm is not false. Density matrices are divided by the weight only in the analysis. Refuted for the other option combinations."
  },
  {
   "property": "C53",
   "status": "proved",
   "theorems": [
    "C53_array",
    "C53_once",
    "C53_partition",
    "C53_serial",
    "C53_slices",
    "C53_tiling",
    "C53_both"
   ],
   "note": "All sizes, numbers of vectors and processes, and every order of the writes of different processes."
  },
  {
   "property": "C54",
   "status": "partial",
   "theorems": [
    "C54_one_body",
    "C54_overlap",
    "C54_mixed_partial",
    "C54_zero",
    "C54_mixed_refuted",
    "C54_trial_conj",
    "C54_trial_partial",
    "C54_trial_refuted",
    "C54_trial_nan_refuted",
    "C54_trial_singular_refuted",
    "C54_energy_partial",
    "C54_ortho_energy",
    "C54_ortho_energy_re",
    "C54_ortho_energy_iff",
    "C54_ortho_energy_partial",
    "C54_ortho_energy_refuted",
    "C54_split_partial",
    "C54_split_refuted",
    "C54_ghf"
   ],
   "note": "Walkers: overlaps and one-body contractions are right when every determinant is above the threshold; determinants without overlap contribute nothing to the code, although their matrix elements need not vanish (refuted with a witness). Trial: contract_one_body conjugates both coefficients, so it is right for coefficients with a common phase and refuted otherwise (also nan and exceptions). variational_energy_ortho_det is right in its real part; all of it exactly when the imaginary parts of the lower triangle cancel. The energy from the largest determinant is weighted by the first overlap."
  },
  {
   "property": "C55",
   "status": "partial",
   "theorems": [
    "C55_ratio",
    "C55_ratio_error_partial",
    "C55_ratio_error_refuted",
    "C55_fp",
    "C55_fp_error_partial",
    "C55_fp_error_refuted",
    "C55_rdm_partial",
    "C55_rdm_refuted",
    "C55_equilibration_partial",
    "C55_equilibration_late",
    "C55_equilibration_refuted",
    "C55_equilibration_negative_refuted",
    "C55_back_prop_partial",
    "C55_back_prop_refuted",
    "C55_back_prop_file_refuted",
    "C55_pow_two",
    "C55_window",
    "C55_no_window_refuted",
    "C55_blocks_partial",
    "C55_constant_refuted",
    "C55_short_refuted",
    "C55_alternating_refuted",
    "C55_tail_refuted",
    "C55_estimates_partial",
    "C55_groups_refuted",
    "C55_free_projection_refuted"
   ],
   "note": "Ratios and correlation times are right for all series; equilibration is right when the zeroth row is written; blocks are of equal size, at least three, and cover all but fewer than one block. Refuted: errors of density matrices and of free projection use the wrong number of samples, block errors use n instead of n-1, the start time is ignored for back propagation (whose files are not found at all), one block too many is dropped without the zeroth row, short and constant series raise, several parameter sets raise, free projection raises. The pyblock library is not modelled."
  },
  {
   "property": "C56",
   "status": "partial",
   "theorems": [
    "C56_core_density",
    "C56_energy_partial",
    "C56_constant",
    "C56_exact_iff",
    "C56_skew_refuted",
    "C56_refuted",
    "C56_verbose_refuted",
    "C56_result"
   ],
   "note": "The frozen Hamiltonian is right for all sizes and active density matrices when the Cholesky vectors are symmetric (exact condition proved for general vectors). Refuted for freeze_core itself: it passes the vectors to the energy routine in the wrong shape and raises unless there are exactly nbasis^2 of them, and then raises when printing, or returns a matrix as core energy."
  },
  {
   "property": "C57",
   "status": "partial",
   "theorems": [
    "C57_hole",
    "C57_particle",
    "C57_exchange",
    "C57_closed_shell_partial",
    "C57_open_shell_partial",
    "C57_exchange_iff",
    "C57_hole_change",
    "C57_hole_refuted",
    "C57_particle_refuted"
   ],
   "note": "gen_fock_1h and gen_fock_1p are proved to be the averages of commutators in every state obeying Wick's theorem, and exchange with spin. The optimised routines called by the estimators equal their sum for closed shells and symmetric vectors; exact error proved for open shells, exchange symmetry refuted for both."
  },
  {
   "property": "C58",
   "status": "partial",
   "theorems": [
    "C58_counts",
    "C58_agree_iff",
    "C58_differ",
    "C58_exact_partial",
    "C58_exact_step",
    "C58_decimal_partial",
    "C58_decimal_bins_partial",
    "C58_slices_refuted",
    "C58_bins_refuted",
    "C58_overrun"
   ],
   "note": "All doubles: exact condition for agreement, and agreement of slices and bins whenever beta is a multiple of dt as doubles. For decimal inputs the driver has the number meant and the trial that number or one less. Refuted: beta=0.3, dt=0.05; and two bins instead of three for beta=0.9, dt=0.1."
  },
  {
   "property": "C59",
   "status": "partial",
   "theorems": [
    "C59_ratios",
    "C59_ratios_refuted"
   ],
   "note": "False of the code: the determinants saved from the previous path are not reset, so every path after the first is reweighted relative to the path before. Exact value proved for all runs."
  },
  {
   "property": "C60",
   "status": "partial",
   "theorems": [
    "C60_unbiased",
    "C60_no_samples",
    "C60_call_refuted"
   ],
   "note": "The formula is unbiased for all sizes; refuted for its caller, which passes an array of the wrong shape in every case, and with the default of no samples."
  },
  {
   "property": "C61",
   "status": "partial",
   "theorems": [
    "C61_energy",
    "C61_exact",
    "C61_thermal",
    "C61_walker_partial",
    "C61_refuted"
   ],
   "note": "Right for all bases and Green's functions at finite temperature, and for walkers whose trial has the lowest plane waves with at least as many up as down electrons. In general the potential energy is that of the Green's functions with all rows beyond nup set to zero, so it is refuted with fewer up than down electrons."
  },
  {
   "property": "C62",
   "status": "partial",
   "theorems": [
    "C62_ueg",
    "C62_ueg_symmetric_partial",
    "C62_build_J",
    "C62_unique",
    "C62_hubbard",
    "C62_generic_raises",
    "C62_generic_sparse",
    "C62_generic_sparse_refuted",
    "C62_refuted"
   ],
   "note": "Hubbard: right for all density matrices. Electron gas: the exchange part is that of the transposed density matrix, so it is right exactly when this does not matter (for example for symmetric density matrices) and refuted for hermitian ones. Generic systems: the dense branch always raises ValueError and the sparse branch has no exchange."
  },
  {
   "property": "C63",
   "status": "partial",
   "theorems": [
    "C63_derivatives",
    "C63_derivatives_momentum",
    "C63_unique",
    "C63_energy",
    "C63_energy_momentum",
    "C63_sym_laplacian",
    "C63_sym_energy",
    "C63_sym_gradient_partial",
    "C63_sym_gradient_refuted",
    "C63_steps",
    "C63_zero_variance",
    "C63_free",
    "C63_sorella_refuted",
    "C63_acceptance_partial",
    "C63_acceptance_refuted"
   ],
   "note": "Gradients and Laplacians of single oscillators, Laplacians of symmetrised ones and weights are right for all inputs. Refuted: the gradient of a symmetrised state with complex coefficients (right for real ones); the Sorella kinetic energy sums squares of ratios; the acceptance has the variance dt/m of a step wrong unless m = 1."
  },
  {
   "property": "C64",
   "status": "partial",
   "theorems": [
    "C64_position",
    "C64_momentum_partial",
    "C64_lang_firsov",
    "C64_momentum_raises",
    "C64_momentum_off_refuted",
    "C64_first_shift",
    "C64_coherent",
    "C64_multi_partial",
    "C64_perm_partial",
    "C64_symmetric_refuted",
    "C64_multi_refuted",
    "C64_perm_refuted"
   ],
   "note": "Position space: right for all parameters, but the option symmetric has no effect. Momentum space: right for m*w0 = 1, an AssertionError for any other mass with a coupling. Superpositions: right for real states, refuted for complex coefficients; symmetrised states: right for permutations that are symmetries of the lattice, refuted for all permutations of an open chain."
  },
  {
   "property": "C65",
   "status": "partial",
   "theorems": [
    "C65_kspace_partial",
    "C65_real_partial",
    "C65_exists",
    "C65_transform",
    "C65_real_space",
    "C65_one_column_refuted",
    "C65_rectangle_refuted",
    "C65_open_refuted",
    "C65_ffts_refuted"
   ],
   "note": "Right for periodic chains and squares of every size and any function of the hopping matrix; plane waves and energies agree on all periodic lattices. Refuted: rectangles (layout of reshape), one site along x, open boundaries, and the option ffts, which passes the matrices instead of the factors and always raises."
  },
  {
   "property": "C66",
   "status": "partial",
   "theorems": [
    "C66_scf",
    "C66_run",
    "C66_ok",
    "C66_change",
    "C66_converges",
    "C66_fixed",
    "C66_distance",
    "C66_alpha_refuted",
    "C66_raises",
    "C66_verbose_refuted",
    "C66_target_refuted",
    "C66_one_body",
    "C66_trial",
    "C66_number_refuted",
    "C66_alt_refuted",
    "C66_green_refuted"
   ],
   "note": "Exact description of both loops for every Fock map; error bound and convergence for maps that contract towards a self-consistent point; self-consistent points are kept. Refuted: the density matrix belongs to the previous chemical potential, alpha = 1 stops at once, the target is ignored when mu is given, the alternate sign of mu is ignored, verbose output raises for different spins, the Green's function stored is that of one slice."
  },
  {
   "property": "C67",
   "status": "partial",
   "theorems": [
    "C67_step",
    "C67_rows",
    "C67_exact_partial",
    "C67_zero",
    "C67_length",
    "C67_reset",
    "C67_qr_exists",
    "C67_order_refuted",
    "C67_reset_refuted"
   ],
   "note": "Every step, with any threshold: exact description and a column-wise error bound by the threshold; exact for all paths with threshold zero, and for all paths along which nothing is dropped. Refuted: the number of large left scales is used as an index, so unsorted trials lose orbitals; resetting the walkers keeps the Green's function and weight of the last path."
  },
  {
   "property": "C68",
   "status": "partial",
   "theorems": [
    "C68_unstable",
    "C68_stable_partial",
    "C68_down_refuted",
    "C68_ghf_unstable",
    "C68_ghf_greater",
    "C68_ghf_lesser_refuted",
    "C68_first_partial",
    "C68_eigen",
    "C68_unstable_refuted",
    "C68_slices_refuted",
    "C68_average"
   ],
   "note": "The plain increments are right for all paths; the stabilised ones for the greater functions and the lesser one of the first spin. The whole loop is right at equal times and for the first slice, and for all slices when the propagators keep the trial's span. Refuted: later slices use a left determinant one slice off, the lesser function of the second spin is built from the first, the one-matrix lesser function is multiplied in the wrong order, and the plain form always raises NameError."
  },
  {
   "property": "C69",
   "status": "partial",
   "theorems": [
    "C69_generic",
    "C69_multi_det",
    "C69_hubbard",
    "C69_spin",
    "C69_spin_partial",
    "C69_spin_refuted",
    "C69_planewave",
    "C69_thermal_generic",
    "C69_thermal_dense_refuted",
    "C69_thermal_hubbard",
    "C69_thermal_planewave",
    "C69_thermal_planewave_partial",
    "C69_thermal_planewave_refuted",
    "C69_linear",
    "C69_step",
    "C69_gauss",
    "C69_bias",
    "C69_bias_spin_refuted",
    "C69_fast",
    "C69_fast_sparse_refuted",
    "C69_fast_sparse_raises",
    "C69_shift",
    "C69_multi_det_bias"
   ],
   "note": "Proved for the generic (one or several determinants), Hubbard, plane-wave and thermal Hubbard propagators and the sparse thermal generic one, with the step average, the change of variables and the first-order cancellation. Refuted, with the exact error: the spin decomposition of the Hubbard model (right only if both spins have the same densities), thermal plane waves (right only for diagonal density matrices), the dense thermal generic propagator (always ValueError) and the fast bias from sparse rotated vectors."
  },
  {
   "property": "C70",
   "status": "partial",
   "theorems": [
    "C70_routines",
    "C70_free",
    "C70_reference_partial",
    "C70_reference_refuted",
    "C70_ghf",
    "C70_ghf_refuted",
    "C70_hartree_fock",
    "C70_restricted",
    "C70_excite",
    "C70_excite_down",
    "C70_excite_refuted",
    "C70_uhf",
    "C70_fixed_point",
    "C70_uhf_refuted",
    "C70_nav_refuted",
    "C70_spin",
    "C70_spin_refuted",
    "C70_checkerboard_partial",
    "C70_checkerboard_refuted",
    "C70_checkerboard_raises"
   ],
   "note": "Proved for free electrons, Hartree-Fock orbitals and their excitations (one set of orbitals), the UHF search (what is returned, its energy, its place among the attempts and the bound on the residual) and the total spin of real orbitals. Refuted: reference lists with open shells, orbitals with nodes read as GHF, excitations of UHF orbitals, self-consistency of converged runs, the densities returned, the total spin of complex orbitals, the checkerboard on lattices without four columns or with fewer electrons."
  },
  {
   "property": "C71",
   "status": "partial",
   "theorems": [
    "C71_system",
    "C71_system_raises",
    "C71_transfers",
    "C71_lookup",
    "C71_convolve",
    "C71_convolve_raises",
    "C71_energy",
    "C71_no_cython",
    "C71_open_shell_refuted",
    "C71_assert_raises",
    "C71_dispatch_refuted"
   ],
   "note": "Proved: the system (basis, transfers, eigenvalues, lookup), the convolution, and the energy of both functions for every trial wavefunction. Refuted: the mixed estimator omits the trial wavefunction and always raises TypeError; open shells raise where numpy.array rejects ragged lists; cutoffs below one half raise."
  },
  {
   "property": "C72",
   "status": "partial",
   "theorems": [
    "C72_convolve",
    "C72_convolve_swap",
    "C72_convolve_raises",
    "C72_step",
    "C72_capped",
    "C72_hamiltonian",
    "C72_open_shell_refuted"
   ],
   "note": "Proved: the valid convolution, the whole step (shifted fields, factor, new orbitals) and the Hamiltonian the fields stand for. Refuted only for open shells with force bias, which raise where numpy.array rejects ragged lists."
  },
  {
   "property": "C73",
   "status": "partial",
   "theorems": [
    "C73_distributions",
    "C73_distributions_raises",
    "C73_ccr",
    "C73_matrix",
    "C73_raises",
    "C73_sign",
    "C73_complex_refuted"
   ],
   "note": "Proved for symmetric integrals (real orbitals), with the raising inputs. Refuted for complex Hermitian integrals: the lower triangle of hel is copied without conjugation, C73_complex_refuted."
  },
  {
   "property": "C74",
   "status": "partial",
   "theorems": [
    "C74_lines",
    "C74_symmetry",
    "C74_roundtrip",
    "C74_real_refuted",
    "C74_missing",
    "C74_minus_partial",
    "C74_minus_refuted"
   ],
   "note": "Proved for the complex format: same lines as write_fcidump, symmetry when opposite transfers belong together, round trip. Refuted: cplx=False always exits, and the fallback of get_kpoint_chol for a missing transfer keeps the wrong k points."
  },
  {
   "property": "C75",
   "status": "partial",
   "theorems": [
    "C75_eigh",
    "C75_ortho_partial",
    "C75_ortho_conj",
    "C75_imaginary",
    "C75_ortho_refuted",
    "C75_general_partial",
    "C75_general",
    "C75_raises",
    "C75_threshold_refuted"
   ],
   "note": "Proved for orthogonal expansions with real integrals and for other expansions with all overlaps above the threshold, with the exact result outside (conjugated coefficients, matrices without the pairs under the threshold) and the raising inputs. Refuted for complex integrals, small overlaps, orthogonal determinants and half-rotated vectors."
  },
  {
   "property": "C76",
   "status": "partial",
   "theorems": [
    "C76_states",
    "C76_trial_partial",
    "C76_order_refuted",
    "C76_overlap",
    "C76_walker",
    "C76_doubled",
    "C76_accepts",
    "C76_raises"
   ],
   "note": "Proved up to the sign of the sorting permutation for all lists without repeated orbitals, and exactly for sorted lists; the overlap formula is proved for all Slater determinants. Refuted for unsorted lists (relative signs are lost in spin_occs)."
  },
  {
   "property": "C77",
   "status": "proved",
   "theorems": [
    "C77_formula",
    "C77_least_squares",
    "C77_bounded",
    "C77_error",
    "C77_exact",
    "C77_pseudo",
    "C77_svd",
    "C77_pseudo_refuted"
   ],
   "note": "Proved for all square matrices and nonzero real cutoffs; without a cutoff the inverse, or NaN for singular matrices. The refuted theorem is about the docstring (pseudo-inverse), not about the property."
  },
  {
   "property": "C78",
   "status": "partial",
   "theorems": [
    "C78_energy_partial",
    "C78_zero_variance",
    "C78_projected",
    "C78_others_partial",
    "C78_weight_refuted",
    "C78_zero_refuted",
    "C78_one"
   ],
   "note": "Proved for the energy with a nonzero mean numerator and for the projected energy. Refuted for the weight and the numerator (standard deviations, not standard errors) and for an energy of zero (NaN)."
  },
  {
   "property": "C79",
   "status": "partial",
   "theorems": [
    "C79_rows_partial",
    "C79_constant",
    "C79_skip",
    "C79_skip_refuted",
    "C79_spin_raises",
    "C79_empty",
    "C79_few"
   ],
   "note": "Proved for operators without a spin index and all samples. Refuted for skip, which is never used, and operators with a spin index raise. extract_rdm and the metadata are arguments."
  },
  {
   "property": "C80",
   "status": "partial",
   "theorems": [
    "C80_densities",
    "C80_sum_rules",
    "C80_samples",
    "C80_one_spin"
   ],
   "note": "Proved for both densities, their errors and the sum rules, for real Green's functions with two spins. Refuted for the last result: all samples instead of their mean."
  },
  {
   "property": "C81",
   "status": "partial",
   "theorems": [
    "C81_transpose",
    "C81_green",
    "C81_invariant",
    "C81_no_down",
    "C81_shape_refuted"
   ],
   "note": "Proved for the transposes of the results, with invariance and the projector property. Refuted for the results themselves: they are transposed with respect to what greens_function stores."
  },
  {
   "property": "C82",
   "status": "proved",
   "theorems": [
    "C82_transformation",
    "C82_integrals",
    "C82_eightfold",
    "C82_raises"
   ],
   "note": "For all bases. The integrals of eri_4 are an argument, in C82_eightfold those of any real and even potential over plane waves."
  },
  {
   "property": "C83",
   "status": "proved",
   "theorems": [
    "C83_orthonormal",
    "C83_complete",
    "C83_modified",
    "C83_orbitals"
   ],
   "note": "For every eigendecomposition that eigh may return."
  },
  {
   "property": "C84",
   "status": "partial",
   "theorems": [
    "C84_potentials_partial",
    "C84_nonhermitian_refuted"
   ],
   "note": "For Hermitian screened Fock matrices: the code symmetrises the density matrix but not the Fock matrices, of which eigh reads the lower triangle only.  eigh is assumed to diagonalise every Hermitian matrix."
  }
 ]
}