{
 "claims": [
  {
   "property": "C01",
   "status": "proved",
   "theorems": [
    "C01_contents",
    "C01_total"
   ],
   "note": "Exact arithmetic over an arbitrary field; f, the singularity test and the accuracy test are arbitrary. No invertibility is needed for the contents; C01_total shows that in-range histories through invertible matrices run without exception. k-fold operations with k >= 2 (k = 0, and k = 1 before any larger one, read outside the work arrays)."
  },
  {
   "property": "C02",
   "status": "proved",
   "theorems": [
    "C02_determinant",
    "C02_determinant_defined"
   ],
   "note": "Exact arithmetic over an arbitrary field; f, the singularity test and the accuracy test are arbitrary. Every matrix of the history must be invertible."
  },
  {
   "property": "C03",
   "status": "proved",
   "theorems": [
    "C03_inverse"
   ],
   "note": "Exact arithmetic over an arbitrary field; f, the singularity test and the accuracy test are arbitrary. Every matrix of the history must be invertible."
  },
  {
   "property": "C04",
   "status": "proved",
   "theorems": [
    "C04_ratio",
    "C04_all_ratios"
   ],
   "note": "Exact arithmetic over an arbitrary field; f, the singularity test and the accuracy test are arbitrary. Holds for tries that are rejected too, and for a new matrix that is singular."
  },
  {
   "property": "C05",
   "status": "proved",
   "theorems": [
    "C05_reject"
   ],
   "note": "The continuation must be defined without the try (a k-fold try also enlarges work arrays, so a k = 1 try that would read outside them may become defined)."
  },
  {
   "property": "C06",
   "status": "proved",
   "theorems": [
    "C06_insert_k",
    "C06_insert_order",
    "C06_remove_k"
   ],
   "note": "Positions of the final matrix for insertions, of the initial one for removals; the ratio does not depend on the order of the arguments."
  },
  {
   "property": "C07",
   "status": "proved",
   "theorems": [
    "C07_normal_order_preserves_action"
   ],
   "note": "Exact scalars (integral domain). Every monomial, every Fock vector; termination of the bubble sort proved."
  },
  {
   "property": "C08",
   "status": "proved",
   "theorems": [
    "C08_expressions_denote_their_linear_maps",
    "C08_algebra_laws_on_stored_operators"
   ],
   "note": "All expressions of the operator API except division by a scalar (which is multiplication by 1/x)."
  },
  {
   "property": "C09",
   "status": "proved",
   "theorems": [
    "C09_c_c_anticommute",
    "C09_cdag_cdag_anticommute",
    "C09_c_cdag_anticommute_to_delta"
   ],
   "note": ""
  },
  {
   "property": "C10",
   "status": "proved",
   "theorems": [
    "C10_equality_decides_equality_of_maps",
    "C10_monomial_constructor_refuted"
   ],
   "note": "For operators built by expressions. Counterexample proved for the (coefficient, monomial) constructor, which does not normal order."
  },
  {
   "property": "C11",
   "status": "proved",
   "theorems": [
    "C11_dagger_is_the_adjoint",
    "C11_dagger_of_products_and_sums"
   ],
   "note": ""
  },
  {
   "property": "C12",
   "status": "proved",
   "theorems": [
    "C12_addition_exact",
    "C12_addition_with_tolerance",
    "C12_addition_associative_double_refuted"
   ],
   "note": "Exact part proved; the effect of the tolerance characterised; associativity for doubles refuted (IEEE binary64 evaluation inside Coq)."
  },
  {
   "property": "C13",
   "status": "proved",
   "theorems": [
    "C13_self_addition",
    "C13_self_subtraction_refuted",
    "C13_self_addition_double_refuted"
   ],
   "note": "h += h proved for exact scalars; h -= h refuted (undefined behaviour); h *= h is the ordinary product (the code uses a temporary map)."
  },
  {
   "property": "C14",
   "status": "proved",
   "theorems": [
    "C14_linear_index_is_a_bijection",
    "C14_positions_follow_insertion_order",
    "C14_positions_never_move"
   ],
   "note": ""
  },
  {
   "property": "C15",
   "status": "proved",
   "theorems": [
    "C15_h5_round_trip",
    "C15_wide_integers_refuted",
    "C15_nul_characters_refuted"
   ],
   "note": "Integers that fit int and strings without NUL; both restrictions shown necessary by counterexamples. h5 storage modelled as NUL-terminated strings with arbitrary padding."
  },
  {
   "property": "C16",
   "status": "proved",
   "theorems": [
    "C16_full_space_action",
    "C16_subspace_action",
    "C16_mapped_subspace_action",
    "C16_unknown_index_throws",
    "C16_raw_monomial_refuted"
   ],
   "note": "Full spaces, invariant subspaces and mapped subspaces; both storage kinds; exact scalars. Raw non-normal monomials refuted."
  },
  {
   "property": "C17",
   "status": "partial",
   "theorems": [
    "C17_beyond_17_orbitals_refuted",
    "C17_low_occupations_partial"
   ],
   "note": "Validity up to 17 orbitals or 16 lowest occupied modes proved; failure from 18 orbitals on proved as a counterexample for every such size."
  },
  {
   "property": "C18",
   "status": "proved",
   "theorems": [
    "C18_full_space_index_bijection",
    "C18_31_orbitals_refuted",
    "C18_fock_state_of_a_set_of_indices",
    "C18_fock_state_of_orbital_31_refuted",
    "C18_subspace_index_bijection",
    "C18_duplicate_insertion_refuted"
   ],
   "note": "Full spaces up to 30 orbitals (sharp: 31 and 32 refuted), subspaces with distinct states."
  },
  {
   "property": "C19",
   "status": "proved",
   "theorems": [
    "C19_addition",
    "C19_subtraction",
    "C19_scaling",
    "C19_dot_product",
    "C19_projection",
    "C19_projection_to_smaller_full_space_refuted"
   ],
   "note": "Exact scalars; both storage kinds. Projection to a smaller full space refuted (out of bounds)."
  },
  {
   "property": "C20",
   "status": "proved",
   "theorems": [
    "C20_same_subspace_iff_connected",
    "C20_numbering",
    "C20_of_operator",
    "C20_stored_elements",
    "C20_elements_with_hybridization_refuted"
   ],
   "note": "For any choice of representatives by the union-find library. With a hybridization operator the chains may also use its elements (as documented), and get_matrix_elements then holds its elements instead of those of H (C20_elements_with_hybridization_refuted)."
  },
  {
   "property": "C21",
   "status": "proved",
   "theorems": [
    "C21_merge"
   ],
   "note": ""
  },
  {
   "property": "C22",
   "status": "partial",
   "theorems": [
    "C22_merge_exact",
    "C22_one_to_one_partial",
    "C22_one_to_one_refuted",
    "C22_find_mappings_exact"
   ],
   "note": "False in full: C22_one_to_one_refuted gives a hermitian, number-conserving Hamiltonian of 4 orbitals whose automatic partition has a subspace that c+_0 maps into two subspaces. Proved: the exact relation computed by the merge; each operator maps each subspace of the partition before the merge into one after it; one-to-one on the new partition if no subspace before the merge held both a state the operator acts on and a state it produces; find_mappings is exact."
  },
  {
   "property": "C23",
   "status": "proved",
   "theorems": [
    "C23_flat_numbering"
   ],
   "note": "For every object made by the automatic constructors; N is the number of states kept."
  },
  {
   "property": "C24",
   "status": "proved",
   "theorems": [
    "C24_blocks_aligned_and_sorted"
   ],
   "note": "For every object made by the automatic constructors. Ordering is by lowest energy + 1e-10 * (number before sorting), as coded."
  },
  {
   "property": "C25",
   "status": "proved",
   "theorems": [
    "C25_partition_function",
    "C25_density_matrix",
    "C25_thermal_average"
   ],
   "note": "exact real arithmetic for the doubles, the eigensolver is an oracle assumed to solve each block (solves); standard axioms of the Coq reals"
  },
  {
   "property": "C26",
   "status": "proved",
   "theorems": [
    "C26_lehmann",
    "C26_both_ways",
    "C26_imaginary_time",
    "C26_sum_rule",
    "C26_matsubara",
    "C26_real_frequency",
    "C26_legendre",
    "C26_hermitian",
    "C26_spectral_function"
   ],
   "note": "Exact real and complex arithmetic; std::exp/cosh/sqrt are the real functions; boost's cyl_bessel_i enters as a function that satisfies the integral representation of the modified spherical Bessel functions (hypothesis of C26_legendre). C26_both_ways holds for every value type and update, so also for floating point. The atom is any result of the constructors of C63 whose c, c^dagger have single targets (C22/C64 show when this fails). Negligible residues (below 2^-52) are dropped by the code; the theorems bound their effect by D^2 2^-52. New block_gf objects are zero."
  },
  {
   "property": "C27",
   "status": "proved",
   "theorems": [
    "C27_run_structure_and_status",
    "C27_run_numbers",
    "C27_run_terminates",
    "C27_run_safe",
    "C27_run_returns",
    "C27_warmup_and_accumulate",
    "C27_status_0_means_complete_refuted",
    "C27_exception_reported_without_mpi_refuted",
    "C27_more_than_int_max_cycles_refuted"
   ],
   "note": "Signals, stop callbacks, exceptions, world-dependent moves arbitrary; reports and timers not modelled; MPI monitor is an oracle. Refuted variants: status 0 with a cut last cycle, exception without MPI environment (null pointer), int overflow above INT_MAX cycles."
  },
  {
   "property": "C28",
   "status": "proved",
   "theorems": [
    "C28_sign_is_running_product",
    "C28_ratio_is_modulus_times_sign",
    "C28_infinite_ratios",
    "C28_nested_move_set",
    "C28_sign_of_tiny_ratio_refuted"
   ],
   "note": "Exact reals; tiny-ratio variant refuted."
  },
  {
   "property": "C29",
   "status": "proved",
   "theorems": [
    "C29_selected_iff_in_interval",
    "C29_interval_is_weight",
    "C29_always_selects",
    "C29_always_selects_with_rounding",
    "C29_statistics",
    "C29_acceptance_rate"
   ],
   "note": "Exact reals for the cumulative table, plus a version for any perturbed table."
  },
  {
   "property": "C30",
   "status": "proved",
   "theorems": [
    "C30_measures_follow_registry",
    "C30_accumulate_once_in_name_order",
    "C30_duplicate_names_throw"
   ],
   "note": ""
  },
  {
   "property": "C31",
   "status": "proved",
   "theorems": [
    "C31_random_integers_in_range",
    "C31_random_integers_reached"
   ],
   "note": "Flocq binary64, round to nearest even, no overflow (n < 2^1024)."
  },
  {
   "property": "C32",
   "status": "proved",
   "theorems": [
    "C32_buffered_function_is_the_stream",
    "C32_calls_return_consecutive_values",
    "C32_buffer_of_size_0_refuted"
   ],
   "note": "Size 0 refuted."
  },
  {
   "property": "C33",
   "status": "proved",
   "theorems": [
    "C33_time_pt_add_is_circle_addition",
    "C33_time_pt_sub_is_circle_subtraction",
    "C33_time_pt_group_laws",
    "C33_time_pt_neg_is_circle_negation",
    "C33_time_pt_neg_is_zero_minus_refuted",
    "C33_time_pt_mult_exact_without_wrap",
    "C33_time_pt_mult_is_repeated_addition_refuted",
    "C33_time_pt_division_is_floor",
    "C33_time_pt_random_between_in_interval"
   ],
   "note": "Group laws proved; two over-strong readings refuted (unary minus of zero, multiplication with wrap)."
  },
  {
   "property": "C34",
   "status": "proved",
   "theorems": [
    "C34_sum_of_frequencies",
    "C34_difference_of_frequencies",
    "C34_negated_frequency",
    "C34_frequency_group_laws",
    "C34_frequency_determined_by_value",
    "C34_kronecker_same_statistic",
    "C34_kronecker_is_equality_refuted",
    "C34_quotient_of_frequencies_refuted"
   ],
   "note": "Exact reals. Additionally refuted: operator/ returns the product; kronecker ignores the statistic (true only for equal statistics)."
  },
  {
   "property": "C35",
   "status": "proved",
   "theorems": [
    "C35_imfreq_index_bijection",
    "C35_imfreq_size",
    "C35_imfreq_iteration",
    "C35_imfreq_symmetric",
    "C35_imfreq_positive_half",
    "C35_imfreq_h5_round_trip",
    "C35_imfreq_eval_on_mesh",
    "C35_imfreq_window_covers_refuted"
   ],
   "note": "Also proved: the energy-window constructor always leaves out a fermionic frequency of the window (finding)."
  },
  {
   "property": "C36",
   "status": "proved",
   "theorems": [
    "C36_linear_mesh_values",
    "C36_closest_point_is_nearest",
    "C36_closest_point_of_mesh_point",
    "C36_evaluation_interpolates",
    "C36_evaluation_exact_on_mesh_points",
    "C36_evaluation_exact_on_affine_functions",
    "C36_imtime_mesh_values",
    "C36_evaluation_outside",
    "C36_linear_h5_round_trip",
    "C36_closest_point_always_defined_refuted"
   ],
   "note": "Exact reals, L>=2 and xmin<xmax; degenerate meshes (L=1 or xmin=xmax) proved to run into an undefined conversion."
  },
  {
   "property": "C37",
   "status": "proved",
   "theorems": [
    "C37_cyclic_index_bijection",
    "C37_cyclic_valid_indices",
    "C37_index_modulo_unique_representative",
    "C37_cyclic_evaluation",
    "C37_mesh_point_arithmetic",
    "C37_mesh_iteration"
   ],
   "note": ""
  },
  {
   "property": "C38",
   "status": "partial",
   "theorems": [
    "C38_equal_meshes_compare_equal_partial",
    "C38_equality_identifies_mesh_refuted",
    "C38_equality_identifies_size_refuted"
   ],
   "note": "The property is false of the code: equality compares a sum of hashes, so permuted dims compare equal (refuted for every hash function). Only reflexivity holds."
  },
  {
   "property": "C39",
   "status": "proved",
   "theorems": [
    "C39_interpolation_periodic",
    "C39_interpolation_exact_on_mesh",
    "C39_mesh_points_distinct_refuted",
    "C39_interpolation_weights"
   ],
   "note": "Exact reals; every 1-3 dimensional non-degenerate lattice. Distinctness of mesh points refuted for meshes with several points in a direction outside of the lattice."
  },
  {
   "property": "C40",
   "status": "proved",
   "theorems": [
    "C40_product_index_bijection",
    "C40_product_iteration",
    "C40_product_evaluation",
    "C40_product_evaluation_on_mesh_point"
   ],
   "note": ""
  },
  {
   "property": "C41",
   "status": "proved",
   "theorems": [
    "C41_bins_are_block_means",
    "C41_single_bin",
    "C41_switched_off",
    "C41_at_most_max_bins",
    "C41_compress_capacity",
    "C41_automatic_capacity"
   ],
   "note": "For every interleaving of data and manual compressions; capacity at least 1. Exact arithmetic, component by component; a self-move assignment is assumed to leave the bin unchanged."
  },
  {
   "property": "C42",
   "status": "proved",
   "theorems": [
    "C42_levels",
    "C42_errors",
    "C42_errors_mpi",
    "C42_level_31_refuted"
   ],
   "note": "The bound on the number of data is necessary: with unlimited levels the datum number 2^31 indexes past the end (C42_level_31_refuted, the code shifts an int)."
  },
  {
   "property": "C43",
   "status": "proved",
   "theorems": [
    "C43_documented_estimators",
    "C43_linear",
    "C43_quadratic"
   ],
   "note": "Exact arithmetic over any algebraically closed numeric field; data are vectors of any left module. Empty series are undefined behaviour, one datum divides 0 by 0 (both outside the hypothesis)."
  },
  {
   "property": "C44",
   "status": "partial",
   "theorems": [
    "C44_single_rank",
    "C44_f_of_averages",
    "C44_as_if_delivered_partial",
    "C44_average_refuted",
    "C44_estimate_refuted"
   ],
   "note": "The full statement (every rank returns the serial jackknife of the joined series) is false of the code and refuted: the total number of data is reduced to the root only (the other ranks divide by an unset buffer), and the bias correction uses the local number of data. Proved: f of the averages is right on every rank, the single-rank case is right, and what exactly would be returned if the total were delivered."
  },
  {
   "property": "C45",
   "status": "proved",
   "theorems": [
    "C45_mean",
    "C45_mean_and_err",
    "C45_single_datum",
    "C45_order_independent",
    "C45_mpi",
    "C45_merge"
   ],
   "note": "Exact arithmetic, component by component. Empty data are undefined behaviour and one datum has error NaN (stated)."
  },
  {
   "property": "C46",
   "status": "proved",
   "theorems": [
    "C46_every_sample_recorded",
    "C46_one_nearest_bin",
    "C46_addition",
    "C46_addition_throws",
    "C46_mpi_reduce",
    "C46_pdf",
    "C46_cdf",
    "C46_pdf_defined",
    "C46_clear",
    "C46_integer_bins",
    "C46_empty_range_throws",
    "C46_no_bins_refuted"
   ],
   "note": "Rational limits and samples, exact arithmetic; n_bins = 0 is accepted by the constructor and then indexes an empty array (C46_no_bins_refuted). NaN samples are not modelled."
  },
  {
   "property": "C47",
   "status": "proved",
   "theorems": [
    "C47_interpolates",
    "C47_rejects",
    "C47_after_truncation_refuted"
   ],
   "note": "Any field, exact arithmetic; the 256-bit GMP precision and the rounding of the coefficients to double are not modelled. C47_after_truncation_refuted: points after a small coefficient are not interpolated."
  },
  {
   "property": "C48",
   "status": "proved",
   "theorems": [
    "C48_h_dict",
    "C48_U_dict2",
    "C48_U_dict4",
    "C48_dict_to_matrix",
    "C48_filter_op",
    "C48_block_of_op",
    "C48_op_of_block",
    "C48_block_rejects_refuted"
   ],
   "note": "Exact scalars (any commutative ring without zero divisors; the U formulae need an element half with half+half=1). C48_block_rejects_refuted: block_matrix_from_op accepts hoppings between blocks and quartic terms (operator precedence in its condition) and is undefined on a constant term."
  },
  {
   "property": "C49",
   "status": "proved",
   "theorems": [
    "C49_fourier",
    "C49_hermitian",
    "C49_hermitian_exact",
    "C49_periodic",
    "C49_accepted",
    "C49_holds",
    "C49_array",
    "C49_mesh",
    "C49_repeated_displacement_refuted"
   ],
   "note": "constructor checks, fourier at a point, on an array and on a brzone mesh; exact complex arithmetic; a repeated displacement breaks hermiticity (C49_repeated_displacement_refuted)"
  },
  {
   "property": "C50",
   "status": "proved",
   "theorems": [
    "C50_grid_visits",
    "C50_empty_grid_refuted"
   ],
   "note": "C50_empty_grid_refuted: with nkpts = 0 (default constructor) one point is visited although size() is 0."
  },
  {
   "property": "C51",
   "status": "proved",
   "theorems": [
    "C51_value",
    "C51_real_flag",
    "C51_tests"
   ],
   "note": "Doubles are rationals: no rounding, no inf/nan; a division by zero has no meaning in the model. Stream output is not modelled."
  },
  {
   "property": "C52",
   "status": "proved",
   "theorems": [
    "C52_signals_conserved",
    "C52_most_recent_first",
    "C52_start_stop",
    "C52_handlers_stay_installed",
    "C52_only_between_start_and_stop_refuted"
   ],
   "note": "Asynchronous delivery between calls; the vector push_back inside the handler is taken as atomic."
  },
  {
   "property": "C53",
   "status": "proved",
   "theorems": [
    "C53_make_hermitian",
    "C53_is_gf_hermitian",
    "C53_hermitian_after",
    "C53_real_in_tau",
    "C53_hermitian_tau",
    "C53_from_real",
    "C53_positive_freq_view",
    "C53_replace_by_tail",
    "C53_restricted_view",
    "C53_boson_refuted"
   ],
   "note": "Exact scalars with conjugation; the tolerance comparisons are parameters of the model. C53_boson_refuted: restricted_view of a bosonic function is labelled fermionic and make_gf_from_real_gf accepts a bosonic G(0) that is not real."
  },
  {
   "property": "C54",
   "status": "proved",
   "theorems": [
    "C54_round_trip",
    "C54_round_trip_back",
    "C54_elements",
    "C54_order",
    "C54_order_refuted",
    "C54_empty_dimension"
   ],
   "note": "C54_order_refuted: for N = 2 the other dimensions are not in the original order, contrary to the documentation; an empty dimension N divides by zero (C54_empty_dimension)."
  },
  {
   "property": "C55",
   "status": "proved",
   "theorems": [
    "C55_lattice_coordinates_round_trip",
    "C55_lattice_to_real_is_combination_of_units",
    "C55_completed_basis_independent",
    "C55_reciprocal_vectors_dual",
    "C55_reciprocal_coordinates_round_trip",
    "C55_zero_unit_vector_rejected_refuted",
    "C55_legendre_generator",
    "C55_legendre_generator_at_one_and_parity",
    "C55_legendre_tail_coefficients"
   ],
   "note": "Exact reals; release-mode reading of 3-vectors on lower dimensional lattices."
  },
  {
   "property": "C56",
   "status": "proved",
   "theorems": [
    "C56_slices_partition",
    "C56_slice_array"
   ],
   "note": ""
  },
  {
   "property": "C57",
   "status": "proved",
   "theorems": [
    "C57_sites",
    "C57_builds",
    "C57_dependent",
    "C57_negative_unit_refuted",
    "C57_user_sites",
    "C57_automatic_proper",
    "C57_coordinates",
    "C57_SL_to_L_refuted",
    "C57_sites_outside_refuted",
    "C57_pack",
    "C57_unpack",
    "C57_fold",
    "C57_each_hopping_once",
    "C57_remove_internal_refuted"
   ],
   "note": "integer units, exact linear algebra; the number of points of the cell by the Smith normal form; SL_to_L and remove_internal always raise (C57_SL_to_L_refuted, C57_remove_internal_refuted), negative units and sites outside of the cell (C57_negative_unit_refuted, C57_sites_outside_refuted)"
  },
  {
   "property": "C58",
   "status": "proved",
   "theorems": [
    "C58_returns_solution",
    "C58_always_returns",
    "C58_failure",
    "C58_exact_solution_refuted"
   ],
   "note": "C58_exact_solution_refuted: an exact root is reported as a failure when the precision is 0."
  },
  {
   "property": "C59",
   "status": "partial",
   "theorems": [
    "C59_closest_point_in_mesh",
    "C59_closest_point_of_mesh_point",
    "C59_closest_point_is_nearest_orthogonal_partial",
    "C59_closest_point_is_nearest_refuted"
   ],
   "note": "Index validity and mesh points proved for all lattices; nearest proved for orthogonal reciprocal vectors and refuted for a skewed lattice (only the corners of the enclosing cell are compared)."
  },
  {
   "property": "C60",
   "status": "proved",
   "theorems": [
    "C60_metropolis_rule"
   ],
   "note": ""
  },
  {
   "property": "C61",
   "status": "proved",
   "theorems": [
    "C61_random_real_below_bound",
    "C61_random_real_between",
    "C61_random_real_below_b_refuted"
   ],
   "note": "Half-open [a,b[ refuted; rng(a,b) proved when b-a is exactly representable."
  },
  {
   "property": "C62",
   "status": "proved",
   "theorems": [
    "C62_reads_back",
    "C62_continues",
    "C62_continues_refuted"
   ],
   "note": "The archive does not store max_n_bins of the logarithmic part; C62_continues_refuted shows the effect."
  },
  {
   "property": "C63",
   "status": "proved",
   "theorems": [
    "C63_auto_constructor",
    "C63_hybridization_constructor",
    "C63_filter_constructor",
    "C63_negative_minimum_refuted"
   ],
   "note": "Exact arithmetic: scalars are any integral domain with conjugation, the eigensolver is any function that diagonalizes the matrices of H on closed sets of states (Section hypothesis 'solves', shown satisfiable for a non-diagonal H over the rationals). At most 17 orbitals, because the sign of c is wrong from 18 on (C17). A negative n_min is refuted (C63_negative_minimum_refuted)."
  },
  {
   "property": "C64",
   "status": "proved",
   "theorems": [
    "C64_no_element_lost_iff"
   ],
   "note": "Together with C22_one_to_one_refuted this is a finding: with such a Hamiltonian creation_connection keeps only the last target and the other elements are dropped."
  },
  {
   "property": "C65",
   "status": "proved",
   "theorems": [
    "C65_vacuum"
   ],
   "note": "When the vacuum is filtered out the index is left uninitialised by the code (None in the model)."
  },
  {
   "property": "C66",
   "status": "proved",
   "theorems": [
    "C66_bands",
    "C66_dos",
    "C66_flat_band",
    "C66_patch_points",
    "C66_dos_patch"
   ],
   "note": "dos and dos_patch over exact reals; the eigensolver is a parameter with normalised eigenvectors; flat spectrum gives 0/0 (C66_flat_band)"
  },
  {
   "property": "C67",
   "status": "proved",
   "theorems": [
    "C67_matrix_element_of_monomial",
    "C67_products_have_single_targets",
    "C67_get_op_mat",
    "C67_act",
    "C67_component_numbers",
    "C67_trace_rho_op",
    "C67_trace_rho_op_size_mismatch",
    "C67_quantum_number_eigenvalues"
   ],
   "note": "Exact scalars; the diagonalisation is an oracle (solves). The hypothesis terms_single excludes the monomials with two targets, for which get_matrix_element_of_monomial overwrites one matrix with the elements of several targets (see C64/C22). is_almost_zero's tolerance and std::real are parameters. quantum_number_eigenvalues_checked is not modelled."
  },
  {
   "property": "C68",
   "status": "proved",
   "theorems": [
    "C68_slater_formula",
    "C68_complex_matrix_refused",
    "C68_density_formula",
    "C68_kanamori_formula",
    "C68_hermitian",
    "C68_conserves_particle_number",
    "C68_kanamori_is_slater",
    "C68_density_is_diagonal_slater",
    "C68_labels",
    "C68_labels_of_a_map",
    "C68_map_lookup",
    "C68_labels_refused"
   ],
   "note": "Exact complex numbers for floats; arrays are functions of their indices; dump files not modelled. The builders are proved equal, as operators (normal-ordered maps), to the documented sums. Finding: h_int_density/h_int_kanamori sum over all pairs including (i s)=(j s'), so a matrix U with U_ii nonzero adds U_ii n_i/2, contrary to the documented restriction; stated as self_term."
  },
  {
   "property": "C69",
   "status": "proved",
   "theorems": [
    "C69_number",
    "C69_spin",
    "C69_more_than_two_spins_refused",
    "C69_orbital_matrix",
    "C69_orbital",
    "C69_spin_orbit",
    "C69_slater_rotation",
    "C69_slater_spin_rotation",
    "C69_kanamori_spin_rotation",
    "C69_conserves_Sz"
   ],
   "note": "numpy.isclose with its default tolerances is modelled; the bound n_orb <= 100000 keeps its relative tolerance below the spacing of m. good_basis: spherical, cubic (n = 3, 5, 7), or a unitary T."
  },
  {
   "property": "C70",
   "status": "proved",
   "theorems": [
    "C70_symmetries",
    "C70_real",
    "C70_conserves_m",
    "C70_mean_is_U",
    "C70_U_J_round_trip",
    "C70_cubic_harmonics_unitary",
    "C70_cubic_harmonics_unitary_s_shell_refuted",
    "C70_reduced_kanamori",
    "C70_reduced_symmetric",
    "C70_t2g_eg_names",
    "C70_named_harmonics",
    "C70_named_harmonics_wien2k_refuted",
    "C70_clebsch_gordan_sign",
    "C70_clebsch_gordan_refuted"
   ],
   "note": "math.sqrt and scipy factorial are exact. Refuted and recorded: spherical_to_cubic(0) is the zero matrix; wien2k yz and xz are exchanged relative to the other conventions; clebsch_gordan has a wrong sign for some arguments (operator precedence)."
  },
  {
   "property": "C71",
   "status": "proved",
   "theorems": [
    "C71_diagonal_part",
    "C71_real_imag",
    "C71_make_operator_real"
   ],
   "note": "diagonal_part is over every scalar type satisfying the scalar laws."
  },
  {
   "property": "C72",
   "status": "proved",
   "theorems": [
    "C72_r_to_k",
    "C72_k_to_r",
    "C72_round_trip_r",
    "C72_round_trip_k",
    "C72_smaller_mesh_rejected_refuted",
    "C72_other_shape_rejected_refuted",
    "C72_one_mesh_of_a_product"
   ],
   "note": "FFTW is modelled by its documented formula. The k.R formula needs mesh dimensions beyond the lattice dimension to be 1. That unequal meshes would be rejected is refuted."
  },
  {
   "property": "C73",
   "status": "proved",
   "theorems": [
    "C73_direct",
    "C73_inverse",
    "C73_round_trip",
    "C73_tail_integral",
    "C73_tail_values",
    "C73_window",
    "C73_tail_moments",
    "C73_rejects"
   ],
   "note": "FFTW is modelled by its documented formula; arithmetic is exact."
  },
  {
   "property": "C74",
   "status": "proved",
   "theorems": [
    "C74_direct",
    "C74_inverse",
    "C74_round_trip",
    "C74_limit",
    "C74_tail_integral",
    "C74_tail_moments",
    "C74_exact_for_the_tail",
    "C74_default",
    "C74_noise",
    "C74_default_noisy",
    "C74_fit",
    "C74_fitted",
    "C74_inverse_rejects",
    "C74_direct_rejects",
    "C74_few_points_refuted",
    "C74_temperatures_compared_refuted"
   ],
   "note": "FFTW is modelled by its documented formula, the tail fitter is an arbitrary function; arithmetic is exact. Two expected checks are refuted: temperature/statistic agreement, and a minimum of nine times for the default fit."
  },
  {
   "property": "C75",
   "status": "proved",
   "theorems": [
    "C75_real",
    "C75_real_twice",
    "C75_real_zero",
    "C75_matsubara",
    "C75_matsubara_round_trip",
    "C75_lattice",
    "C75_brillouin_zone"
   ],
   "note": ""
  },
  {
   "property": "C76",
   "status": "proved",
   "theorems": [
    "C76_limit",
    "C76_exact_for_the_tail",
    "C76_minus_G_beta",
    "C76_hermitian",
    "C76_lower_triangle",
    "C76_fitted",
    "C76_no_moments",
    "C76_refused",
    "C76_not_square",
    "C76_real",
    "C76_real_limit",
    "C76_zero_temperature",
    "C76_zero_temperature_deviation",
    "C76_trapezoid_refuted",
    "C76_zero_temperature_range"
   ],
   "note": "The statement that the zero-temperature density is the trapezoidal rule is refuted when zero is not a mesh point; the deviation is given exactly."
  },
  {
   "property": "C77",
   "status": "proved",
   "theorems": [
    "C77_means",
    "C77_bins",
    "C77_same_mesh",
    "C77_constant",
    "C77_constant_finer_refuted",
    "C77_one_point"
   ],
   "note": "That constants survive on a finer mesh is refuted."
  },
  {
   "property": "C78",
   "status": "proved",
   "theorems": [
    "C78_to_imtime",
    "C78_evaluate",
    "C78_from_imtime",
    "C78_from_imtime_limit",
    "C78_orthogonality",
    "C78_round_trip",
    "C78_to_imfreq",
    "C78_from_imfreq",
    "C78_from_imfreq_refused",
    "C78_bosonic_imfreq_refuted"
   ],
   "note": "Boost's cyl_bessel_j is a parameter assumed to satisfy the integral representation of the Bessel functions (a function that does is constructed). For bosonic frequencies the transform is refuted: the code uses the fermionic matrix. The error of the 50000-point rule in the transform from frequencies is not bounded."
  },
  {
   "property": "C79",
   "status": "proved",
   "theorems": [
    "C79_moments",
    "C79_exact_expansion",
    "C79_imfreq_expansion",
    "C79_zeroth_moment_refuted",
    "C79_zeroth_row",
    "C79_bosonic_moment_refuted",
    "C79_discontinuity",
    "C79_smallest_change",
    "C79_idempotent",
    "C79_rest_unchanged",
    "C79_density",
    "C79_density_convention_refuted"
   ],
   "note": "The zeroth row of get_tail, the moments of bosonic functions and the agreement of the density with that of frequency functions are refuted."
  },
  {
   "property": "C80",
   "status": "proved",
   "theorems": [
    "C80_history",
    "C80_window",
    "C80_symmetric_window_refuted",
    "C80_best",
    "C80_hermitian",
    "C80_recovers",
    "C80_recovers_hermitian",
    "C80_succeeds",
    "C80_order",
    "C80_largest_order",
    "C80_columns_exist",
    "C80_all_known",
    "C80_refused",
    "C80_given_order_refuted",
    "C80_many_known_refuted"
   ],
   "note": "LAPACK's least-squares solver is a parameter assumed to return a least-squares solution (such solvers are constructed), the smallest singular value is an arbitrary parameter. Refuted: symmetric windows, recovery when a given order has more unknowns than frequencies, ten or more known moments."
  },
  {
   "property": "C81",
   "status": "proved",
   "theorems": [
    "C81_on_mesh",
    "C81_positive_mesh",
    "C81_outside",
    "C81_outside_exact",
    "C81_tail_eval",
    "C81_replace",
    "C81_replace_window",
    "C81_replace_symmetric_refuted",
    "C81_window",
    "C81_bosonic_window_refuted"
   ],
   "note": "Same parameters as C80. Refuted: symmetric replacement for bosons, fit_tail_on_window of bosonic data."
  },
  {
   "property": "C82",
   "status": "proved",
   "theorems": [
    "C82_quantum_numbers",
    "C82_additive",
    "C82_strict_order",
    "C82_mixed_refused",
    "C82_complex_refused",
    "C82_not_conserved_refuted",
    "C82_aligned_refuted"
   ],
   "note": "The tolerant comparison and the test of the imaginary part are parameters with two laws. Refuted: entry b of get_quantum_numbers belongs to subspace b; a Hamiltonian that does not conserve the quantum numbers is refused (undefined behaviour for every such Hamiltonian)."
  },
  {
   "property": "C83",
   "status": "proved",
   "theorems": [
    "C83_round_trip_real",
    "C83_round_trip_complex",
    "C83_round_trip_real_or_complex",
    "C83_real_as_complex",
    "C83_complex_as_real",
    "C83_long_monomials_refused",
    "C83_with_operator_set",
    "C83_outside_refused",
    "C83_make_fundamental_operator_set",
    "C83_read_into_operator",
    "C83_read_replaces_refuted",
    "C83_record_format"
   ],
   "note": "Indices are 32-bit integers and strings without NUL (C15), fewer than 2^31 of them. The HDF5 library is assumed to return the records written. Refuted: the overload that returns the index set replaces the operator read into."
  },
  {
   "property": "C84",
   "status": "partial",
   "theorems": [
    "C84_round_trip",
    "C84_read_into_object_partial",
    "C84_constructed_regular",
    "C84_short_rows_undefined",
    "C84_long_hamiltonian_refused",
    "C84_missing_datasets",
    "C84_read_replaces_refuted"
   ],
   "note": "Round trip into a new object proved for every constructor. The last clause is false of the code and refuted: the tables of matrices are resized but not cleared, so that matrices at places empty in the file stay (C84_read_into_object_partial says exactly which), and rows that are too short are written beyond their end (undefined behaviour). The HDF5 library is assumed to return the numbers written."
  },
  {
   "property": "C85",
   "status": "partial",
   "theorems": [
    "C85_bounds",
    "C85_first_bounds",
    "C85_solves",
    "C85_flat_start",
    "C85_flat_start_refuted"
   ],
   "note": "The bounds are proved for every function. The second sentence is proved for functions that are not flat at the start (C85_solves), or that grow in the direction of dx (C85_flat_start); without this it is false of the code and refuted (C85_flat_start_refuted). scipy's bisect is a parameter that is assumed to return a point within the tolerance of a zero between the bounds."
  },
  {
   "property": "C86",
   "status": "partial",
   "theorems": [
    "C86_density",
    "C86_monotone",
    "C86_below_grid_refuted",
    "C86_nonuniform_refuted",
    "C86_from_function",
    "C86_weights",
    "C86_weights_any_grid",
    "C86_trapezoid_refuted",
    "C86_hilbert",
    "C86_causal"
   ],
   "note": "The density is proved for uniform grids and mu at or above the first point; outside this it is false of the code and refuted (below the grid the result is negative, on other grids the first step is used throughout). The Hilbert transform is proved for functions of one component with a Sigma that does not depend on epsilon. The weights are not those of the trapezoidal rule (refuted): the ends count fully."
  },
  {
   "property": "C87",
   "status": "partial",
   "theorems": [
    "C87_assign",
    "C87_old_data_irrelevant",
    "C87_incompatible",
    "C87_inplace_product_refuted",
    "C87_product_with_descriptor_refuted",
    "C87_copy_from_refuted"
   ],
   "note": "Proved for the expressions of PyGfSpec.covered. Outside of it the claim is false of the code: a Green's function times a descriptor raises while descriptor times Green's function works (refuted), as does an in-place product of two matrix-valued functions (refuted); copy_from of another shape raises after the mesh has been replaced (refuted). The matrix inverse is a parameter; numpy's broadcasting, meshes of time and products of meshes are not modelled."
  },
  {
   "property": "C88",
   "status": "partial",
   "theorems": [
    "C88_semicircular",
    "C88_tail",
    "C88_real",
    "C88_assign",
    "C88_real_matrix_refuted",
    "C88_zero_frequency_refuted",
    "C88_flat",
    "C88_flat_real"
   ],
   "note": "Proved for all non-zero Matsubara frequencies and all real ones. False of the code and refuted: on real frequencies SemiCircular fills all elements of a matrix, also off the diagonal; at the zero frequency of a bosonic mesh with mu > D it takes the wrong solution. That the causal solution of the equation is the Hilbert transform of the semicircle is not proved; for the flat density of states the integral is. Inside the band at real frequencies only the imaginary part of Flat is stated (the real part is a principal value)."
  },
  {
   "property": "C89",
   "status": "partial",
   "theorems": [
    "C89_blockwise",
    "C89_names",
    "C89_dyson",
    "C89_dyson_arguments",
    "C89_sumk",
    "C89_sumk_in_place_refuted",
    "C89_lazy_refuted",
    "C89_left_product_refuted"
   ],
   "note": "Proved for blocks of one mesh variable with scalar or square-matrix targets (the Green's functions of C87); the sum over k on Matsubara meshes, the only ones it accepts. False of the code and refuted: B + e, B - e and B * e with a lazy expression e (iOmega_n) return B unchanged; M * B with a matrix M on the left is B * M; with the object Sigma as result the sum is the one for Sigma = 0. Of numpy.linalg.inv it is assumed that it returns the inverse of a matrix that has one. One block of SumkDiscrete is modelled (the blocks do not interact); a Sigma function of k alone is the case that ignores its second argument."
  },
  {
   "property": "C90",
   "status": "partial",
   "theorems": [
    "C90_pythtb_partial",
    "C90_pythtb_dimension_refuted",
    "C90_wannier",
    "C90_wannier_transposed_refuted",
    "C90_path",
    "C90_path_units",
    "C90_path_monotone"
   ],
   "note": "Proved: pythTB models in three dimensions; Wannier90 files up to a transposition; paths with at least two points per segment. False of the code and refuted: pythTB models in one and two dimensions are never accepted; the Hamiltonian of a Wannier90 file is transposed (the file lists the first index fastest, and the columns with the indices are not read). Not modelled: the text of the files, the lattice vectors, pythTB models with spin, TB_to_sympy."
  },
  {
   "property": "C91",
   "status": "partial",
   "theorems": [
    "C91_grid",
    "C91_refuses",
    "C91_local_level",
    "C91_inversion",
    "C91_gamma",
    "C91_open_zone_refuted",
    "C91_copy",
    "C91_copy_refuted",
    "C91_shift_refuted",
    "C91_patch_refuted"
   ],
   "note": "Proved: the points, weights and Hamiltonians of the grid, the sum of the Hamiltonian over it, inversion and k = 0. False of the code and refuted: a pickled copy has N^(dim dim) points; Q and patches always raise; coordinates are not below 1/2. Real numbers stand for floating point numbers."
  },
  {
   "property": "C92",
   "status": "partial",
   "theorems": [
    "C92_frequency",
    "C92_time",
    "C92_no_overflow",
    "C92_fourier",
    "C92_hermitian",
    "C92_positive",
    "C92_blocks",
    "C92_refuses",
    "C92_list_refuted"
   ],
   "note": "Proved for energies in a numpy array. False of the code and refuted: energies in a Python list, which the documentation asks for, always raise. Not modelled: floating point; points where i omega = eps; discretize_bath."
  },
  {
   "property": "C93",
   "status": "partial",
   "theorems": [
    "C93_arithmetic",
    "C93_frequencies",
    "C93_raises",
    "C93_mixed_refuted",
    "C93_mixed_temperatures_refuted"
   ],
   "note": "Proved: the numbers, in all combinations; two frequencies or two mesh points. False of the code and refuted: the sum of a MatsubaraFreq and a mesh point is a plain number, and is not refused for different temperatures. Real numbers stand for floating point numbers."
  },
  {
   "property": "C94",
   "status": "partial",
   "theorems": [
    "C94_write",
    "C94_round_trip",
    "C94_wide_refuted",
    "C94_single_point_refuted"
   ],
   "note": "Proved: writing; reading back square functions of real frequencies on at least two points. False of the code and refuted: more columns than rows, or a single mesh point, cannot be read back. Not modelled: the text itself (numbers are exact), files that other programs write on non-uniform meshes."
  },
  {
   "property": "C95",
   "status": "partial",
   "theorems": [
    "C95_run",
    "C95_all_points",
    "C95_none_ignored_refuted"
   ],
   "note": "Proved for one process. False of the code and refuted: that a result None is ignored. Missing: several processes (fork, pickled files and messages are not modelled)."
  },
  {
   "property": "C96",
   "status": "partial",
   "theorems": [
    "C96_triangles",
    "C96_weight",
    "C96_weight_refuted"
   ],
   "note": "Proved: triangles, weights and their sum for all polygons; the weight is the area if the first corner sees the others in one direction of rotation, as in a convex polygon. False of the code and refuted: for other polygons. Not modelled: dos, rounding."
  },
  {
   "property": "C97",
   "status": "partial",
   "theorems": [
    "C97_clip",
    "C97_generator_refuted"
   ],
   "note": "Proved for arrays and lists. False of the code and refuted for generators. Not modelled: NaN."
  }
 ]
}