# Formal model of TRIQS in Rocq/Coq 8.16.1

This file says what is modelled, how each property of `properties.jsonl` is
proved, and what the result rests on.  It is produced by `tools/gen_design.py`
from `tools/design_head.md`, the manifest and the output of `Print Assumptions`.

## Layout

* `rocq/theories/X.v` : model definitions; each has a comment citing the file and
  lines in `/repo` it models and the simplifications made.
* `rocq/theories/XSpec.v` : the specification a theorem refers to, written
  without the model's helpers.  `Fock.v`, `FockSpec.v` and `OpExpr.v` are the
  specification of second-quantised operators (Fock states, action of c and
  c^dagger, meaning of operator expressions).
* `rocq/theories/X_proofs.v` and files with other suffixes : lemmas.
* `rocq/theories/X_props.v` : the property theorems `Cnn_...`, each with
  `Print Assumptions` beneath it and an `Example` that meets its hypotheses.
* `properties.jsonl` (from `tools/gen_properties.py`), `MANIFEST.json` (from
  `tools/gen_manifest.py` and `tools/notes.json`), `ASSUMPTIONS.md`,
  `seeded/LOG.jsonl` (wrong programs tried against the theorems).

## Modelling conventions

* Numbers.  Where the code computes with `double` or `complex`, the model
  computes exactly: in an arbitrary field, in `Q`, `R` or `C`, or in a structure
  `scalar_ops` with laws (integers, rationals, reals, complex numbers are
  instances, binary64 is an instance without the laws).  Rounding is modelled
  where it is the point: random numbers (Flocq binary64), tolerance of the
  zero test (binary64), time points (64-bit words).
* Machine integers are `Z`/`N`/`nat`; wrap-around is explicit where the code can
  wrap, and each theorem names the range it needs.
* Exceptions and undefined behaviour (out-of-range access, dereferencing
  `end()`, signed overflow) are separate outcomes `Throw` and `UB` of the model
  (`Base.v`).  A theorem that says a call returns `Ok` excludes both.
* External code is a universally quantified parameter with the law it is
  trusted for stated as a hypothesis: LAPACK (`solves`: the eigensystem it
  returns is one), the union-find of Boost (choice of representatives is
  arbitrary), user functions and callbacks, the random stream, MPI
  reductions, HDF5 (returns what was written), `cyl_bessel_i`.  FFTW is
  modelled by the formula in its manual.  The tail fitter is an arbitrary function in
  C72-C79 and is modelled in C80-C81.
* A statement of the documentation that is false of the code is recorded as a
  theorem with suffix `_refuted` that exhibits the counterexample; the property
  is then worded as what is true.  `_partial` marks theorems that prove less
  than the property.

## Trusted base

* The Coq 8.16.1 kernel, with `vm_compute` for closed computations.
* The axioms of the standard library listed below theorem by theorem: the
  construction of the reals (`ClassicalDedekindReals.sig_forall_dec`,
  `sig_not_dec`), `functional_extensionality_dep` and `Classical_Prop.classic`
  (both through Reals, Coquelicot and Flocq).  No other axiom.
* The correspondence between the C++/Python text and the Gallina definitions,
  documented by the comments with line numbers.  Nothing extracts or compiles
  the C++ code.
* The laws assumed of external code, listed in the previous section; they are
  hypotheses of the theorems that use them.

## Properties: model, method, status

### C01 det_manip: the row/column contents follow the list-edit semantics

* code: `c++/triqs/det_manip/det_manip.hpp: try_insert, complete_insert, try_remove, complete_remove, try_insert_k, try_remove_k, change_col_row, roll_matrix, swap_row, get_x, get_y`
* model and method: det_manip as a state machine (lists of rows and columns, permutation tables, work arrays) over an arbitrary field; invariant by induction over the history.
* status: proved; theorems in `DetManip_props.v`: `C01_contents`, `C01_total`
* scope: Exact arithmetic over an arbitrary field; f, the singularity test and the accuracy test are arbitrary. No invertibility is needed for the contents; C01_total shows that in-range histories through invertible matrices run without exception. k-fold operations with k >= 2 (k = 0, and k = 1 before any larger one, read outside the work arrays).

### C02 det_manip: determinant() is the determinant of f(x_i, y_j)

* code: `c++/triqs/det_manip/det_manip.hpp: determinant, complete_operation, roll_matrix, swap_row, swap_col`
* model and method: same invariant; determinant lemmas (Schur complement) of mathcomp.
* status: proved; theorems in `DetManip_props.v`: `C02_determinant`, `C02_determinant_defined`
* scope: Exact arithmetic over an arbitrary field; f, the singularity test and the accuracy test are arbitrary. Every matrix of the history must be invertible.

### C03 det_manip: inverse_matrix() is the inverse of f(x_i, y_j)

* code: `c++/triqs/det_manip/det_manip.hpp: inverse_matrix, matrix, complete_insert, complete_remove, complete_change_col, complete_change_row, complete_change_col_row`
* model and method: same invariant; block inverse formulas.
* status: proved; theorems in `DetManip_props.v`: `C03_inverse`
* scope: Exact arithmetic over an arbitrary field; f, the singularity test and the accuracy test are arbitrary. Every matrix of the history must be invertible.

### C04 det_manip: the value returned by a try_* call is the ratio of determinants

* code: `c++/triqs/det_manip/det_manip.hpp: try_insert, try_insert_k, try_remove, try_remove_k, try_change_col, try_change_row, try_change_col_row, try_refill`
* model and method: same; ratio of determinants from the Schur complement.
* status: proved; theorems in `DetManip_props.v`: `C04_ratio`, `C04_all_ratios`
* scope: Exact arithmetic over an arbitrary field; f, the singularity test and the accuracy test are arbitrary. Holds for tries that are rejected too, and for a new matrix that is singular.

### C05 det_manip: a rejected try changes nothing observable

* code: `c++/triqs/det_manip/det_manip.hpp: reject_last_try, complete_operation, last_try`
* model and method: a try followed by no completion commutes with every continuation.
* status: proved; theorems in `DetManip_props.v`: `C05_reject`
* scope: The continuation must be defined without the try (a k-fold try also enlarges work arrays, so a k = 1 try that would read outside them may become defined).

### C06 det_manip: k-fold insertions and removals treat their positions as simultaneous

* code: `c++/triqs/det_manip/det_manip.hpp: try_insert_k, complete_insert_k, try_remove_k, complete_remove_k`
* model and method: list edits at several positions against the specification of simultaneous insertion and removal.
* status: proved; theorems in `DetManip_props.v`: `C06_insert_k`, `C06_insert_order`, `C06_remove_k`
* scope: Positions of the final matrix for insertions, of the initial one for removals; the ratio does not depend on the order of the arguments.

### C07 many_body_operator: normal ordering preserves the operator

* code: `c++/triqs/operators/many_body_operator.hpp: normalize_and_insert, many_body_operator_generic(scalar, monomial_t)`
* model and method: monomials as lists, normal ordering with fuel; meaning as linear maps on finitely supported Fock vectors, proved equal for every assignment of modes.
* status: proved; theorems in `Op_props.v`: `C07_normal_order_preserves_action`
* scope: Exact scalars (integral domain). Every monomial, every Fock vector; termination of the bubble sort proved.

### C08 many_body_operator: + - * unary- and scalar operations are the algebra operations

* code: `c++/triqs/operators/many_body_operator.hpp: operator+=, operator-=, operator*=, operator-, operator*`
* model and method: denotation of expressions.
* status: proved; theorems in `Op_props.v`: `C08_expressions_denote_their_linear_maps`, `C08_algebra_laws_on_stored_operators`
* scope: All expressions of the operator API except division by a scalar (which is multiplication by 1/x).

### C09 many_body_operator: canonical anticommutation relations

* code: `c++/triqs/operators/many_body_operator.hpp: c, c_dag, n, operator*, operator+, operator==`
* model and method: denotation and uniqueness.
* status: proved; theorems in `Op_props.v`: `C09_c_c_anticommute`, `C09_cdag_cdag_anticommute`, `C09_c_cdag_anticommute_to_delta`

### C10 many_body_operator: stored form is unique, so equality of operators is decided

* code: `c++/triqs/operators/many_body_operator.hpp: operator==, is_zero, begin, end`
* model and method: linear independence of normal-ordered products by a triangular argument.
* status: proved; theorems in `Op_props.v`: `C10_equality_decides_equality_of_maps`, `C10_monomial_constructor_refuted`
* scope: For operators built by expressions. Counterexample proved for the (coefficient, monomial) constructor, which does not normal order.

### C11 many_body_operator: dagger is the adjoint

* code: `c++/triqs/operators/many_body_operator.hpp: dagger, is_op_hermitian`
* model and method: denotation against the adjoint.
* status: proved; theorems in `Op_props.v`: `C11_dagger_is_the_adjoint`, `C11_dagger_of_products_and_sums`

### C12 many_body_operator: tolerance of the zero test

* code: `c++/triqs/operators/many_body_operator.hpp: erase_zero_monomial`; `c++/triqs/utility/numeric_ops.hpp: is_zero`
* model and method: case analysis of the tolerance; binary64 counterexample.
* status: proved; theorems in `Op_props.v`: `C12_addition_exact`, `C12_addition_with_tolerance`, `C12_addition_associative_double_refuted`
* scope: Exact part proved; the effect of the tolerance characterised; associativity for doubles refuted (IEEE binary64 evaluation inside Coq).

### C13 many_body_operator: compound assignment with an aliased argument

* code: `c++/triqs/operators/many_body_operator.hpp: operator+=, operator-=, operator*=`
* model and method: iteration over a map that is modified; undefined outcome.
* status: proved; theorems in `Op_props.v`: `C13_self_addition`, `C13_self_subtraction_refuted`, `C13_self_addition_double_refuted`
* scope: h += h proved for exact scalars; h -= h refuted (undefined behaviour); h *= h is the ordinary product (the code uses a temporary map).

### C14 fundamental_operator_set: positions are a stable bijection

* code: `c++/triqs/hilbert_space/fundamental_operator_set.hpp: insert, operator[], has_indices, size`
* model and method: lists of index tuples; induction.
* status: proved; theorems in `Hilbert_props.v`: `C14_linear_index_is_a_bijection`, `C14_positions_follow_insertion_order`, `C14_positions_never_move`

### C15 fundamental_operator_set: HDF5 round trip

* code: `c++/triqs/hilbert_space/fundamental_operator_set.cpp: h5_write_attribute, h5_read_attribute`
* model and method: string codec; induction.
* status: proved; theorems in `Hilbert_props.v`: `C15_h5_round_trip`, `C15_wide_integers_refuted`, `C15_nul_characters_refuted`
* scope: Integers that fit int and strings without NUL; both restrictions shown necessary by counterexamples. h5 storage modelled as NUL-terminated strings with arbitrary padding.

### C16 imperative_operator acts as the operator it is built from

* code: `c++/triqs/hilbert_space/imperative_operator.hpp: operator(), compute_count_mask, parity_number_of_bits`
* model and method: bit masks on N; parity lemmas.
* status: proved; theorems in `ImpOp_props.v`: `C16_full_space_action`, `C16_subspace_action`, `C16_mapped_subspace_action`, `C16_unknown_index_throws`, `C16_raw_monomial_refuted`
* scope: Full spaces, invariant subspaces and mapped subspaces; both storage kinds; exact scalars. Raw non-normal monomials refuted.

### C17 imperative_operator: range of validity of the fermionic sign

* code: `c++/triqs/hilbert_space/imperative_operator.hpp: parity_number_of_bits`
* model and method: same; vm_compute counterexample.
* status: partial; theorems in `ImpOp_props.v`: `C17_beyond_17_orbitals_refuted`, `C17_low_occupations_partial`
* scope: Validity up to 17 orbitals or 16 lowest occupied modes proved; failure from 18 orbitals on proved as a counterexample for every such size.

### C18 hilbert_space / sub_hilbert_space: state <-> index is a bijection

* code: `c++/triqs/hilbert_space/hilbert_space.hpp: hilbert_space, sub_hilbert_space`
* model and method: lists and finite maps.
* status: proved; theorems in `Hilbert_props.v`: `C18_full_space_index_bijection`, `C18_31_orbitals_refuted`, `C18_fock_state_of_a_set_of_indices`, `C18_fock_state_of_orbital_31_refuted`, `C18_subspace_index_bijection`, `C18_duplicate_insertion_refuted`
* scope: Full spaces up to 30 orbitals (sharp: 31 and 32 refuted), subspaces with distinct states.

### C19 state: vector-space operations and projection

* code: `c++/triqs/hilbert_space/state.hpp: operator+=, operator*=, dot_product, project`
* model and method: association lists and dense vectors against amplitudes.
* status: proved; theorems in `State_props.v`: `C19_addition`, `C19_subtraction`, `C19_scaling`, `C19_dot_product`, `C19_projection`, `C19_projection_to_smaller_full_space_refuted`
* scope: Exact scalars; both storage kinds. Projection to a smaller full space refuted (out of bounds).

### C20 space_partition: the partition is the set of connected components of H

* code: `c++/triqs/hilbert_space/space_partition.hpp: space_partition, lookup_basis_state, n_subspaces`
* model and method: union-find abstracted to labellings with arbitrary representatives; closure by induction over the matrix elements.
* status: proved; theorems in `Partition_props.v`: `C20_same_subspace_iff_connected`, `C20_numbering`, `C20_of_operator`, `C20_stored_elements`, `C20_elements_with_hybridization_refuted`
* scope: For any choice of representatives by the union-find library. With a hybridization operator the chains may also use its elements (as documented), and get_matrix_elements then holds its elements instead of those of H (C20_elements_with_hybridization_refuted).

### C21 space_partition: merged subspaces are invariant under H and coarser

* code: `c++/triqs/hilbert_space/space_partition.hpp: merge_subspaces`
* model and method: same.
* status: proved; theorems in `Partition_props.v`: `C21_merge`

### C22 space_partition: after merge_subspaces creation/annihilation are one-to-one on subspaces

* code: `c++/triqs/hilbert_space/space_partition.hpp: merge_subspaces, find_mappings`; `c++/triqs/atom_diag/atom_diag.hpp: atom_diag(h, fops, hyb)`
* model and method: counterexample with four orbitals; one direction proved.
* status: partial; theorems in `Partition_props.v`: `C22_merge_exact`, `C22_one_to_one_partial`, `C22_one_to_one_refuted`, `C22_find_mappings_exact`
* scope: False in full: C22_one_to_one_refuted gives a hermitian, number-conserving Hamiltonian of 4 orbitals whose automatic partition has a subspace that c+_0 maps into two subspaces. Proved: the exact relation computed by the merge; each operator maps each subspace of the partition before the merge into one after it; one-to-one on the new partition if no subspace before the merge held both a state the operator acts on and a state it produces; find_mappings is exact.

### C23 atom_diag: flat eigenstate numbering is a bijection

* code: `c++/triqs/atom_diag/impl/atom_diag.cpp: fill_first_eigenstate_of_subspace`; `c++/triqs/atom_diag/atom_diag.hpp: flatten_subspace_index, index_range_of_subspace`
* model and method: prefix sums.
* status: proved; theorems in `AtomDiag_props.v`: `C23_flat_numbering`
* scope: For every object made by the automatic constructors; N is the number of states kept.

### C24 atom_diag: per-subspace data stay aligned when subspaces are reordered by energy

* code: `c++/triqs/atom_diag/impl/worker.cpp: complete, partition_with_qn`
* model and method: permutation of blocks applied to every table.
* status: proved; theorems in `AtomDiag_props.v`: `C24_blocks_aligned_and_sorted`
* scope: For every object made by the automatic constructors. Ordering is by lowest energy + 1e-10 * (number before sorting), as coded.

### C25 atom_diag: thermal averages

* code: `c++/triqs/atom_diag/impl/functions.cpp: partition_function, atomic_density_matrix, trace_rho_op`
* model and method: power series of the exponential in the eigenbasis (Coquelicot).
* status: proved; theorems in `Thermal_props.v`: `C25_partition_function`, `C25_density_matrix`, `C25_thermal_average`
* scope: exact real arithmetic for the doubles, the eigensolver is an oracle assumed to solve each block (solves); standard axioms of the Coq reals

### C26 atom_diag: atomic Green functions

* code: `c++/triqs/atom_diag/impl/gf.cpp: atomic_g_lehmann_impl, atomic_g_lehmann, fill_block_gf_from_lehmann, atomic_g_tau, atomic_g_iw, atomic_g_l, atomic_g_w`; `c++/triqs/utility/legendre.cpp: mod_cyl_bessel_i`
* model and method: finite sums over eigenstates; Fourier and Legendre integrals by antiderivatives and Bonnet's recursion.
* status: proved; theorems in `Lehmann_props.v`: `C26_lehmann`, `C26_both_ways`, `C26_imaginary_time`, `C26_sum_rule`, `C26_matsubara`, `C26_real_frequency`, `C26_legendre`, `C26_hermitian`, `C26_spectral_function`
* scope: Exact real and complex arithmetic; std::exp/cosh/sqrt are the real functions; boost's cyl_bessel_i enters as a function that satisfies the integral representation of the modified spherical Bessel functions (hypothesis of C26_legendre). C26_both_ways holds for every value type and update, so also for floating point. The atom is any result of the constructors of C63 whose c, c^dagger have single targets (C22/C64 show when this fails). Negligible residues (below 2^-52) are dropped by the code; the theorems bound their effect by D^2 2^-52. New block_gf objects are zero.

### C27 mc_generic: bookkeeping of a run

* code: `c++/triqs/mc_tools/mc_generic.hpp: run, warmup, accumulate, warmup_and_accumulate`
* model and method: run loop with oracles for random numbers, callbacks and signals; induction over cycles.
* status: proved; theorems in `McTools_props.v`: `C27_run_structure_and_status`, `C27_run_numbers`, `C27_run_terminates`, `C27_run_safe`, `C27_run_returns`, `C27_warmup_and_accumulate`, `C27_status_0_means_complete_refuted`, `C27_exception_reported_without_mpi_refuted`, `C27_more_than_int_max_cycles_refuted`
* scope: Signals, stop callbacks, exceptions, world-dependent moves arbitrary; reports and timers not modelled; MPI monitor is an oracle. Refuted variants: status 0 with a cut last cycle, exception without MPI environment (null pointer), int overflow above INT_MAX cycles.

### C28 mc_generic: the sign passed to measurements is the running product

* code: `c++/triqs/mc_tools/mc_generic.hpp: run`; `c++/triqs/mc_tools/mc_move_set.hpp: attempt, accept, reject`
* model and method: same.
* status: proved; theorems in `McTools_props.v`: `C28_sign_is_running_product`, `C28_ratio_is_modulus_times_sign`, `C28_infinite_ratios`, `C28_nested_move_set`, `C28_sign_of_tiny_ratio_refuted`
* scope: Exact reals; tiny-ratio variant refuted.

### C29 move_set: selection probability and statistics

* code: `c++/triqs/mc_tools/mc_move_set.hpp: attempt, normaliseProba, add`
* model and method: same.
* status: proved; theorems in `McTools_props.v`: `C29_selected_iff_in_interval`, `C29_interval_is_weight`, `C29_always_selects`, `C29_always_selects_with_rounding`, `C29_statistics`, `C29_acceptance_rate`
* scope: Exact reals for the cumulative table, plus a version for any perturbed table.

### C30 mc measures: each registered measure is called exactly once per measured cycle

* code: `c++/triqs/mc_tools/mc_measure_set.hpp: insert, accumulate`
* model and method: same.
* status: proved; theorems in `McMisc_props.v`: `C30_measures_follow_registry`, `C30_accumulate_once_in_name_order`, `C30_duplicate_names_throw`

### C31 random_generator: integers drawn are in range

* code: `c++/triqs/mc_tools/random_generator.hpp: operator()(T i)`
* model and method: Flocq binary64.
* status: proved; theorems in `McMisc_props.v`: `C31_random_integers_in_range`, `C31_random_integers_reached`
* scope: Flocq binary64, round to nearest even, no overflow (n < 2^1024).

### C32 buffered_function: the consumer sees exactly the generator's stream

* code: `c++/triqs/utility/buffered_function.hpp: operator(), preview, refill`
* model and method: stream machine; refinement.
* status: proved; theorems in `McMisc_props.v`: `C32_buffered_function_is_the_stream`, `C32_calls_return_consecutive_values`, `C32_buffer_of_size_0_refuted`
* scope: Size 0 refuted.

### C33 time_pt: cyclic arithmetic on the imaginary-time circle

* code: `c++/triqs/utility/time_pt.hpp: operator+, operator-, div_by_int, floor_div`
* model and method: Z modulo 2^64.
* status: proved; theorems in `TimePt_props.v`: `C33_time_pt_add_is_circle_addition`, `C33_time_pt_sub_is_circle_subtraction`, `C33_time_pt_group_laws`, `C33_time_pt_neg_is_circle_negation`, `C33_time_pt_neg_is_zero_minus_refuted`, `C33_time_pt_mult_exact_without_wrap`, `C33_time_pt_mult_is_repeated_addition_refuted`, `C33_time_pt_division_is_floor`, `C33_time_pt_random_between_in_interval`
* scope: Group laws proved; two over-strong readings refuted (unary minus of zero, multiplication with wrap).

### C34 matsubara_freq arithmetic

* code: `c++/triqs/mesh/domains/matsubara.hpp: operator+, operator-, operator/`
* model and method: integers and reals.
* status: proved; theorems in `Matsubara_props.v`: `C34_sum_of_frequencies`, `C34_difference_of_frequencies`, `C34_negated_frequency`, `C34_frequency_group_laws`, `C34_frequency_determined_by_value`, `C34_kronecker_same_statistic`, `C34_kronecker_is_equality_refuted`, `C34_quotient_of_frequencies_refuted`
* scope: Exact reals. Additionally refuted: operator/ returns the product; kronecker ignores the statistic (true only for equal statistics).

### C35 imfreq mesh: index bijection, symmetry and storage

* code: `c++/triqs/mesh/imfreq.hpp: imfreq, to_data_index, to_index, is_index_valid, h5_write, h5_read`
* model and method: integer index maps.
* status: proved; theorems in `Matsubara_props.v`: `C35_imfreq_index_bijection`, `C35_imfreq_size`, `C35_imfreq_iteration`, `C35_imfreq_symmetric`, `C35_imfreq_positive_half`, `C35_imfreq_h5_round_trip`, `C35_imfreq_eval_on_mesh`, `C35_imfreq_window_covers_refuted`
* scope: Also proved: the energy-window constructor always leaves out a fermionic frequency of the window (finding).

### C36 linear meshes: values, closest point and interpolation

* code: `c++/triqs/mesh/bases/linear.hpp: to_value, to_index, evaluate`
* model and method: reals; floor lemmas.
* status: proved; theorems in `LinMesh_props.v`: `C36_linear_mesh_values`, `C36_closest_point_is_nearest`, `C36_closest_point_of_mesh_point`, `C36_evaluation_interpolates`, `C36_evaluation_exact_on_mesh_points`, `C36_evaluation_exact_on_affine_functions`, `C36_imtime_mesh_values`, `C36_evaluation_outside`, `C36_linear_h5_round_trip`, `C36_closest_point_always_defined_refuted`
* scope: Exact reals, L>=2 and xmin<xmax; degenerate meshes (L=1 or xmin=xmax) proved to run into an undefined conversion.

### C37 cyclic meshes: folding and index bijection

* code: `c++/triqs/mesh/cyclat.hpp: index_modulo, to_data_index, to_index, evaluate`; `c++/triqs/mesh/brzone.hpp`
* model and method: integer index maps.
* status: proved; theorems in `Mesh_props.v`: `C37_cyclic_index_bijection`, `C37_cyclic_valid_indices`, `C37_index_modulo_unique_representative`, `C37_cyclic_evaluation`, `C37_mesh_point_arithmetic`, `C37_mesh_iteration`

### C38 cyclic meshes: equality identifies the mesh

* code: `c++/triqs/mesh/cyclat.hpp: operator==`; `c++/triqs/mesh/utils.hpp: hash`
* model and method: same; collisions by computation.
* status: partial; theorems in `Mesh_props.v`: `C38_equal_meshes_compare_equal_partial`, `C38_equality_identifies_mesh_refuted`, `C38_equality_identifies_size_refuted`
* scope: The property is false of the code: equality compares a sum of hashes, so permuted dims compare equal (refuted for every hash function). Only reflexivity holds.

### C39 brzone: interpolation is periodic and exact on mesh points

* code: `c++/triqs/mesh/brzone.hpp: evaluate, closest_index`
* model and method: reals; floor lemmas.
* status: proved; theorems in `Lattice_props.v`: `C39_interpolation_periodic`, `C39_interpolation_exact_on_mesh`, `C39_mesh_points_distinct_refuted`, `C39_interpolation_weights`
* scope: Exact reals; every 1-3 dimensional non-degenerate lattice. Distinctness of mesh points refuted for meshes with several points in a direction outside of the lattice.

### C40 product meshes: index bijection and evaluation

* code: `c++/triqs/mesh/prod.hpp: to_data_index, to_index, begin`; `c++/triqs/mesh/evaluate.hpp: evaluate`
* model and method: mixed radix by induction over the components.
* status: proved; theorems in `Mesh_props.v`: `C40_product_index_bijection`, `C40_product_iteration`, `C40_product_evaluation`, `C40_product_evaluation_on_mesh_point`

### C41 lin_binning accumulator

* code: `c++/triqs/stat/accumulator.hpp: lin_binning::operator<<, lin_binning::compress`
* model and method: fold over the data; invariant.
* status: proved; theorems in `Acc_props.v`: `C41_bins_are_block_means`, `C41_single_bin`, `C41_switched_off`, `C41_at_most_max_bins`, `C41_compress_capacity`, `C41_automatic_capacity`
* scope: For every interleaving of data and manual compressions; capacity at least 1. Exact arithmetic, component by component; a self-move assignment is assumed to leave the bin unchanged.

### C42 log_binning accumulator

* code: `c++/triqs/stat/accumulator.hpp: log_binning::operator<<, log_bin_errors`
* model and method: same, binary counter of levels.
* status: proved; theorems in `Acc_props.v`: `C42_levels`, `C42_errors`, `C42_errors_mpi`, `C42_level_31_refuted`
* scope: The bound on the number of data is necessary: with unlimited levels the datum number 2^31 indexes past the end (C42_level_31_refuted, the code shifts an int).

### C43 jackknife

* code: `c++/triqs/stat/jackknife.hpp: jackknife`
* model and method: field algebra.
* status: proved; theorems in `Stat_props.v`: `C43_documented_estimators`, `C43_linear`, `C43_quadratic`
* scope: Exact arithmetic over any algebraically closed numeric field; data are vectors of any left module. Empty series are undefined behaviour, one datum divides 0 by 0 (both outside the hypothesis).

### C44 jackknife_mpi

* code: `c++/triqs/stat/jackknife.hpp: jackknife_mpi`
* model and method: ranks as a list; root and non-root outcomes.
* status: partial; theorems in `Stat_props.v`: `C44_single_rank`, `C44_f_of_averages`, `C44_as_if_delivered_partial`, `C44_average_refuted`, `C44_estimate_refuted`
* scope: The full statement (every rank returns the serial jackknife of the joined series) is false of the code and refuted: the total number of data is reduced to the root only (the other ranks divide by an unset buffer), and the bias correction uses the local number of data. Proved: f of the averages is right on every rank, the single-rank case is right, and what exactly would be returned if the total were delivered.

### C45 mean and standard error

* code: `c++/triqs/stat/mean_error.hpp: mean, mean_and_err, mpi_reduce_MQ`
* model and method: field algebra.
* status: proved; theorems in `Stat_props.v`: `C45_mean`, `C45_mean_and_err`, `C45_single_datum`, `C45_order_independent`, `C45_mpi`, `C45_merge`
* scope: Exact arithmetic, component by component. Empty data are undefined behaviour and one datum has error NaN (stated).

### C46 histogram: no sample is lost or double counted

* code: `c++/triqs/stat/histograms.cpp: operator<<, pdf, cdf, operator+`
* model and method: floor lemmas.
* status: proved; theorems in `Hist_props.v`: `C46_every_sample_recorded`, `C46_one_nearest_bin`, `C46_addition`, `C46_addition_throws`, `C46_mpi_reduce`, `C46_pdf`, `C46_cdf`, `C46_pdf_defined`, `C46_clear`, `C46_integer_bins`, `C46_empty_range_throws`, `C46_no_bins_refuted`
* scope: Rational limits and samples, exact arithmetic; n_bins = 0 is accepted by the constructor and then indexes an empty array (C46_no_bins_refuted). NaN samples are not modelled.

### C47 pade_approximant interpolates its input

* code: `c++/triqs/utility/pade_approximants.hpp: pade_approximant, operator()`
* model and method: continued fraction over a field; induction.
* status: proved; theorems in `Pade_props.v`: `C47_interpolates`, `C47_rejects`, `C47_after_truncation_refuted`
* scope: Any field, exact arithmetic; the 256-bit GMP precision and the rounding of the coefficients to double are not modelled. C47_after_truncation_refuted: points after a small coefficient are not interpolated.

### C48 extractors reconstruct the operator

* code: `c++/triqs/operators/util/extractors.hpp: extract_h_dict, extract_U_dict2, extract_U_dict4, dict_to_matrix, filter_op, block_matrix_from_op, op_from_block_matrix`
* model and method: on the operator model.
* status: proved; theorems in `Extractors_props.v`: `C48_h_dict`, `C48_U_dict2`, `C48_U_dict4`, `C48_dict_to_matrix`, `C48_filter_op`, `C48_block_of_op`, `C48_op_of_block`, `C48_block_rejects_refuted`
* scope: Exact scalars (any commutative ring without zero divisors; the U formulae need an element half with half+half=1). C48_block_rejects_refuted: block_matrix_from_op accepts hoppings between blocks and quartic terms (operator precedence in its condition) and is undefined on a constant term.

### C49 tight_binding: Fourier transform of accepted hoppings is hermitian

* code: `c++/triqs/lattice/tight_binding.cpp: tight_binding, fourier`; `c++/triqs/lattice/tight_binding.hpp: fourier`
* model and method: complex numbers, trigonometry.
* status: proved; theorems in `TightBinding_props.v`: `C49_fourier`, `C49_hermitian`, `C49_hermitian_exact`, `C49_periodic`, `C49_accepted`, `C49_holds`, `C49_array`, `C49_mesh`, `C49_repeated_displacement_refuted`
* scope: constructor checks, fourier at a point, on an array and on a brzone mesh; exact complex arithmetic; a repeated displacement breaks hermiticity (C49_repeated_displacement_refuted)

### C50 grid_generator visits every k-point once

* code: `c++/triqs/lattice/grid_generator.hpp: operator++, operator bool`
* model and method: counter; induction.
* status: proved; theorems in `Grid_props.v`: `C50_grid_visits`, `C50_empty_grid_refuted`
* scope: C50_empty_grid_refuted: with nkpts = 0 (default constructor) one point is visited although size() is 0.

### C51 real_or_complex arithmetic

* code: `c++/triqs/utility/real_or_complex.hpp`
* model and method: two-case number type.
* status: proved; theorems in `RealOrComplex_props.v`: `C51_value`, `C51_real_flag`, `C51_tests`
* scope: Doubles are rationals: no rounding, no inf/nan; a division by zero has no meaning in the model. Stream output is not modelled.

### C52 signal handler and run status

* code: `c++/triqs/utility/signal_handler.cpp: start, stop, received, last, pop`
* model and method: state machine.
* status: proved; theorems in `McMisc_props.v`: `C52_signals_conserved`, `C52_most_recent_first`, `C52_start_stop`, `C52_handlers_stay_installed`, `C52_only_between_start_and_stop_refuted`
* scope: Asynchronous delivery between calls; the vector push_back inside the handler is taken as atomic.

### C53 gf: hermitian symmetrisation and half-mesh representation

* code: `c++/triqs/gfs/functions/imfreq.hpp: make_hermitian, is_gf_hermitian, is_gf_real_in_tau, make_real_in_tau, make_gf_from_real_gf, positive_freq_view, replace_by_tail, restricted_view`
* model and method: index maps and conjugation.
* status: proved; theorems in `GfSym_props.v`: `C53_make_hermitian`, `C53_is_gf_hermitian`, `C53_hermitian_after`, `C53_real_in_tau`, `C53_hermitian_tau`, `C53_from_real`, `C53_positive_freq_view`, `C53_replace_by_tail`, `C53_restricted_view`, `C53_boson_refuted`
* scope: Exact scalars with conjugation; the tolerance comparisons are parameters of the model. C53_boson_refuted: restricted_view of a bosonic function is labelled fermionic and make_gf_from_real_gf accepts a bosonic G(0) that is not real.

### C54 gf: flattening data is invertible

* code: `c++/triqs/gfs/gf/flatten.hpp: flatten_2d, unflatten_2d`
* model and method: row-major index arithmetic.
* status: proved; theorems in `Flatten_props.v`: `C54_round_trip`, `C54_round_trip_back`, `C54_elements`, `C54_order`, `C54_order_refuted`, `C54_empty_dimension`
* scope: C54_order_refuted: for N = 2 the other dimensions are not in the original order, contrary to the documentation; an empty dimension N divides by zero (C54_empty_dimension).

### C55 legendre_generator and bravais/brillouin coordinate transforms

* code: `c++/triqs/utility/legendre.hpp: legendre_generator`; `c++/triqs/lattice/brillouin_zone.cpp`
* model and method: reals; recursion of Legendre polynomials.
* status: proved; theorems in `Lattice_props.v`: `C55_lattice_coordinates_round_trip`, `C55_lattice_to_real_is_combination_of_units`, `C55_completed_basis_independent`, `C55_reciprocal_vectors_dual`, `C55_reciprocal_coordinates_round_trip`, `C55_zero_unit_vector_rejected_refuted`, `C55_legendre_generator`, `C55_legendre_generator_at_one_and_parity`, `C55_legendre_tail_coefficients`
* scope: Exact reals; release-mode reading of 3-vectors on lower dimensional lattices.

### C56 MPI slicing of arrays

* code: `python/triqs/utility/mpi_mpi4py.py: slice_inf, slice_sup`
* model and method: integers.
* status: proved; theorems in `MpiSlice_props.v`: `C56_slices_partition`, `C56_slice_array`

### C57 superlattice folding

* code: `python/triqs/lattice/super_lattice.py: TBSuperLattice, change_coordinates_L_to_SL, pack_index_site_orbital, unpack_index_site_orbital, fold`
* model and method: integer matrices (mathcomp), Python list semantics.
* status: proved; theorems in `SuperLattice_props.v`: `C57_sites`, `C57_builds`, `C57_dependent`, `C57_negative_unit_refuted`, `C57_user_sites`, `C57_automatic_proper`, `C57_coordinates`, `C57_SL_to_L_refuted`, `C57_sites_outside_refuted`, `C57_pack`, `C57_unpack`, `C57_fold`, `C57_each_hopping_once`, `C57_remove_internal_refuted`
* scope: integer units, exact linear algebra; the number of points of the cell by the Smith normal form; SL_to_L and remove_internal always raise (C57_SL_to_L_refuted, C57_remove_internal_refuted), negative units and sites outside of the cell (C57_negative_unit_refuted, C57_sites_outside_refuted)

### C58 dichotomy returns only solutions

* code: `python/triqs/utility/dichotomy.py: dichotomy`
* model and method: rationals; induction over the iterations.
* status: proved; theorems in `Dichotomy_props.v`: `C58_returns_solution`, `C58_always_returns`, `C58_failure`, `C58_exact_solution_refuted`
* scope: C58_exact_solution_refuted: an exact root is reported as a failure when the precision is 0.

### C59 brzone: closest mesh point

* code: `c++/triqs/mesh/brzone.hpp: closest_index`
* model and method: reals.
* status: partial; theorems in `Lattice_props.v`: `C59_closest_point_in_mesh`, `C59_closest_point_of_mesh_point`, `C59_closest_point_is_nearest_orthogonal_partial`, `C59_closest_point_is_nearest_refuted`
* scope: Index validity and mesh points proved for all lattices; nearest proved for orthogonal reciprocal vectors and refuted for a skewed lattice (only the corners of the enclosing cell are compared).

### C60 mc_generic: Metropolis acceptance rule

* code: `c++/triqs/mc_tools/mc_generic.hpp: run`; `c++/triqs/mc_tools/mc_move_set.hpp: attempt, accept, reject`
* model and method: same machine as C27.
* status: proved; theorems in `McTools_props.v`: `C60_metropolis_rule`

### C61 random_generator: reals drawn are in the interval

* code: `c++/triqs/mc_tools/random_generator.hpp: operator()(double), operator()(double, double)`
* model and method: Flocq binary64.
* status: proved; theorems in `McMisc_props.v`: `C61_random_real_below_bound`, `C61_random_real_between`, `C61_random_real_below_b_refuted`
* scope: Half-open [a,b[ refuted; rng(a,b) proved when b-a is exactly representable.

### C62 accumulator archives

* code: `c++/triqs/stat/accumulator.hpp: h5_write, h5_read, log_binning`
* model and method: archive as a record.
* status: proved; theorems in `Acc_props.v`: `C62_reads_back`, `C62_continues`, `C62_continues_refuted`
* scope: The archive does not store max_n_bins of the logarithmic part; C62_continues_refuted shows the effect.

### C63 atom_diag: exact diagonalization of the Hamiltonian

* code: `c++/triqs/atom_diag/impl/worker.cpp: autopartition, complete, make_op_matrix`; `c++/triqs/atom_diag/impl/atom_diag.cpp: atom_diag`
* model and method: complete() over an arbitrary eigen-solver; spectral statement against brackets of the Hamiltonian.
* status: proved; theorems in `AtomDiag_props.v`: `C63_auto_constructor`, `C63_hybridization_constructor`, `C63_filter_constructor`, `C63_negative_minimum_refuted`
* scope: Exact arithmetic: scalars are any integral domain with conjugation, the eigensolver is any function that diagonalizes the matrices of H on closed sets of states (Section hypothesis 'solves', shown satisfiable for a non-diagonal H over the rationals). At most 17 orbitals, because the sign of c is wrong from 18 on (C17). A negative n_min is refuted (C63_negative_minimum_refuted).

### C64 atom_diag: no matrix element of c or c^dagger is lost

* code: `c++/triqs/atom_diag/impl/worker.cpp: autopartition`; `c++/triqs/atom_diag/atom_diag.hpp: cdag_connection, cdag_matrix`
* model and method: same.
* status: proved; theorems in `AtomDiag_props.v`: `C64_no_element_lost_iff`
* scope: Together with C22_one_to_one_refuted this is a finding: with such a Hamiltonian creation_connection keeps only the last target and the other elements are dropped.

### C65 atom_diag: the vacuum

* code: `c++/triqs/atom_diag/impl/atom_diag.cpp: compute_vacuum`; `c++/triqs/atom_diag/atom_diag.hpp: get_vacuum_state`
* model and method: same.
* status: proved; theorems in `AtomDiag_props.v`: `C65_vacuum`
* scope: When the vacuum is filtered out the index is left uninitialised by the code (None in the model).

### C66 densities of states of a tight-binding Hamiltonian

* code: `c++/triqs/lattice/tight_binding.cpp: dos, dos_patch`
* model and method: reals; binning.
* status: proved; theorems in `TbDos_props.v`: `C66_bands`, `C66_dos`, `C66_flat_band`, `C66_patch_points`, `C66_dos_patch`
* scope: dos and dos_patch over exact reals; the eigensolver is a parameter with normalised eigenvectors; flat spectrum gives 0/0 (C66_flat_band)

### C67 atom_diag: matrices of many-body operators in the eigenbasis

* code: `c++/triqs/atom_diag/impl/atom_diag.cpp: get_matrix_element_of_monomial, get_op_mat`; `c++/triqs/atom_diag/impl/functions.cpp: act, trace_rho_op, quantum_number_eigenvalues`
* model and method: products of masks, matrices in the eigenbasis.
* status: proved; theorems in `AtomDiagOps_props.v`: `C67_matrix_element_of_monomial`, `C67_products_have_single_targets`, `C67_get_op_mat`, `C67_act`, `C67_component_numbers`, `C67_trace_rho_op`, `C67_trace_rho_op_size_mismatch`, `C67_quantum_number_eigenvalues`
* scope: Exact scalars; the diagonalisation is an oracle (solves). The hypothesis terms_single excludes the monomials with two targets, for which get_matrix_element_of_monomial overwrites one matrix with the elements of several targets (see C64/C22). is_almost_zero's tolerance and std::real are parameters. quantum_number_eigenvalues_checked is not modelled.

### C68 interaction Hamiltonians

* code: `python/triqs/operators/util/hamiltonians.py: h_int_slater, h_int_kanamori, h_int_density`; `python/triqs/operators/util/op_struct.py: get_mkind, set_operator_structure`
* model and method: operator expressions over the complex numbers; coefficients of normal-ordered monomials, sums over labels.
* status: proved; theorems in `OpUtil_props.v`: `C68_slater_formula`, `C68_complex_matrix_refused`, `C68_density_formula`, `C68_kanamori_formula`, `C68_hermitian`, `C68_conserves_particle_number`, `C68_kanamori_is_slater`, `C68_density_is_diagonal_slater`, `C68_labels`, `C68_labels_of_a_map`, `C68_map_lookup`, `C68_labels_refused`
* scope: Exact complex numbers for floats; arrays are functions of their indices; dump files not modelled. The builders are proved equal, as operators (normal-ordered maps), to the documented sums. Finding: h_int_density/h_int_kanamori sum over all pairs including (i s)=(j s'), so a matrix U with U_ii nonzero adds U_ii n_i/2, contrary to the documented restriction; stated as self_term.

### C69 observables: number, spin and orbital angular momentum

* code: `python/triqs/operators/util/observables.py: N_op, S_op, S2_op, L_op, L2_op, LS_op`
* model and method: commutators of one-body and two-body operators; matrices of L; recursion of Racah's sum for the 3-j symbols.
* status: proved; theorems in `OpUtil_props.v`: `C69_number`, `C69_spin`, `C69_more_than_two_spins_refused`, `C69_orbital_matrix`, `C69_orbital`, `C69_spin_orbit`, `C69_slater_rotation`, `C69_slater_spin_rotation`, `C69_kanamori_spin_rotation`, `C69_conserves_Sz`
* scope: numpy.isclose with its default tolerances is modelled; the bound n_orb <= 100000 keeps its relative tolerance below the spacing of m. good_basis: spherical, cubic (n = 3, 5, 7), or a unitary T.

### C70 interaction matrices

* code: `python/triqs/operators/util/U_matrix.py: U_matrix_slater, spherical_to_cubic, reduce_4index_to_2index, U_matrix_kanamori, t2g_submatrix, eg_submatrix, U_J_to_radial_integrals, radial_integrals_to_U_J, clebsch_gordan, three_j_symbol, angular_matrix_element, transform_U_matrix`
* model and method: Racah's formula over the reals; tensor symmetries; finite tables for the cubic harmonics.
* status: proved; theorems in `OpUtil_props.v`: `C70_symmetries`, `C70_real`, `C70_conserves_m`, `C70_mean_is_U`, `C70_U_J_round_trip`, `C70_cubic_harmonics_unitary`, `C70_cubic_harmonics_unitary_s_shell_refuted`, `C70_reduced_kanamori`, `C70_reduced_symmetric`, `C70_t2g_eg_names`, `C70_named_harmonics`, `C70_named_harmonics_wien2k_refuted`, `C70_clebsch_gordan_sign`, `C70_clebsch_gordan_refuted`
* scope: math.sqrt and scipy factorial are exact. Refuted and recorded: spherical_to_cubic(0) is the zero matrix; wien2k yz and xz are exchanged relative to the other conventions; clebsch_gordan has a wrong sign for some arguments (operator precedence).

### C71 diagonal, real and imaginary parts of operators

* code: `python/triqs/operators/util/hamiltonians.py: diagonal_part, make_operator_real`; `c++/triqs/operators/many_body_operator.hpp: real, imag`
* model and method: balance of creators and annihilators per mode; uniqueness of the normal form.
* status: proved; theorems in `OpUtil_props.v`: `C71_diagonal_part`, `C71_real_imag`, `C71_make_operator_real`
* scope: diagonal_part is over every scalar type satisfying the scalar laws.

### C72 Fourier transform between lattice and Brillouin zone

* code: `c++/triqs/gfs/transform/fourier_lattice.cpp: _fourier_impl, _fourier_plan`; `c++/triqs/gfs/transform/fourier_common.cpp: _fourier_base`; `c++/triqs/gfs/transform/fourier.hpp: _fourier`
* model and method: discrete Fourier transform in several dimensions by its documented formula (Fourier.v); orthogonality of roots of unity; k.R from the reciprocal lattice.
* status: proved; theorems in `Fourier_props.v`: `C72_r_to_k`, `C72_k_to_r`, `C72_round_trip_r`, `C72_round_trip_k`, `C72_smaller_mesh_rejected_refuted`, `C72_other_shape_rejected_refuted`, `C72_one_mesh_of_a_product`
* scope: FFTW is modelled by its documented formula. The k.R formula needs mesh dimensions beyond the lattice dimension to be 1. That unequal meshes would be rejected is refuted.

### C73 Fourier transform between real time and real frequency

* code: `c++/triqs/gfs/transform/fourier_real.cpp: _fourier_impl`
* model and method: phases of the offsets split off; orthogonality of roots of unity; integral of the tail by antiderivatives.
* status: proved; theorems in `Fourier_props.v`: `C73_direct`, `C73_inverse`, `C73_round_trip`, `C73_tail_integral`, `C73_tail_values`, `C73_window`, `C73_tail_moments`, `C73_rejects`
* scope: FFTW is modelled by its documented formula; arithmetic is exact.

### C74 Fourier transform between imaginary time and Matsubara frequency

* code: `c++/triqs/gfs/transform/fourier_matsubara.cpp: _fourier_impl, fit_derivatives, fit_tail, oneFermion, oneBoson`
* model and method: phases split off, the end-point correction is half the jump of the tail; Riemann sums for the limit; partial fractions for tail integral and moments; the literal weights of the fit checked on monomials.
* status: proved; theorems in `Fourier_props.v`: `C74_direct`, `C74_inverse`, `C74_round_trip`, `C74_limit`, `C74_tail_integral`, `C74_tail_moments`, `C74_exact_for_the_tail`, `C74_default`, `C74_noise`, `C74_default_noisy`, `C74_fit`, `C74_fitted`, `C74_inverse_rejects`, `C74_direct_rejects`, `C74_few_points_refuted`, `C74_temperatures_compared_refuted`
* scope: FFTW is modelled by its documented formula, the tail fitter is an arbitrary function; arithmetic is exact. Two expected checks are refuted: temperature/statistic agreement, and a minimum of nine times for the default fit.

### C75 mesh of the transform

* code: `c++/triqs/mesh/adjoint.hpp: make_adjoint_mesh`
* model and method: algebra of mesh bounds; inverse of the reciprocal matrix.
* status: proved; theorems in `Fourier_props.v`: `C75_real`, `C75_real_twice`, `C75_real_zero`, `C75_matsubara`, `C75_matsubara_round_trip`, `C75_lattice`, `C75_brillouin_zone`

### C76 density matrix

* code: `c++/triqs/gfs/functions/density.cpp: density`
* model and method: closed form of the discrete sum over times, uniform 1/n^2 bound and dominated convergence for the Matsubara sum; algebra; Riemann sums.
* status: proved; theorems in `Density_props.v`: `C76_limit`, `C76_exact_for_the_tail`, `C76_minus_G_beta`, `C76_hermitian`, `C76_lower_triangle`, `C76_fitted`, `C76_no_moments`, `C76_refused`, `C76_not_square`, `C76_real`, `C76_real_limit`, `C76_zero_temperature`, `C76_zero_temperature_deviation`, `C76_trapezoid_refuted`, `C76_zero_temperature_range`
* scope: The statement that the zero-temperature density is the trapezoidal rule is refuted when zero is not a mesh point; the deviation is given exactly.

### C77 rebinning in imaginary time

* code: `c++/triqs/gfs/functions/imtime.cpp: rebinning_tau`
* model and method: loop invariant with integer quotients for the rounded index.
* status: proved; theorems in `Rebin_props.v`: `C77_means`, `C77_bins`, `C77_same_mesh`, `C77_constant`, `C77_constant_finer_refuted`, `C77_one_point`
* scope: That constants survive on a finer mesh is refuted.

### C78 transforms of Legendre Green's functions

* code: `c++/triqs/gfs/transform/legendre_matsubara.hpp: legendre_matsubara_direct, legendre_matsubara_inverse`; `c++/triqs/utility/legendre.cpp: legendre_T`; `c++/triqs/utility/legendre.hpp: legendre_generator`; `c++/triqs/mesh/legendre.hpp: evaluate`
* model and method: loop invariants for the generator; orthogonality from the Legendre differential equation, norms by recursion; Riemann sums; Bessel function as a parameter with its integral representation.
* status: proved; theorems in `LegGf_props.v`: `C78_to_imtime`, `C78_evaluate`, `C78_from_imtime`, `C78_from_imtime_limit`, `C78_orthogonality`, `C78_round_trip`, `C78_to_imfreq`, `C78_from_imfreq`, `C78_from_imfreq_refused`, `C78_bosonic_imfreq_refuted`
* scope: Boost's cyl_bessel_j is a parameter assumed to satisfy the integral representation of the Bessel functions (a function that does is constructed). For bosonic frequencies the transform is refuted: the code uses the fermionic matrix. The error of the 50000-point rule in the transform from frequencies is not bounded.

### C79 tail, discontinuity and density of Legendre Green's functions

* code: `c++/triqs/gfs/functions/legendre.cpp: get_tail, enforce_discontinuity`; `c++/triqs/utility/legendre.cpp: legendre_t`; `c++/triqs/gfs/functions/density.cpp: density(gf_const_view<legendre>)`
* model and method: integration by parts with the derivatives of the Legendre polynomials at the ends in closed form; Pythagoras for the least-squares claim.
* status: proved; theorems in `LegGf_props.v`: `C79_moments`, `C79_exact_expansion`, `C79_imfreq_expansion`, `C79_zeroth_moment_refuted`, `C79_zeroth_row`, `C79_bosonic_moment_refuted`, `C79_discontinuity`, `C79_smallest_change`, `C79_idempotent`, `C79_rest_unchanged`, `C79_density`, `C79_density_convention_refuted`
* scope: The zeroth row of get_tail, the moments of bosonic functions and the agreement of the density with that of frequency functions are refuted.

### C80 fits of high-frequency expansions

* code: `c++/triqs/mesh/tail_fitter.hpp: tail_fitter, tail_fitter_handle`; `c++/triqs/gfs/functions/functions2.hpp: fit_tail, fit_hermitian_tail, fit_tail_no_normalize`
* model and method: invariant of the cached state relating it to a fresh fitter, for all histories; least squares by residuals, uniqueness from the number of roots of a polynomial; existence of solvers by projections.
* status: proved; theorems in `TailFit_props.v`: `C80_history`, `C80_window`, `C80_symmetric_window_refuted`, `C80_best`, `C80_hermitian`, `C80_recovers`, `C80_recovers_hermitian`, `C80_succeeds`, `C80_order`, `C80_largest_order`, `C80_columns_exist`, `C80_all_known`, `C80_refused`, `C80_given_order_refuted`, `C80_many_known_refuted`
* scope: LAPACK's least-squares solver is a parameter assumed to return a least-squares solution (such solvers are constructed), the smallest singular value is an arbitrary parameter. Refuted: symmetric windows, recovery when a given order has more unknowns than frequencies, ten or more known moments.

### C81 values outside a Matsubara mesh, tail replacement and fits on a window

* code: `c++/triqs/gfs/evaluator.hpp: gf_evaluator<mesh::imfreq>`; `c++/triqs/gfs/functions/imfreq.hpp: restricted_view, replace_by_tail, replace_by_tail_in_fit_window, fit_tail_on_window`; `c++/triqs/gfs/functions/functions2.hpp: tail_eval`
* model and method: reduction to C80; index arithmetic.
* status: proved; theorems in `TailFit_props.v`: `C81_on_mesh`, `C81_positive_mesh`, `C81_outside`, `C81_outside_exact`, `C81_tail_eval`, `C81_replace`, `C81_replace_window`, `C81_replace_symmetric_refuted`, `C81_window`, `C81_bosonic_window_refuted`
* scope: Same parameters as C80. Refuted: symmetric replacement for bosons, fit_tail_on_window of bosonic data.

### C82 exact diagonalization with given quantum numbers

* code: `c++/triqs/atom_diag/impl/worker.cpp: partition_with_qn`; `c++/triqs/atom_diag/impl/atom_diag.cpp: atom_diag`; `c++/triqs/atom_diag/atom_diag.hpp: get_quantum_numbers`
* model and method: invariants of the loops over Fock states (classes of states seen so far, rows of the connection tables), then the completion lemma of C63.
* status: proved; theorems in `AtomQn_props.v`: `C82_quantum_numbers`, `C82_additive`, `C82_strict_order`, `C82_mixed_refused`, `C82_complex_refused`, `C82_not_conserved_refuted`, `C82_aligned_refuted`
* scope: The tolerant comparison and the test of the imaginary part are parameters with two laws. Refuted: entry b of get_quantum_numbers belongs to subspace b; a Hamiltonian that does not conserve the quantum numbers is refused (undefined behaviour for every such Hamiltonian).

### C83 archives of many-body operators

* code: `c++/triqs/operators/many_body_operator.cpp: h5_write, h5_read`; `c++/triqs/operators/many_body_operator.hpp: h5_write, h5_read, make_fundamental_operator_set`
* model and method: induction over the monomials and the records; lemmas on sorted association lists; C15 for the attribute.
* status: proved; theorems in `OpH5_props.v`: `C83_round_trip_real`, `C83_round_trip_complex`, `C83_round_trip_real_or_complex`, `C83_real_as_complex`, `C83_complex_as_real`, `C83_long_monomials_refused`, `C83_with_operator_set`, `C83_outside_refused`, `C83_make_fundamental_operator_set`, `C83_read_into_operator`, `C83_read_replaces_refuted`, `C83_record_format`
* scope: Indices are 32-bit integers and strings without NUL (C15), fewer than 2^31 of them. The HDF5 library is assumed to return the records written. Refuted: the overload that returns the index set replaces the operator read into.

### C84 archives of atom_diag

* code: `c++/triqs/atom_diag/impl/atom_diag.cpp: h5_write, h5_read`; `c++/triqs/atom_diag/atom_diag.hpp: eigensystem_t`
* model and method: the cells of a table as a list up to permutation; induction over the datasets read; the constructors' results shown to be regular by going through complete, autopartition and partition_with_qn.
* status: partial; theorems in `AtomH5_props.v`: `C84_round_trip`, `C84_read_into_object_partial`, `C84_constructed_regular`, `C84_short_rows_undefined`, `C84_long_hamiltonian_refused`, `C84_missing_datasets`, `C84_read_replaces_refuted`
* scope: Round trip into a new object proved for every constructor. The last clause is false of the code and refuted: the tables of matrices are resized but not cleared, so that matrices at places empty in the file stay (C84_read_into_object_partial says exactly which), and rows that are too short are written beyond their end (undefined behaviour). The HDF5 library is assumed to return the numbers written.

### C85 bound_and_bisect

* code: `python/triqs/utility/bound_and_bisect.py: determine_bounds, bound_and_bisect`
* model and method: induction over the steps of the walk; monotonicity decides which of the two walks meets which sign; scipy's bisect as a parameter with its contract.
* status: partial; theorems in `BoundBisect_props.v`: `C85_bounds`, `C85_first_bounds`, `C85_solves`, `C85_flat_start`, `C85_flat_start_refuted`
* scope: The bounds are proved for every function. The second sentence is proved for functions that are not flat at the start (C85_solves), or that grow in the direction of dx (C85_flat_start); without this it is false of the code and refuted (C85_flat_start_refuted). scipy's bisect is a parameter that is assumed to return a point within the tolerance of a zero between the bounds.

### C86 densities of states, density of free fermions, Hilbert transforms

* code: `python/triqs/dos/dos.py: DOS.density, DOSFromFunction`; `python/triqs/dos/hilbert_transform.py: HilbertTransform`; `python/triqs/utility/mpi_mpi4py.py: slice_array`
* model and method: induction over the grid; the sum over ranks through the concatenation of slices (C56); imaginary part and modulus term by term.
* status: partial; theorems in `Dos_props.v`: `C86_density`, `C86_monotone`, `C86_below_grid_refuted`, `C86_nonuniform_refuted`, `C86_from_function`, `C86_weights`, `C86_weights_any_grid`, `C86_trapezoid_refuted`, `C86_hilbert`, `C86_causal`
* scope: The density is proved for uniform grids and mu at or above the first point; outside this it is false of the code and refuted (below the grid the result is negative, on other grids the first step is used throughout). The Hilbert transform is proved for functions of one component with a Sigma that does not depend on epsilon. The weights are not those of the trapezoidal rule (refuted): the ends count fully.

### C87 arithmetic of Green's functions in Python and lazy expressions

* code: `python/triqs/gf/gf.py: Gf.__lshift__, __iadd__, __isub__, __imatmul__, __matmul__, __rmatmul__, copy_from, inverse`; `python/triqs/gf/lazy_expressions.py: LazyExpr, transform, eval_expr_with_context`; `python/triqs/gf/descriptor_base.py: convert_scalar_to_const, Omega_, Const, Function`; `python/triqs/gf/tools.py: inverse`
* model and method: induction over the expression, with the relation 'this Python value means this matrix for each point'; one lemma per operator and pair of operand types.
* status: partial; theorems in `PyGf_props.v`: `C87_assign`, `C87_old_data_irrelevant`, `C87_incompatible`, `C87_inplace_product_refuted`, `C87_product_with_descriptor_refuted`, `C87_copy_from_refuted`
* scope: Proved for the expressions of PyGfSpec.covered. Outside of it the claim is false of the code: a Green's function times a descriptor raises while descriptor times Green's function works (refuted), as does an in-place product of two matrix-valued functions (refuted); copy_from of another shape raises after the mesh has been replaced (refuted). The matrix inverse is a parameter; numpy's broadcasting, meshes of time and products of meshes are not modelled.

### C88 the Green's functions of a semicircular and of a flat density of states

* code: `python/triqs/gf/descriptors.py: SemiCircular, Flat`; `python/triqs/gf/descriptor_base.py: Function`
* model and method: algebra of complex square roots; the product of the two solutions is positive, so that their imaginary parts have opposite signs; antiderivatives for the flat density of states; the assignment through C87.
* status: partial; theorems in `SemiCirc_props.v`: `C88_semicircular`, `C88_tail`, `C88_real`, `C88_assign`, `C88_real_matrix_refuted`, `C88_zero_frequency_refuted`, `C88_flat`, `C88_flat_real`
* scope: Proved for all non-zero Matsubara frequencies and all real ones. False of the code and refuted: on real frequencies SemiCircular fills all elements of a matrix, also off the diagonal; at the zero frequency of a bosonic mesh with mu > D it takes the wrong solution. That the causal solution of the equation is the Hilbert transform of the semicircle is not proved; for the flat density of states the integral is. Inside the band at real frequencies only the imaginary part of Flat is stated (the real part is a principal value).

### C89 block Green's functions, Dyson's equation and sums over k points

* code: `python/triqs/gf/block_gf.py: BlockGf`; `python/triqs/gf/tools.py: dyson`; `python/triqs/sumk/sumk_discrete.py: SumkDiscrete.__call__`
* model and method: induction over the blocks; the operators of C87 on each; the sum over k by induction over the list, and over the ranks by C56 (the slices of the ranks concatenate to the list).
* status: partial; theorems in `PyBlock_props.v`: `C89_blockwise`, `C89_names`, `C89_dyson`, `C89_dyson_arguments`, `C89_sumk`, `C89_sumk_in_place_refuted`, `C89_lazy_refuted`, `C89_left_product_refuted`
* scope: Proved for blocks of one mesh variable with scalar or square-matrix targets (the Green's functions of C87); the sum over k on Matsubara meshes, the only ones it accepts. False of the code and refuted: B + e, B - e and B * e with a lazy expression e (iOmega_n) return B unchanged; M * B with a matrix M on the left is B * M; with the object Sigma as result the sum is the one for Sigma = 0. Of numpy.linalg.inv it is assumed that it returns the inverse of a matrix that has one. One block of SumkDiscrete is modelled (the blocks do not interact); a Sigma function of k alone is the case that ignores its second argument.

### C90 tight-binding Hamiltonians of other programs, paths in the Brillouin zone

* code: `python/triqs/lattice/utils.py: TB_from_pythTB, TB_from_wannier90, extend_wannier90_to_spin, k_space_path`; `c++/triqs/lattice/tight_binding.cpp: tight_binding`
* model and method: invariant of the loop over the hoppings (keys distinct and closed under R -> -R, t(R) = t(-R)^dagger, the Fourier sum of the dict); the file as a list of rows addressed by their position; induction over the segments.
* status: partial; theorems in `TbConvert_props.v`: `C90_pythtb_partial`, `C90_pythtb_dimension_refuted`, `C90_wannier`, `C90_wannier_transposed_refuted`, `C90_path`, `C90_path_units`, `C90_path_monotone`
* scope: Proved: pythTB models in three dimensions; Wannier90 files up to a transposition; paths with at least two points per segment. False of the code and refuted: pythTB models in one and two dimensions are never accepted; the Hamiltonian of a Wannier90 file is transposed (the file lists the first index fastest, and the columns with the indices are not read). Not modelled: the text of the files, the lattice vectors, pythTB models with spin, TB_to_sympy.

### C91 the k grid of SumkDiscreteFromLattice

* code: `python/triqs/sumk/sumk_discrete_from_lattice.py: SumkDiscreteFromLattice`; `python/triqs/sumk/sumk_discrete.py: resize_arrays`
* model and method: the nested loops are a product of lists in any number of dimensions (induction); sums of plane waves over it factorise into sums of roots of unity.
* status: partial; theorems in `KGrid_props.v`: `C91_grid`, `C91_refuses`, `C91_local_level`, `C91_inversion`, `C91_gamma`, `C91_open_zone_refuted`, `C91_copy`, `C91_copy_refuted`, `C91_shift_refuted`, `C91_patch_refuted`
* scope: Proved: the points, weights and Hamiltonians of the grid, the sum of the Hamiltonian over it, inversion and k = 0. False of the code and refuted: a pickled copy has N^(dim dim) points; Q and patches always raise; coordinates are not below 1/2. Real numbers stand for floating point numbers.

### C92 hybridization functions of discrete baths

* code: `python/triqs/gf/tools.py: make_delta`
* model and method: np.linspace gives the mesh points; the shifted exponent cancels; antiderivative of e^{(i omega - eps) tau}; quadratic forms as sums of squares.
* status: partial; theorems in `Bath_props.v`: `C92_frequency`, `C92_time`, `C92_no_overflow`, `C92_fourier`, `C92_hermitian`, `C92_positive`, `C92_blocks`, `C92_refuses`, `C92_list_refuted`
* scope: Proved for energies in a numpy array. False of the code and refuted: energies in a Python list, which the documentation asks for, always raise. Not modelled: floating point; points where i omega = eps; discretize_bath.

### C93 arithmetic of Matsubara frequencies and mesh points in Python

* code: `python/triqs/gf/matsubara_freq.py: MatsubaraFreq`; `python/triqs/gf/mesh_point.py: MeshPoint`; `c++/triqs/mesh/domains/matsubara.hpp: operator+, operator-`
* model and method: case analysis over the types of the operands, following Python's dispatch; ring identities.
* status: partial; theorems in `PyMats_props.v`: `C93_arithmetic`, `C93_frequencies`, `C93_raises`, `C93_mixed_refuted`, `C93_mixed_temperatures_refuted`
* scope: Proved: the numbers, in all combinations; two frequencies or two mesh points. False of the code and refuted: the sum of a MatsubaraFreq and a mesh point is a plain number, and is not refused for different temperatures. Real numbers stand for floating point numbers.

### C94 Green's functions in text files

* code: `python/triqs/gf/tools.py: write_gf_to_txt, read_gf_from_txt`
* model and method: a directory is a function from names to rows; induction over the files written and read; minimum and maximum of an equidistant mesh.
* status: partial; theorems in `GfText_props.v`: `C94_write`, `C94_round_trip`, `C94_wide_refuted`, `C94_single_point_refuted`
* scope: Proved: writing; reading back square functions of real frequencies on at least two points. False of the code and refuted: more columns than rows, or a single mesh point, cannot be read back. Not modelled: the text itself (numbers are exact), files that other programs write on non-uniform meshes.

### C95 Computing a stack of points

* code: `python/triqs/utility/dist_on_nodes.py: DistributionOnNodes.run, DistributionOnNodesOneStack`
* model and method: the loop with fuel; induction over the stack against an inductive description of the expected results.
* status: partial; theorems in `DistNodes_props.v`: `C95_run`, `C95_all_points`, `C95_none_ignored_refuted`
* scope: Proved for one process. False of the code and refuted: that a result None is ignored. Missing: several processes (fork, pickled files and messages are not modelled).

### C96 Triangles and weight of a patch of the Brillouin zone

* code: `python/triqs/lattice/bz_patch.py: BZPatch`
* model and method: loop invariant over the corners; induction from the fan of triangles to Gauss's area formula.
* status: partial; theorems in `BzPatch_props.v`: `C96_triangles`, `C96_weight`, `C96_weight_refuted`
* scope: Proved: triangles, weights and their sum for all polygons; the weight is the area if the first corner sees the others in one direction of rotation, as in a convex polygon. False of the code and refuted: for other polygons. Not modelled: dos, rounding.

### C97 The window of a plot

* code: `python/triqs/plot/protocol.py: clip_array`
* model and method: the two searches by induction over the values, any type with a total preorder.
* status: partial; theorems in `ClipArray_props.v`: `C97_clip`, `C97_generator_refuted`
* scope: Proved for arrays and lists. False of the code and refuted for generators. Not modelled: NaN.

## Findings: behaviour of the code that differs from its documentation or is undefined

Each is either a `_refuted` theorem or a precondition that a theorem had to state.

* many_body_operator: the constructor from a coefficient and a monomial does not
  normal order (C10, C16); with the 1e-15 zero test addition is not associative
  (C12); `h -= h` is undefined and `h += h` is undefined when a sum cancels (C13).
* time_pt: unary minus of zero and multiplication by a double wrap (C33).
* matsubara_freq: `operator/` returns the product of the values, kronecker ignores
  the statistic (C34).  The imfreq constructor from a window leaves out a frequency (C35).
* fundamental_operator_set: integers outside `int` and strings with NUL are not
  preserved by HDF5 (C15).
* imperative_operator: the fermionic sign is wrong from 18 orbitals on (C17).
* hilbert_space: with 31 orbitals the dimension is negative, with 32 it is 0;
  `get_fock_state(fops, set)` shifts an int; a state inserted twice breaks the HDF5
  numbering; `get_state_index` of an absent state is undefined (C18).
* state: projection onto a smaller full hilbert_space reads out of bounds (C19).
* space_partition: the matrix elements recorded with a hybridization operator are
  not those of H (C20); after merge_subspaces c and c^dagger need not be one-to-one
  on subspaces (C22), and atom_diag then loses matrix elements (C64).
* atom_diag: a negative n_min filters out every state; a filter with an H that does
  not conserve particle number is undefined; quantum_numbers are not reordered with
  the subspaces; vacuum_subspace_index is not initialised when the vacuum is filtered
  out; get_matrix_element_of_monomial mixes targets when a monomial maps a block to
  two blocks; get_op_mat may throw although the operator has a single target.
* linear meshes with one point or an empty interval: closest point is undefined (C36).
* cyclic and Brillouin-zone meshes: equality compares a hash that collides (C38);
  closest_index compares the corners of one cell only (C59); to_value ignores
  coordinates beyond ndim.
* bravais_lattice: a zero unit vector gives NaN silently (C55).
* mc_generic: a signal in the last cycle gives status 0 with an interrupted cycle;
  an exception without MPI environment dereferences a null monitor; cycle numbers
  overflow at 2^31 (C27); a negative ratio of modulus below 1e-14 is accepted with
  sign +1 (C28); `accumulate(0)` leaves nmeasures stale.
* signal handler: it is never uninstalled after stop; `last`/`pop` of the empty list
  are undefined (C52).
* random_generator: a real in (a,b) can be b (C61).
* buffered_function: size 0 and default construction are undefined, not exceptions (C32).
* det_manip: k = 1 tries before any larger k read outside the work arrays; the last
  index of a k-fold try is not checked; a throwing complete leaves the try pending;
  swap or roll between try and complete loses the sign; moves omit some members;
  `complete_operation` without a try returns silently.
* stat: jackknife_mpi divides by values valid on the root only (C44); mean of no data
  is undefined; histogram with no bins accepts data and is then undefined (C46);
  log_binning shifts an int past 31 levels (C42); archived accumulators do not
  continue (C62).
* pade_approximant: points after a small coefficient are not interpolated; a zero or
  repeated value throws; an exception leaves GMP's default precision changed (C47).
* extractors: block_matrix_from_op accepts off-block terms and quartic terms because of
  operator precedence (C48).
* tight_binding: a repeated displacement is accepted with a non-hermitian h_k (C49).
* grid_generator: an empty grid visits one point (C50).
* gf: a boson G(0) that is not real is accepted by make_gf_from_real_gf (C53);
  flatten_2d does not keep the order of the other dimensions (C54).
* dichotomy reports failure when |f(x)-y| equals the precision (C58).
* super lattice: change_coordinates_SL_to_L always raises TypeError;
  remove_internal_hoppings=True always raises AttributeError; units with negative
  coordinates are refused (C57).
* dos: a flat band divides 0 by 0; one energy point gives NaN (C66).
* Lehmann representation: weights are normalised including the excluded states (C26).
* h_int_density and h_int_kanamori include the pairs (i s) = (j s'), which the
  documented sum excludes: U_ii n_i / 2 is added when U_ii is not 0 (C68).
* U_matrix_slater with only one of U_int and J_hund raises TypeError instead of the
  documented ValueError; with l=0 and the cubic basis it is the zero matrix, because
  spherical_to_cubic(0) is (C70).
* spherical_to_cubic: with convention wien2k the rows named yz and xz are the xz and
  yz rows of the other conventions (C70).
* clebsch_gordan: (j1-j2+m3 % 2) parses as j1-j2+(m3 % 2), so <2 0 0 0|2 0> = -1 (C70).
* imag(op): documented as a copy with the real parts set to zero, but the imaginary
  parts are returned as real coefficients (C71).
* Lattice Fourier transform: meshes are not compared, a smaller output mesh is written
  out of bounds and one of another shape with the same size is filled with values of
  other points (C72).
* Matsubara Fourier transform: temperature and statistic of the two meshes are not
  compared; without moments and with fewer than nine times the fit reads out of
  bounds (C74).
* The moments given for one mesh of a product of three or more are flattened in the
  original order while the data is flattened in the order of C54 (C54, C74).
* The adjoint of a positive-only Matsubara mesh does not remember that it was (C75).
* density of a real-frequency Green's function at zero temperature: the weights of the two
  points around zero are exchanged in the last interval, an error dw a(1-a) times the change
  of the spectral function there; a mesh that ends below zero is read out of bounds (C76).
* density: a target that is not square is not detected and gives undefined behaviour (C76).
* rebinning_tau onto a finer mesh fills the points without data with zero; onto a mesh of
  one point it converts 0/0 to an integer (C77).
* The transform of a Legendre Green's function to Matsubara frequencies uses the fermionic matrix
  for bosonic meshes too: a constant gives 2i/pi instead of 1 at the zeroth frequency (C78).
* get_tail of a Legendre Green's function calls legendre_t with p = 0 against its assertion; in
  release builds the zeroth row is sum over odd l of 2 sqrt(2l+1) G_l instead of zero.  Tail and
  discontinuity ignore the statistic (C79).  The comment of enforce_discontinuity says
  G(0)-G(beta); what is imposed is -(G(0)+G(beta)).
* density of a Legendre Green's function is transposed with respect to the one of frequency
  functions (C76, C79).
* Tail fits: the highest frequency of the mesh is never used, while its mirror image, the lowest, always
  is; the windows at the two ends are not mirror images of each other (C80).
* A given expansion order is not compared with the number of frequencies: with more unknown moments than
  frequencies the fit succeeds and returns some solution of an underdetermined problem (C80).
* With a given order and ten or more known moments the fitter reads beyond the end of its array
  of solvers (C80).
* fit_tail_on_window always makes a fermionic mesh: bosonic data are fitted against fermionic
  frequencies, and 1/(i w) gets the first moment 21/20 (C81).  The window starts at n_min-1 and not at n_min.
* replace_by_tail for bosons replaces n_min but not -n_min (C81).
* get_quantum_numbers is documented as result[sp_index][qn_index], but the subspaces are sorted by energy after
  the list was made and the list is not: the quantum numbers are attached to the wrong subspaces (C82).
* atom_diag with quantum numbers never checks that the Hamiltonian conserves them: if it does not, the
  constructor looks a state up in a subspace that does not hold it, undefined behaviour instead of an error (C82).
* The h5_read of a many-body operator that also returns the index set does not clear the operator it reads into, and
  inserts with std::map::insert: old coefficients win over those of the file and old monomials stay (C83).
* Reading an atom_diag from a file into an object that is in use resizes its tables of matrices without clearing them:
  rows of the old object keep their length, and a file with more subspaces is read beyond their end (C84).
* bound_and_bisect of a monotone function that is flat at the starting point and falls in the direction of dx searches
  away from the solution, and raises whatever maxiter is (C85).
* DOS.density below the first point of the grid is negative and grows without bound (index -1 is the last point), and on a
  grid that is not uniform it uses the first step for all intervals (C86).
* HilbertTransform with n_points_integral calls _DOS__f, but the method is _DOSFromFunction__f, and with test_convergence it
  calls DOS.HilbertTransform, which does not exist (found by reading; not modelled).
* G *= H of two square matrix-valued functions always fails: the assertion in Gf.__imatmul__ demands that H is *not* square (C87).
* G * iOmega_n raises, iOmega_n * G is a lazy expression (C87). G += iOmega_n rebinds G to a lazy expression instead of changing it
  (found by reading; not modelled).
* Gf.copy_from replaces the mesh before it compares the shapes, so that a failed copy leaves a function whose mesh does not fit its
  data (C87).
* LazyExpr.copy wraps its children in one more list, so that the copy can not be evaluated (found by reading; not modelled).
* SemiCircular on real frequencies is not multiplied by the identity: a matrix-valued function gets the same value in all elements,
  off the diagonal too (C88).
* SemiCircular at the zero frequency of a bosonic mesh, with a chemical potential above the band, is the wrong root (C88).
* SemiCircular.__str__ always raises: chem_potential is not defined, and the format has one argument only (found by reading; not
  modelled).
* BlockGf + iOmega_n, BlockGf - iOmega_n and BlockGf * iOmega_n silently return the block function unchanged: in-place operators of the
  blocks return a lazy expression, which only rebinds the loop variable (C89).
* M * BlockGf with a matrix M multiplies on the right: __rmul__ is __mul__, while M * Gf multiplies on the left (C89).
* SumkDiscrete(..., result = Sigma) sets Sigma to zero before it subtracts it (C89).
* SumkDiscrete with a function as Sigma calls inspect.getargspec, which Python 3.11 has removed (found by reading; not modelled).
* TB_from_pythTB refuses every model that is not three-dimensional: the on-site energies are stored under (0, 0, 0) (C90).
* TB_from_wannier90 transposes the hopping matrices: Wannier90 writes <0 m|H|R n> with m fastest (so does the file of the unit test),
  and the numbers are reshaped to [R, m, n] without reading the columns m and n.  The eigenvalues are unaffected, H(k) is not (C90).
* A pickled or copied SumkDiscreteFromLattice has N^(dim dim) k points instead of N^dim: __reduce__ passes the total number of points as
  the number of points per direction (C91).
* SumkDiscreteFromLattice: the shift Q always raises (there is no N_kpts), and so does a patch (its number of points is a float); the
  coordinates include 1/2, contrary to the documented -0.5 < k_i < 0.5, and odd grids do not contain k = 0 (C91).
* make_delta raises for bath energies in a list, contrary to its documentation: eps[None, :] needs a numpy array (C92).
* The sum of a MatsubaraFreq and a mesh point is a complex number in either order, without a check of the temperatures, while the
  difference MatsubaraFreq - MeshPoint is a MatsubaraFreq (C93).
* read_gf_from_txt cannot read a block with more columns than rows (it makes an N1 x N1 function) nor files of a single row (C94).
* DistributionOnNodesOneStack records results that are None, which its base class says are ignored, and empties the list that the caller passed
  (C95).  Read, not modelled: with several processes it opens its pickle files in text mode, and the test of `os.waitpid` is always true.
* BZPatch: the weight of a non-convex polygon depends on the corner it starts from and can exceed its area (C96).
* clip_array accepts generators according to its documentation, but its second search goes on where the first stopped, so values
  are lost, or it raises for want of a length (C97).
## What is not modelled

* `c++/triqs/gfs` except imfreq symmetrisation, flattening, Fourier transforms
  and what is named above: expression templates, views, block_gf containers, HDF5 and MPI of Green's
  functions.  DLR meshes and transforms (they rest on the cppdlr library).
* Python wrappers generated by cpp2py, plotting, `h5diff`, stream redirection.
* `utility` headers that carry no state or are compile-time tools (tuple_tools,
  expression templates, type names, exceptions, timers).
* Memory management, concurrency of MPI ranks beyond the reductions named,
  performance.
* Rounding, where the conventions above say that arithmetic is exact.

## Print Assumptions, theorem by theorem

### Closed under the global context

`C01_contents`, `C01_total`, `C02_determinant`, `C02_determinant_defined`, `C03_inverse`, `C04_ratio`, `C04_all_ratios`, `C05_reject`, `C06_insert_k`, `C06_insert_order`, `C06_remove_k`, `C07_normal_order_preserves_action`, `C08_expressions_denote_their_linear_maps`, `C08_algebra_laws_on_stored_operators`, `C09_c_c_anticommute`, `C09_cdag_cdag_anticommute`, `C09_c_cdag_anticommute_to_delta`, `C10_equality_decides_equality_of_maps`, `C10_monomial_constructor_refuted`, `C11_dagger_is_the_adjoint`, `C11_dagger_of_products_and_sums`, `C12_addition_exact`, `C12_addition_with_tolerance`, `C12_addition_associative_double_refuted`, `C13_self_addition`, `C13_self_subtraction_refuted`, `C13_self_addition_double_refuted`, `C14_linear_index_is_a_bijection`, `C14_positions_follow_insertion_order`, `C14_positions_never_move`, `C15_h5_round_trip`, `C15_wide_integers_refuted`, `C15_nul_characters_refuted`, `C16_full_space_action`, `C16_subspace_action`, `C16_mapped_subspace_action`, `C16_unknown_index_throws`, `C16_raw_monomial_refuted`, `C17_beyond_17_orbitals_refuted`, `C17_low_occupations_partial`, `C18_full_space_index_bijection`, `C18_31_orbitals_refuted`, `C18_fock_state_of_a_set_of_indices`, `C18_fock_state_of_orbital_31_refuted`, `C18_subspace_index_bijection`, `C18_duplicate_insertion_refuted`, `C19_addition`, `C19_subtraction`, `C19_scaling`, `C19_dot_product`, `C19_projection`, `C19_projection_to_smaller_full_space_refuted`, `C20_same_subspace_iff_connected`, `C20_numbering`, `C20_of_operator`, `C20_stored_elements`, `C20_elements_with_hybridization_refuted`, `C21_merge`, `C22_merge_exact`, `C22_one_to_one_partial`, `C22_one_to_one_refuted`, `C22_find_mappings_exact`, `C23_flat_numbering`, `C24_blocks_aligned_and_sorted`, `C30_measures_follow_registry`, `C30_accumulate_once_in_name_order`, `C30_duplicate_names_throw`, `C32_buffered_function_is_the_stream`, `C32_calls_return_consecutive_values`, `C32_buffer_of_size_0_refuted`, `C33_time_pt_add_is_circle_addition`, `C33_time_pt_sub_is_circle_subtraction`, `C33_time_pt_group_laws`, `C33_time_pt_neg_is_circle_negation`, `C33_time_pt_neg_is_zero_minus_refuted`, `C33_time_pt_mult_exact_without_wrap`, `C33_time_pt_mult_is_repeated_addition_refuted`, `C33_time_pt_division_is_floor`, `C33_time_pt_random_between_in_interval`, `C34_frequency_group_laws`, `C35_imfreq_index_bijection`, `C35_imfreq_size`, `C35_imfreq_iteration`, `C35_imfreq_symmetric`, `C35_imfreq_h5_round_trip`, `C37_cyclic_index_bijection`, `C37_cyclic_valid_indices`, `C37_index_modulo_unique_representative`, `C37_cyclic_evaluation`, `C37_mesh_point_arithmetic`, `C37_mesh_iteration`, `C38_equal_meshes_compare_equal_partial`, `C38_equality_identifies_mesh_refuted`, `C38_equality_identifies_size_refuted`, `C40_product_index_bijection`, `C40_product_iteration`, `C40_product_evaluation_on_mesh_point`, `C41_bins_are_block_means`, `C41_single_bin`, `C41_switched_off`, `C41_at_most_max_bins`, `C41_compress_capacity`, `C41_automatic_capacity`, `C42_levels`, `C42_errors`, `C42_errors_mpi`, `C42_level_31_refuted`, `C43_documented_estimators`, `C43_linear`, `C43_quadratic`, `C44_single_rank`, `C44_f_of_averages`, `C44_as_if_delivered_partial`, `C44_average_refuted`, `C44_estimate_refuted`, `C45_mean`, `C45_mean_and_err`, `C45_single_datum`, `C45_order_independent`, `C45_mpi`, `C45_merge`, `C46_every_sample_recorded`, `C46_one_nearest_bin`, `C46_addition`, `C46_addition_throws`, `C46_mpi_reduce`, `C46_pdf`, `C46_cdf`, `C46_pdf_defined`, `C46_clear`, `C46_integer_bins`, `C46_empty_range_throws`, `C46_no_bins_refuted`, `C47_interpolates`, `C47_rejects`, `C47_after_truncation_refuted`, `C48_h_dict`, `C48_U_dict2`, `C48_U_dict4`, `C48_dict_to_matrix`, `C48_filter_op`, `C48_block_of_op`, `C48_op_of_block`, `C48_block_rejects_refuted`, `C50_grid_visits`, `C50_empty_grid_refuted`, `C51_value`, `C51_real_flag`, `C51_tests`, `C52_signals_conserved`, `C52_most_recent_first`, `C52_start_stop`, `C52_handlers_stay_installed`, `C52_only_between_start_and_stop_refuted`, `C53_make_hermitian`, `C53_is_gf_hermitian`, `C53_hermitian_after`, `C53_real_in_tau`, `C53_hermitian_tau`, `C53_from_real`, `C53_positive_freq_view`, `C53_replace_by_tail`, `C53_restricted_view`, `C54_round_trip`, `C54_round_trip_back`, `C54_elements`, `C54_order`, `C54_order_refuted`, `C54_empty_dimension`, `C56_slices_partition`, `C56_slice_array`, `C57_sites`, `C57_builds`, `C57_dependent`, `C57_negative_unit_refuted`, `C57_user_sites`, `C57_automatic_proper`, `C57_coordinates`, `C57_SL_to_L_refuted`, `C57_sites_outside_refuted`, `C57_pack`, `C57_unpack`, `C57_fold`, `C57_each_hopping_once`, `C57_remove_internal_refuted`, `C58_returns_solution`, `C58_always_returns`, `C58_failure`, `C58_exact_solution_refuted`, `C62_reads_back`, `C62_continues`, `C62_continues_refuted`, `C63_auto_constructor`, `C63_hybridization_constructor`, `C63_filter_constructor`, `C63_negative_minimum_refuted`, `C64_no_element_lost_iff`, `C65_vacuum`, `C67_matrix_element_of_monomial`, `C67_products_have_single_targets`, `C67_get_op_mat`, `C67_act`, `C67_component_numbers`, `C67_trace_rho_op`, `C67_trace_rho_op_size_mismatch`, `C67_quantum_number_eigenvalues`, `C68_labels`, `C68_labels_of_a_map`, `C68_map_lookup`, `C68_labels_refused`, `C70_t2g_eg_names`, `C71_diagonal_part`, `C77_one_point`, `C82_quantum_numbers`, `C82_additive`, `C82_strict_order`, `C82_mixed_refused`, `C82_complex_refused`, `C82_not_conserved_refuted`, `C82_aligned_refuted`, `C83_round_trip_real`, `C83_round_trip_complex`, `C83_round_trip_real_or_complex`, `C83_real_as_complex`, `C83_complex_as_real`, `C83_long_monomials_refused`, `C83_with_operator_set`, `C83_outside_refused`, `C83_make_fundamental_operator_set`, `C83_read_into_operator`, `C83_read_replaces_refuted`, `C83_record_format`, `C84_round_trip`, `C84_read_into_object_partial`, `C84_constructed_regular`, `C84_short_rows_undefined`, `C84_long_hamiltonian_refused`, `C84_missing_datasets`, `C84_read_replaces_refuted`, `C87_assign`, `C87_old_data_irrelevant`, `C87_incompatible`, `C87_inplace_product_refuted`, `C87_product_with_descriptor_refuted`, `C87_copy_from_refuted`, `C89_blockwise`, `C89_names`, `C89_dyson`, `C89_dyson_arguments`, `C89_sumk`, `C89_sumk_in_place_refuted`, `C89_lazy_refuted`, `C89_left_product_refuted`, `C95_run`, `C95_all_points`, `C95_none_ignored_refuted`, `C97_clip`, `C97_generator_refuted`

### `ClassicalDedekindReals.sig_forall_dec`

`C35_imfreq_eval_on_mesh`, `C53_boson_refuted`, `C72_one_mesh_of_a_product`

### `ClassicalDedekindReals.sig_forall_dec`, `FunctionalExtensionality.functional_extensionality_dep`

`C27_run_structure_and_status`, `C27_run_numbers`, `C27_run_terminates`, `C27_run_safe`, `C27_run_returns`, `C27_warmup_and_accumulate`, `C27_status_0_means_complete_refuted`, `C27_exception_reported_without_mpi_refuted`, `C27_more_than_int_max_cycles_refuted`, `C28_sign_is_running_product`, `C28_infinite_ratios`, `C28_nested_move_set`, `C28_sign_of_tiny_ratio_refuted`, `C29_selected_iff_in_interval`, `C29_interval_is_weight`, `C29_always_selects`, `C29_always_selects_with_rounding`, `C29_statistics`, `C29_acceptance_rate`, `C36_linear_mesh_values`, `C36_closest_point_is_nearest`, `C36_closest_point_of_mesh_point`, `C36_evaluation_interpolates`, `C36_evaluation_exact_on_mesh_points`, `C36_evaluation_exact_on_affine_functions`, `C36_imtime_mesh_values`, `C36_evaluation_outside`, `C36_linear_h5_round_trip`, `C36_closest_point_always_defined_refuted`, `C40_product_evaluation`, `C55_legendre_generator`, `C55_legendre_generator_at_one_and_parity`, `C60_metropolis_rule`, `C66_patch_points`, `C66_dos_patch`, `C68_complex_matrix_refused`, `C69_more_than_two_spins_refused`, `C70_U_J_round_trip`, `C70_reduced_kanamori`, `C70_reduced_symmetric`, `C75_matsubara`, `C75_matsubara_round_trip`, `C77_means`, `C77_bins`, `C77_same_mesh`, `C77_constant`, `C77_constant_finer_refuted`, `C85_bounds`, `C85_first_bounds`, `C85_solves`, `C85_flat_start`, `C85_flat_start_refuted`, `C86_density`, `C86_monotone`, `C86_below_grid_refuted`, `C86_nonuniform_refuted`, `C86_from_function`, `C86_weights`, `C86_weights_any_grid`, `C86_trapezoid_refuted`, `C86_hilbert`, `C90_path_units`, `C91_inversion`, `C91_gamma`, `C91_open_zone_refuted`, `C91_patch_refuted`, `C94_write`, `C94_round_trip`, `C94_wide_refuted`, `C94_single_point_refuted`, `C96_triangles`, `C96_weight`, `C96_weight_refuted`

### `ClassicalDedekindReals.sig_forall_dec`, `ClassicalDedekindReals.sig_not_dec`, `FunctionalExtensionality.functional_extensionality_dep`

`C25_partition_function`, `C25_density_matrix`, `C25_thermal_average`, `C26_lehmann`, `C26_both_ways`, `C26_sum_rule`, `C26_real_frequency`, `C26_hermitian`, `C26_spectral_function`, `C28_ratio_is_modulus_times_sign`, `C34_sum_of_frequencies`, `C34_difference_of_frequencies`, `C34_negated_frequency`, `C34_frequency_determined_by_value`, `C34_kronecker_same_statistic`, `C34_kronecker_is_equality_refuted`, `C34_quotient_of_frequencies_refuted`, `C35_imfreq_positive_half`, `C35_imfreq_window_covers_refuted`, `C39_interpolation_periodic`, `C39_interpolation_exact_on_mesh`, `C39_mesh_points_distinct_refuted`, `C39_interpolation_weights`, `C49_fourier`, `C49_hermitian`, `C49_hermitian_exact`, `C49_periodic`, `C49_accepted`, `C49_holds`, `C49_array`, `C49_mesh`, `C49_repeated_displacement_refuted`, `C55_lattice_coordinates_round_trip`, `C55_lattice_to_real_is_combination_of_units`, `C55_completed_basis_independent`, `C55_reciprocal_vectors_dual`, `C55_reciprocal_coordinates_round_trip`, `C55_zero_unit_vector_rejected_refuted`, `C55_legendre_tail_coefficients`, `C59_closest_point_in_mesh`, `C59_closest_point_of_mesh_point`, `C59_closest_point_is_nearest_orthogonal_partial`, `C59_closest_point_is_nearest_refuted`, `C66_bands`, `C66_dos`, `C66_flat_band`, `C68_slater_formula`, `C68_density_formula`, `C68_kanamori_formula`, `C68_hermitian`, `C68_conserves_particle_number`, `C68_kanamori_is_slater`, `C68_density_is_diagonal_slater`, `C69_number`, `C69_spin`, `C69_orbital_matrix`, `C69_orbital`, `C69_spin_orbit`, `C69_slater_rotation`, `C69_slater_spin_rotation`, `C69_kanamori_spin_rotation`, `C69_conserves_Sz`, `C70_symmetries`, `C70_real`, `C70_conserves_m`, `C70_mean_is_U`, `C70_cubic_harmonics_unitary`, `C70_cubic_harmonics_unitary_s_shell_refuted`, `C70_named_harmonics`, `C70_named_harmonics_wien2k_refuted`, `C70_clebsch_gordan_sign`, `C70_clebsch_gordan_refuted`, `C71_real_imag`, `C71_make_operator_real`, `C72_r_to_k`, `C72_k_to_r`, `C72_round_trip_r`, `C72_round_trip_k`, `C72_smaller_mesh_rejected_refuted`, `C72_other_shape_rejected_refuted`, `C73_direct`, `C73_inverse`, `C73_round_trip`, `C73_tail_values`, `C73_window`, `C73_tail_moments`, `C73_rejects`, `C74_inverse`, `C74_tail_moments`, `C74_default`, `C74_noise`, `C74_default_noisy`, `C74_fit`, `C74_fitted`, `C74_inverse_rejects`, `C74_direct_rejects`, `C74_few_points_refuted`, `C74_temperatures_compared_refuted`, `C75_real`, `C75_real_twice`, `C75_real_zero`, `C75_lattice`, `C75_brillouin_zone`, `C76_fitted`, `C76_no_moments`, `C76_refused`, `C76_not_square`, `C76_real`, `C76_real_limit`, `C76_zero_temperature`, `C76_zero_temperature_deviation`, `C76_trapezoid_refuted`, `C76_zero_temperature_range`, `C78_to_imtime`, `C78_evaluate`, `C78_from_imtime`, `C78_from_imtime_limit`, `C78_to_imfreq`, `C78_from_imfreq`, `C78_from_imfreq_refused`, `C79_zeroth_moment_refuted`, `C79_zeroth_row`, `C79_bosonic_moment_refuted`, `C79_discontinuity`, `C79_smallest_change`, `C79_idempotent`, `C79_rest_unchanged`, `C79_density`, `C79_density_convention_refuted`, `C80_window`, `C80_symmetric_window_refuted`, `C81_tail_eval`, `C81_replace`, `C81_replace_window`, `C81_replace_symmetric_refuted`, `C86_causal`, `C88_semicircular`, `C88_tail`, `C88_real`, `C88_real_matrix_refuted`, `C88_zero_frequency_refuted`, `C90_pythtb_partial`, `C90_pythtb_dimension_refuted`, `C90_wannier`, `C90_wannier_transposed_refuted`, `C90_path`, `C90_path_monotone`, `C91_grid`, `C91_refuses`, `C91_local_level`, `C91_copy`, `C91_copy_refuted`, `C91_shift_refuted`, `C92_frequency`, `C92_time`, `C92_hermitian`, `C92_positive`, `C92_blocks`, `C92_refuses`, `C92_list_refuted`, `C93_arithmetic`, `C93_frequencies`, `C93_raises`, `C93_mixed_refuted`, `C93_mixed_temperatures_refuted`

### `ClassicalDedekindReals.sig_forall_dec`, `ClassicalDedekindReals.sig_not_dec`, `Classical_Prop.classic`, `FunctionalExtensionality.functional_extensionality_dep`

`C26_imaginary_time`, `C26_matsubara`, `C26_legendre`, `C31_random_integers_in_range`, `C31_random_integers_reached`, `C61_random_real_below_bound`, `C61_random_real_between`, `C61_random_real_below_b_refuted`, `C73_tail_integral`, `C74_direct`, `C74_round_trip`, `C74_limit`, `C74_tail_integral`, `C74_exact_for_the_tail`, `C76_limit`, `C76_exact_for_the_tail`, `C76_minus_G_beta`, `C76_hermitian`, `C76_lower_triangle`, `C78_orthogonality`, `C78_round_trip`, `C78_bosonic_imfreq_refuted`, `C79_moments`, `C79_exact_expansion`, `C79_imfreq_expansion`, `C80_history`, `C80_best`, `C80_hermitian`, `C80_recovers`, `C80_recovers_hermitian`, `C80_succeeds`, `C80_order`, `C80_largest_order`, `C80_columns_exist`, `C80_all_known`, `C80_refused`, `C80_given_order_refuted`, `C80_many_known_refuted`, `C81_on_mesh`, `C81_positive_mesh`, `C81_outside`, `C81_outside_exact`, `C81_window`, `C81_bosonic_window_refuted`, `C88_assign`, `C88_flat`, `C88_flat_real`, `C92_no_overflow`, `C92_fourier`

