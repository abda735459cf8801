#!/usr/bin/env python3
"""Single source for properties.jsonl (run: python3 tools/gen_properties.py)."""
import json, os
P = []
def p(id, title, statement, quantifier, why, *anchors):
    P.append(dict(id=id, title=title, statement=statement, quantifier=quantifier,
                  why_tests_cant=why, anchors=list(anchors)))

DM = "c++/triqs/det_manip/det_manip.hpp"
OP = "c++/triqs/operators/many_body_operator.hpp"
IMP = "c++/triqs/hilbert_space/imperative_operator.hpp"

p("C01", "det_manip: the row/column contents follow the list-edit semantics",
  "After any history of accepted or rejected insert / insert2 / remove / remove2 / change_col / change_row / change_one / refill / roll / swap / clear operations, size(), get_x(i) and get_y(j) return exactly the elements of the two lists obtained by performing the corresponding insertions, deletions, replacements, rotations and swaps at the user's positions on plain lists.",
  "every function f, every initial pair of lists, every finite history of operations with in-range arguments",
  "The internal storage order is a permutation of the user order that depends on the whole history; tests only visit a few histories.",
  DM+": try_insert, complete_insert, try_remove, complete_remove, try_insert_k, try_remove_k, change_col_row, roll_matrix, swap_row, get_x, get_y")
p("C02", "det_manip: determinant() is the determinant of f(x_i, y_j)",
  "After any history of completed operations, determinant() equals det[f(get_x(i), get_y(j))] (exact arithmetic).",
  "every function f into a field, every history of operations whose intermediate matrices are invertible",
  "Rank-one updates and sign bookkeeping compound over the history; a sign error may only appear after particular interleavings.",
  DM+": determinant, complete_operation, roll_matrix, swap_row, swap_col")
p("C03", "det_manip: inverse_matrix() is the inverse of f(x_i, y_j)",
  "After any history of completed operations, inverse_matrix(i,j) is the (i,j) element of the inverse of the matrix f(get_x(i),get_y(j)) in the user's order, and matrix(i,j) = f(get_x(i),get_y(j)).",
  "every function f into a field, every history whose intermediate matrices are invertible",
  "Same as C02: correctness is an invariant of an unbounded history.",
  DM+": inverse_matrix, matrix, complete_insert, complete_remove, complete_change_col, complete_change_row, complete_change_col_row")
p("C04", "det_manip: the value returned by a try_* call is the ratio of determinants",
  "Every try_X call returns det(new matrix)/det(current matrix), where the new matrix is the one the object represents after complete_operation().",
  "every reachable state, every operation, every in-range argument",
  "Detailed balance of every Monte-Carlo code rests on this for all states, not for sampled ones.",
  DM+": try_insert, try_insert_k, try_remove, try_remove_k, try_change_col, try_change_row, try_change_col_row, try_refill")
p("C05", "det_manip: a rejected try changes nothing observable",
  "try_X followed by reject_last_try leaves size, get_x, get_y, determinant, inverse_matrix and the effect of every later operation unchanged.",
  "every reachable state, every try, every continuation",
  "A leftover of a rejected try in the work data may only matter for a much later operation.",
  DM+": reject_last_try, complete_operation, last_try")
p("C06", "det_manip: k-fold insertions and removals treat their positions as simultaneous",
  "insert_k with positions i0<i1<..: after completion the new rows are exactly at the requested positions of the final matrix (removal: of the initial matrix), independently of the order in which the positions are passed.",
  "every k, every strictly distinct positions, every order of the arguments",
  "k! orders times positions cannot be enumerated.",
  DM+": try_insert_k, complete_insert_k, try_remove_k, complete_remove_k")
p("C07", "many_body_operator: normal ordering preserves the operator",
  "The operator stored for a product of canonical operators acts on every Fock state exactly as the product of the individual c and c^dagger actions, whatever the order in which they are written.",
  "every sequence of canonical operators, every Fock state",
  "The anticommutation rewriting is recursive; the number of monomials is unbounded.",
  OP+": normalize_and_insert, many_body_operator_generic(scalar, monomial_t)")
p("C08", "many_body_operator: + - * unary- and scalar operations are the algebra operations",
  "Sums, differences, products and scalar multiples of operators represent the sums, differences, compositions and multiples of the represented linear maps.",
  "every pair of operators, every scalar",
  "Infinite set of operators.",
  OP+": operator+=, operator-=, operator*=, operator-, operator*")
p("C09", "many_body_operator: canonical anticommutation relations",
  "c_i c_j + c_j c_i = 0, c+_i c+_j + c+_j c+_i = 0 and c_i c+_j + c+_j c_i = delta_ij, as equalities of stored operators (operator== and identical printing).",
  "every pair of indices of any length and type",
  "Indices are arbitrary tuples of ints and strings.",
  OP+": c, c_dag, n, operator*, operator+, operator==")
p("C10", "many_body_operator: stored form is unique, so equality of operators is decided",
  "Every operator built through the API stores each normal-ordered monomial once, in the documented order, and two operators represent the same linear map iff they store the same monomials and coefficients iff operator== answers true.",
  "every two operators built by any sequence of API operations (exact coefficients)",
  "Completeness of a normal form is a statement about all pairs.",
  OP+": operator==, is_zero, begin, end")
p("C11", "many_body_operator: dagger is the adjoint",
  "dagger(h) represents the adjoint of h: <u| dagger(h) |v> = conj <v| h |u>; dagger(dagger(h)) == h and dagger(a*b) == dagger(b)*dagger(a); is_op_hermitian answers true iff the represented map is self-adjoint.",
  "every operator, every pair of Fock states",
  "Infinite set of operators and states.",
  OP+": dagger, is_op_hermitian")
p("C12", "many_body_operator: tolerance of the zero test",
  "Addition of operators is associative and never drops a term that is not zero (exact arithmetic coefficients). With the shipped absolute tolerance this fails; the failure is characterised.",
  "every three operators",
  "Counterexamples lie in a region tests do not sample (coefficients near 100*eps).",
  OP+": erase_zero_monomial", "c++/triqs/utility/numeric_ops.hpp: is_zero")
p("C13", "many_body_operator: compound assignment with an aliased argument",
  "h += h, h -= h and h *= h give 2h, 0 and h*h.",
  "every operator h",
  "Undefined behaviour may look right on a given compiler.",
  OP+": operator+=, operator-=, operator*=")
p("C14", "fundamental_operator_set: positions are a stable bijection",
  "After any sequence of insertions, the set holds each index once, operator[] maps the indices one-to-one onto 0..size()-1 in insertion order, positions of existing indices never change, has_indices answers membership, and an absent index throws.",
  "every sequence of insertions",
  "Histories are unbounded.",
  "c++/triqs/hilbert_space/fundamental_operator_set.hpp: insert, operator[], has_indices, size")
p("C15", "fundamental_operator_set: HDF5 round trip",
  "Writing a fundamental_operator_set and reading it back gives the same set, for every mix of integer and string indices.",
  "every set of index tuples (ints in range, arbitrary strings)",
  "Encodings fail on special values (negative, empty, large).",
  "c++/triqs/hilbert_space/fundamental_operator_set.cpp: h5_write_attribute, h5_read_attribute")
p("C16", "imperative_operator acts as the operator it is built from",
  "Applying an imperative_operator to a state gives, for every Fock state component, sign, coefficient and target equal to the Jordan-Wigner action of the many-body operator, for at most 17 orbitals.",
  "every operator, every Fock state, every state vector",
  "2^n states times unbounded operators.",
  IMP+": operator(), compute_count_mask, parity_number_of_bits")
p("C17", "imperative_operator: range of validity of the fermionic sign",
  "The fermionic sign is right for up to 17 orbitals and, for more, on every state that occupies only the first 16; from 18 orbitals on some operator and state get a wrong sign (the parity routine folds 16 bits only).",
  "every operator and state of up to 64 orbitals",
  "Needs states with orbitals above 16 in particular positions.",
  IMP+": parity_number_of_bits")
p("C18", "hilbert_space / sub_hilbert_space: state <-> index is a bijection",
  "get_fock_state and get_state_index are mutually inverse on the states of the space, has_state is membership, for every space built by a sequence of add_fock_state calls with distinct states.",
  "every number of orbitals, every insertion sequence",
  "Unbounded sequences.",
  "c++/triqs/hilbert_space/hilbert_space.hpp: hilbert_space, sub_hilbert_space")
p("C19", "state: vector-space operations and projection",
  "Amplitudes of s1+s2, s1-s2, a*s and dot_product are the pointwise sums, multiples and sesquilinear form; project keeps exactly the amplitudes of the target space and drops the others.",
  "every pair of states of both storage kinds",
  "Unbounded states.",
  "c++/triqs/hilbert_space/state.hpp: operator+=, operator*=, dot_product, project")
p("C20", "space_partition: the partition is the set of connected components of H",
  "Two Fock states are in the same subspace iff they are connected by a chain of nonzero matrix elements of H; subspaces are numbered 0..n-1 in the order of their smallest state; every state is in exactly one.",
  "every Hamiltonian and every finite Hilbert space",
  "Reachability over arbitrary chains.",
  "c++/triqs/hilbert_space/space_partition.hpp: space_partition, lookup_basis_state, n_subspaces")
p("C21", "space_partition: merged subspaces are invariant under H and coarser",
  "merge_subspaces only coarsens the partition, keeps H block diagonal, and returns exactly the nonzero matrix elements of the two operators.",
  "every Hamiltonian and pair of operators",
  "Unbounded.",
  "c++/triqs/hilbert_space/space_partition.hpp: merge_subspaces")
p("C22", "space_partition: after merge_subspaces creation/annihilation are one-to-one on subspaces",
  "After merging with c+ and c, each of them maps every subspace into at most one subspace.",
  "every Hamiltonian and creation operator",
  "Failure needs a particular graph.",
  "c++/triqs/hilbert_space/space_partition.hpp: merge_subspaces, find_mappings", "c++/triqs/atom_diag/atom_diag.hpp: atom_diag(h, fops, hyb)")
p("C23", "atom_diag: flat eigenstate numbering is a bijection",
  "flatten_subspace_index(sp,i) and index_range_of_subspace(sp) map the pairs (subspace, inner index) one-to-one onto 0..N-1 where N is the sum of the subspace dimensions.",
  "every list of subspace dimensions",
  "Unbounded lists.",
  "c++/triqs/atom_diag/impl/atom_diag.cpp: fill_first_eigenstate_of_subspace", "c++/triqs/atom_diag/atom_diag.hpp: flatten_subspace_index, index_range_of_subspace")
p("C24", "atom_diag: per-subspace data stay aligned when subspaces are reordered by energy",
  "After construction, get_subspace_dims, get_energies, get_fock_states, eigenvectors and cdag/c connections of subspace sp all describe the same subspace; subspaces are sorted by their lowest energy (up to the splitting of degenerate ones) and energies are shifted so the ground state is 0. (get_quantum_numbers is not reordered, see C66.)",
  "every list of subspaces and energies",
  "Permutation bugs show only for non-identity orderings.",
  "c++/triqs/atom_diag/impl/worker.cpp: complete, partition_with_qn")
p("C25", "atom_diag: thermal averages",
  "For every constructed atom_diag, with E_0 = get_gs_energy() and the trace over the kept Fock states: partition_function(atom, beta) = Tr exp(-beta (H - E_0)), a positive number; atomic_density_matrix(atom, beta) has one matrix for each subspace, diagonal in the eigenbasis with entries in (0, 1] and total trace 1, and rotated to the Fock states it is exp(-beta (H - E_0)) / Z; trace_rho_op(rho, O, atom) of it is Tr(exp(-beta (H - E_0)) O) / Z. The exponential is the limit of its power series.",
  "every Hamiltonian on at most 17 orbitals (real or complex), every constructor, every beta (positive or not), every operator whose monomials map each subspace to one subspace",
  "Unbounded dimensions, real exponentials.",
  "c++/triqs/atom_diag/impl/functions.cpp: partition_function, atomic_density_matrix, trace_rho_op")
p("C26", "atom_diag: atomic Green functions",
  "For every Hamiltonian that atom_diag diagonalizes, whose c and c^dagger map blocks to single blocks: atomic_g_lehmann lists exactly the poles E_b'k'-E_bk and residues (w_bk+w_b'k')<bk|c_i|b'k'><b'k'|c^dagger_j|bk> of the pairs of states that are not excluded and whose residue is at least 2^-52; computing a Green function directly or from the Lehmann representation gives the same values, operation by operation; atomic_g_tau is -Tr(e^{-(beta-tau)H} c_i e^{-tau H} c^dagger_j)/Z on [0,beta] up to the dropped terms; the residues sum to delta_ij up to the dropped terms; atomic_g_iw is the Fourier transform and atomic_g_l the Legendre transform of atomic_g_tau; atomic_g_w is the same function of frequency as atomic_g_iw at w+i*broadening; G(conj z)=G(z)^dagger; diagonal spectral functions are not negative.",
  "every Hamiltonian, atom_diag constructor, scalar type, beta, gf_struct, list of excluded states and mesh point",
  "Unbounded families of Hamiltonians, real mesh points and integrals.",
  "c++/triqs/atom_diag/impl/gf.cpp: atomic_g_lehmann_impl, atomic_g_lehmann, fill_block_gf_from_lehmann, atomic_g_tau, atomic_g_iw, atomic_g_l, atomic_g_w", "c++/triqs/utility/legendre.cpp: mod_cyl_bessel_i")
p("C27", "mc_generic: bookkeeping of a run",
  "For every schedule of stop requests and signals: a run is a sequence of cycles, every cycle attempts length_cycle moves except possibly the last one, which a signal can cut; each measure is accumulated once per complete measured cycle; current_cycle_number grows by the number of cycles; status is 0 iff n_cycles cycles were counted (the last one possibly cut), otherwise 2 if a signal arrived and 1 on a stop request. A run of at most 2^31-1 cycles terminates without undefined behaviour unless user code throws without an MPI environment.",
  "every n_cycles, length_cycle, random stream, stop-callback and signal schedule",
  "Schedules are unbounded.",
  "c++/triqs/mc_tools/mc_generic.hpp: run, warmup, accumulate, warmup_and_accumulate")
p("C28", "mc_generic: the sign passed to measurements is the running product",
  "The sign given to each measure equals the initial sign times the product of the signs (attempt sign times accept value) of all accepted moves so far; rejected moves do not change it. The attempt sign is r/|r| for every ratio r above the threshold 1e-14 (and +1 below it).",
  "every sequence of moves, acceptance and random numbers",
  "Histories are unbounded.",
  "c++/triqs/mc_tools/mc_generic.hpp: run", "c++/triqs/mc_tools/mc_move_set.hpp: attempt, accept, reject")
p("C29", "move_set: selection probability and statistics",
  "attempt() selects move k iff the random number lies in the k-th interval of the cumulative normalised probabilities, always selects an existing move, and n_proposed/n_accepted count every proposal and acceptance; accepted <= proposed.",
  "every list of non-negative weights with positive sum, every random number in [0,1)",
  "Rounding edge of the cumulative sum and unbounded move lists.",
  "c++/triqs/mc_tools/mc_move_set.hpp: attempt, normaliseProba, add")
p("C30", "mc measures: each registered measure is called exactly once per measured cycle",
  "After any history of insertions and accumulations, each measure has been called once per accumulation since its insertion, in name order, and duplicate names are rejected with an exception leaving the set unchanged.",
  "every history",
  "Unbounded histories.",
  "c++/triqs/mc_tools/mc_measure_set.hpp: insert, accumulate")
p("C31", "random_generator: integers drawn are in range",
  "rng(n) returns an integer in [0, n-1] for every n >= 1 and every double u in [0,1) of the generator.",
  "every n up to 2^64-1 and every double u in [0,1)",
  "Rounding of n*u in double can reach n only for extreme values.",
  "c++/triqs/mc_tools/random_generator.hpp: operator()(T i)")
p("C32", "buffered_function: the consumer sees exactly the generator's stream",
  "The n-th call returns the n-th value of the underlying function; preview(i) does not consume; for every buffer size >= 1.",
  "every buffer size, every generator, every interleaving of calls",
  "Refill boundaries depend on the history.",
  "c++/triqs/utility/buffered_function.hpp: operator(), preview, refill")
p("C33", "time_pt: cyclic arithmetic on the imaginary-time circle",
  "Sum and difference of time points are addition and subtraction modulo beta (on the 2^64-1 grid), compatible with ordering: a - b + b = a, and results stay on the circle.",
  "every pair of 64-bit grid points",
  "2^128 pairs; overflow edge cases.",
  "c++/triqs/utility/time_pt.hpp: operator+, operator-, div_by_int, floor_div")
p("C34", "matsubara_freq arithmetic",
  "+, -, unary - on Matsubara frequencies give the frequency whose value is the sum, difference, negation, with the right statistics.",
  "every pair of indices and statistics",
  "Unbounded indices.",
  "c++/triqs/mesh/domains/matsubara.hpp: operator+, operator-, operator/")
p("C35", "imfreq mesh: index bijection, symmetry and storage",
  "to_data_index/to_index are mutually inverse between the valid indices and 0..size()-1, a full mesh is symmetric under w -> -w, a positive-only mesh holds exactly the non-negative frequencies, and HDF5 round trip returns an equal mesh.",
  "every beta, statistic, n_iw and option",
  "Off-by-one errors depend on statistic and option.",
  "c++/triqs/mesh/imfreq.hpp: imfreq, to_data_index, to_index, is_index_valid, h5_write, h5_read")
p("C36", "linear meshes: values, closest point and interpolation",
  "For imtime/refreq/retime meshes: end points are exact, the closest point is within half a step, linear evaluation returns the stored value on mesh points, lies between neighbours, and is exact for affine functions.",
  "every interval, size, index and real argument",
  "Continuum of arguments.",
  "c++/triqs/mesh/bases/linear.hpp: to_value, to_index, evaluate")
p("C37", "cyclic meshes: folding and index bijection",
  "cyclat/brzone: index_modulo returns the unique representative in the mesh congruent to the index, to_data_index and to_index are mutually inverse, and functions evaluated on indices are periodic.",
  "every dims >= 1, every integer index",
  "Unbounded indices.",
  "c++/triqs/mesh/cyclat.hpp: index_modulo, to_data_index, to_index, evaluate", "c++/triqs/mesh/brzone.hpp")
p("C38", "cyclic meshes: equality identifies the mesh",
  "Two cyclat or brzone meshes compare equal only if they have the same dimensions and lattice.",
  "every pair of meshes",
  "Hash collisions.",
  "c++/triqs/mesh/cyclat.hpp: operator==", "c++/triqs/mesh/utils.hpp: hash")
p("C39", "brzone: interpolation is periodic and exact on mesh points",
  "Evaluating a function on a brzone mesh by multilinear interpolation is periodic in the reciprocal lattice, returns the stored value on mesh points (for meshes with one point in every direction outside of the lattice) and uses non-negative weights that add up to 1.",
  "every dims, every k",
  "Continuum of arguments.",
  "c++/triqs/mesh/brzone.hpp: evaluate, closest_index")
p("C40", "product meshes: index bijection and evaluation",
  "prod mesh data index <-> index are mutually inverse, iteration visits every valid tuple exactly once, and evaluation is the nested evaluation of the components: a weighted sum over tuples with the product of the component weights.",
  "every list of component meshes",
  "Unbounded sizes.",
  "c++/triqs/mesh/prod.hpp: to_data_index, to_index, begin", "c++/triqs/mesh/evaluate.hpp: evaluate")
p("C41", "lin_binning accumulator",
  "After any stream of data (and any compress calls) the bins hold the means of consecutive blocks of the stream of the current capacity, the last one possibly partial; the number of bins never exceeds the maximum.",
  "every stream, every initial capacity and maximum, every interleaving of compressions",
  "Unbounded streams.",
  "c++/triqs/stat/accumulator.hpp: lin_binning::operator<<, lin_binning::compress")
p("C42", "log_binning accumulator",
  "After any stream of fewer than 2^31 data (or with at most 31 levels), level n holds the mean and the sum of squared deviations of the means of the completed blocks of 2^n data; the number of levels is floor(log2(count))+1 up to the maximum; log_bin_errors returns their standard errors, and over MPI those of the block means of all ranks pooled.",
  "every stream of data, every maximum",
  "Unbounded streams.",
  "c++/triqs/stat/accumulator.hpp: log_binning::operator<<, log_bin_errors")
p("C43", "jackknife",
  "jackknife returns the four documented estimators (bias-corrected value, error, mean over the leave-one-out resamplings, f of the averages). For a linear function these are the mean of the data and its standard error; for a function of degree two the bias-corrected value is the unbiased estimator over pairs of distinct data.",
  "every tuple of series of one common length >= 2, every function (exact arithmetic)",
  "Unbounded series.",
  "c++/triqs/stat/jackknife.hpp: jackknife")
p("C44", "jackknife_mpi",
  "jackknife over MPI gives on every rank the same result as the serial jackknife of the concatenated series.",
  "every distribution of data over ranks",
  "Depends on number of ranks and unequal lengths.",
  "c++/triqs/stat/jackknife.hpp: jackknife_mpi")
p("C45", "mean and standard error",
  "mean and mean_and_err return the arithmetic mean and the standard error of the data, independent of order; the MPI versions equal the serial one on the concatenation.",
  "every series and distribution",
  "Unbounded series.",
  "c++/triqs/stat/mean_error.hpp: mean, mean_and_err, mpi_reduce_MQ")
p("C46", "histogram: no sample is lost or double counted",
  "After any stream: number of samples = n_data_pts + n_lost_pts, the bins add up to n_data_pts, each in-range sample increments the bin whose mesh point is nearest; addition adds; pdf sums to 1 and cdf is non-decreasing ending at 1.",
  "every limits, number of bins >= 2, every stream of reals",
  "Unbounded streams, bin edges.",
  "c++/triqs/stat/histograms.cpp: operator<<, pdf, cdf, operator+")
p("C47", "pade_approximant interpolates its input",
  "The continued fraction returns the given values at the given points, for every point that comes before its truncation (no earlier coefficient is small) and at which no denominator vanishes; repeated points and vanishing values after the first are rejected with an exception.",
  "every list of points and values",
  "Unbounded number of points.",
  "c++/triqs/utility/pade_approximants.hpp: pade_approximant, operator()")
p("C48", "extractors reconstruct the operator",
  "The dictionaries returned by extract_h_dict, extract_U_dict2 and extract_U_dict4 have distinct keys and no vanishing value and give back the operator (or, with ignore_irrelevant, its relevant terms) by the documented formulae; operators of another form are rejected with an exception. dict_to_matrix puts each value at the positions of its indices, zero elsewhere, and throws on an unknown index. filter_op keeps the terms of the given length. block_matrix_from_op and op_from_block_matrix are inverse of each other on block matrices of the shape of gf_struct and on operators made of hoppings inside its blocks. (block_matrix_from_op does not reject every other operator, contrary to its documentation: hoppings between blocks and quartic terms are accepted.)",
  "every operator of the documented form; every other operator",
  "Unbounded operators.",
  "c++/triqs/operators/util/extractors.hpp: extract_h_dict, extract_U_dict2, extract_U_dict4, dict_to_matrix, filter_op, block_matrix_from_op, op_from_block_matrix")
p("C49", "tight_binding: Fourier transform of accepted hoppings is hermitian",
  "The constructor accepts a list of distinct displacements exactly when every matrix has the right shape and the opposite displacement is listed with the conjugate transposed matrix (to 1e-12 per element). fourier(k) of an accepted object is sum_R exp(2 pi i k.R) h_R, periodic in the reciprocal lattice, and hermitian up to the number of displacements times 1e-12 (exactly if the hoppings are exactly conjugate) when no displacement is repeated; the versions for an array of momenta and for a Brillouin-zone mesh give the same matrices. (A repeated displacement is accepted with a non-hermitian Hamiltonian.)",
  "every list of displacements and matrices, every k, every array of momenta, every mesh",
  "Continuum of k; lists with repeated displacements.",
  "c++/triqs/lattice/tight_binding.cpp: tight_binding, fourier", "c++/triqs/lattice/tight_binding.hpp: fourier")
p("C50", "grid_generator visits every k-point once",
  "A grid built with nkpts >= 1 points per dimension iterates over exactly nkpts^ndim distinct points, with running index 0..size-1, and then stops (as long as nkpts^ndim fits an int).",
  "every nkpts >= 1 and ndim in 1..3",
  "Unbounded sizes.",
  "c++/triqs/lattice/grid_generator.hpp: operator++, operator bool")
p("C51", "real_or_complex arithmetic",
  "Arithmetic on real_or_complex is complex arithmetic on the values; a result is flagged real exactly if all operands were, so no imaginary part is ever lost by conversion to double, and the conversion of any other result throws.",
  "every expression",
  "Unbounded expressions.",
  "c++/triqs/utility/real_or_complex.hpp")
p("C52", "signal handler and run status",
  "Between two stops no signal is lost and none is reported twice: received() is true iff more signals were delivered than consumed; the most recent one is reported first; start is idempotent and keeps pending signals, stop forgets them. (Handlers stay installed after stop: later signals are recorded and seen by the next run.)",
  "every history of start, stop, signals and received(pop)",
  "Asynchronous histories.",
  "c++/triqs/utility/signal_handler.cpp: start, stop, received, last, pop")
p("C53", "gf: hermitian symmetrisation and half-mesh representation",
  "make_hermitian returns a function satisfying is_gf_hermitian, leaves hermitian functions unchanged and is idempotent; make_real_in_tau likewise for is_gf_real_in_tau; make_gf_from_real_gf followed by positive_freq_view is the identity and the result satisfies G(-iw)=conj G(iw), at w=0 exactly when G(0) is real; replace_by_tail and restricted_view change only, respectively keep only, the frequencies they name (restricted_view labels its result fermionic whatever the input).",
  "every mesh size and statistic, every data",
  "Off-by-one errors depend on statistic and size.",
  "c++/triqs/gfs/functions/imfreq.hpp: make_hermitian, is_gf_hermitian, is_gf_real_in_tau, make_real_in_tau, make_gf_from_real_gf, positive_freq_view, replace_by_tail, restricted_view")
p("C54", "gf: flattening data is invertible",
  "unflatten_2d(flatten_2d(a)) = a and flatten_2d(unflatten_2d(b)) = b for every array and every preserved non-empty dimension N; a(q) goes to row q[N], at the row-major position of the other subscripts with q[0] in the place of q[N], which is the original order of the other dimensions exactly when N <= 1 (a counterexample for N = 2).",
  "every rank, shape, N",
  "Unbounded ranks.",
  "c++/triqs/gfs/gf/flatten.hpp: flatten_2d, unflatten_2d")
p("C55", "legendre_generator and bravais/brillouin coordinate transforms",
  "The generator returns P_0(x), P_1(x), ... satisfying Bonnet's recursion; lattice_to_real_coordinates and real_to_lattice_coordinates are mutually inverse and the reciprocal vectors satisfy K_i . a_j = 2 pi delta_ij.",
  "every x, every order; every non-degenerate basis",
  "Continuum.",
  "c++/triqs/utility/legendre.hpp: legendre_generator", "c++/triqs/lattice/brillouin_zone.cpp")
p("C56", "MPI slicing of arrays",
  "slice_inf/slice_sup distribute imin..imax over the ranks: consecutive, disjoint, covering, sizes differing by at most one.",
  "every range and number of ranks",
  "Unbounded.",
  "python/triqs/utility/mpi_mpi4py.py: slice_inf, slice_sup")
p("C57", "superlattice folding",
  "The automatic cluster sites of a superlattice are the |det| lattice points of its cell, each once. With them (or with any |det| distinct sites of the cell given by the user) every lattice point has exactly one pair (R, alpha) and change_coordinates_L_to_SL returns it; pack/unpack_index_site_orbital are mutually inverse; fold puts every element of every hopping, from every site, in exactly one place, and nothing else. (change_coordinates_SL_to_L and remove_internal_hoppings always raise an exception, and units with mostly negative coordinates are refused.)",
  "every superlattice basis, every lattice point, every dictionary of hoppings",
  "Unbounded; depends on the number of lattice points in a parallelepiped being the determinant.",
  "python/triqs/lattice/super_lattice.py: TBSuperLattice, change_coordinates_L_to_SL, pack_index_site_orbital, unpack_index_site_orbital, fold")
p("C58", "dichotomy returns only solutions",
  "dichotomy returns (x, f(x)) with |f(x)-y| < precision, or (None, None); it calls the function a bounded number of times. (A point where |f(x)-y| equals the precision is reported as a failure.)",
  "every function, start, precision",
  "Arbitrary functions.",
  "python/triqs/utility/dichotomy.py: dichotomy")
p("C59", "brzone: closest mesh point",
  "closest_mesh_pt on a brzone mesh returns an index of the mesh, maps each mesh point to itself, and returns the mesh point that is nearest to k modulo reciprocal lattice vectors.",
  "every lattice, every dims, every k",
  "Continuum of arguments and lattices; fails only for skewed reciprocal lattices.",
  "c++/triqs/mesh/brzone.hpp: closest_index")
p("C60", "mc_generic: Metropolis acceptance rule",
  "In every run, a move is accepted exactly when it was selected by a first random number, its attempt returned r, and a second random number v satisfies v < min(1,|r|); otherwise it is rejected. Exactly one of accept and reject is called after each attempt, on the attempted move.",
  "every set of moves, every stream of random numbers, every run",
  "All histories of ratios and random numbers.",
  "c++/triqs/mc_tools/mc_generic.hpp: run", "c++/triqs/mc_tools/mc_move_set.hpp: attempt, accept, reject")
p("C61", "random_generator: reals drawn are in the interval",
  "rng(x) is in [0,x[ for every normal double x > 0; rng(a,b) is in [a,b] when b-a is representable (the documented [a,b[ is false: b can be returned by rounding).",
  "every double x, a, b and every double u in [0,1)",
  "Depends on the rounding of the last bit for extreme u.",
  "c++/triqs/mc_tools/random_generator.hpp: operator()(double), operator()(double, double)")
p("C62", "accumulator archives",
  "An accumulator written to HDF5 and read back has the same linear bins, standard errors and counts; if the object read into was constructed with the same number of logarithmic levels it continues exactly as the original. (Read into a default-constructed accumulator, the logarithmic part ignores all further data.)",
  "every accumulator, every object read into, every later history",
  "Depends on the later history and the state read into.",
  "c++/triqs/stat/accumulator.hpp: h5_write, h5_read, log_binning")
p("C63", "atom_diag: exact diagonalization of the Hamiltonian",
  "The automatic constructors (plain, with a hybridization operator, with bounds on the number of electrons) succeed for every Hamiltonian over the given orbitals; the blocks partition the requested Fock states, no matrix element of H connects two blocks, in each block H = U diag(E + E_gs) U^dagger with U unitary and E ascending, the smallest E is 0, and the stored matrices of c and c^dagger are those of the operators in the eigenbasis. (The bounds need a number-conserving H and must not be negative: n_min < 0 drops every state.)",
  "every Hamiltonian over at most 17 orbitals, every exact eigensolver, every behaviour of the union-find library",
  "The partition is computed from matrix elements in which terms can cancel, the diagonalization then uses the terms: agreement is needed for all Hamiltonians.",
  "c++/triqs/atom_diag/impl/worker.cpp: autopartition, complete, make_op_matrix", "c++/triqs/atom_diag/impl/atom_diag.cpp: atom_diag")
p("C64", "atom_diag: no matrix element of c or c^dagger is lost",
  "The stored blocks of c^dagger (c) of an orbital hold every nonzero matrix element of the operator exactly when it maps every invariant subspace into one subspace. (The automatic partition does not guarantee this, see C22.)",
  "every constructed object, every orbital",
  "All Hamiltonians.",
  "c++/triqs/atom_diag/impl/worker.cpp: autopartition", "c++/triqs/atom_diag/atom_diag.hpp: cdag_connection, cdag_matrix")
p("C65", "atom_diag: the vacuum",
  "get_vacuum_subspace_index is the subspace that contains the Fock state without electrons, and get_vacuum_state is that state expanded in the eigenbasis with the flat numbering.",
  "every constructed object",
  "All Hamiltonians, all eigenvectors.",
  "c++/triqs/atom_diag/impl/atom_diag.cpp: compute_vacuum", "c++/triqs/atom_diag/atom_diag.hpp: get_vacuum_state")
p("C66", "densities of states of a tight-binding Hamiltonian",
  "dos bins the energies of all bands at the given momenta into neps equal bins between the lowest and the highest energy, with epsilon the bin centres; rho(a,k) is the weight on orbital k of the states in bin a per momentum and per unit energy, never negative, and integrates to the number of orbitals. dos_patch samples every triangle at ndiv^2 points inside it, each with an equal share of the area, and its density integrates to the area of the patch. (If all energies are equal the bins have no width and the result is undefined.)",
  "every Hamiltonian, every list of momenta or triangles, every neps and ndiv, every diagonalisation with normalised eigenvectors",
  "All Hamiltonians and sizes; the boundary bins and the interior point of every small triangle must be right for every subdivision.",
  "c++/triqs/lattice/tight_binding.cpp: dos, dos_patch")
p("C67", "atom_diag: matrices of many-body operators in the eigenbasis",
  "When every monomial of an operator maps each block into at most one block (which follows, without filtering, from every c and c^dagger doing so): get_op_mat returns for each block the connected block and the matrix of the operator between the eigenstates, or throws exactly when two monomials lead from one block to different blocks; act returns the vector of components sum_{b,i} <b',j|op|b,i> st(b,i) in the numbering of flatten_subspace_index; trace_rho_op returns sum_b Tr(op rho_b) for every block-diagonal rho and throws when the numbers or sizes of blocks differ; quantum_number_eigenvalues returns the real diagonal elements, and throws when a coefficient of the commutator with the Hamiltonian is not small.",
  "every hermitian Hamiltonian the automatic constructors accept, every operator over its orbitals, every vector and block matrix",
  "Operators, Hamiltonians and dimensions are unbounded; a wrong adjoint, order of factors or offset shows only for particular block structures.",
  "c++/triqs/atom_diag/impl/atom_diag.cpp: get_matrix_element_of_monomial, get_op_mat",
  "c++/triqs/atom_diag/impl/functions.cpp: act, trace_rho_op, quantum_number_eigenvalues")
p("C68", "interaction Hamiltonians",
  "h_int_slater, h_int_density and h_int_kanamori build the documented second-quantised operators, equal as operators to the formulas of their documentation (h_int_density and h_int_kanamori add the one-body terms U_ii n_i/2, which vanish for the documented matrices with U_ii = 0); the Hamiltonians are hermitian when the matrix is, conserve the number of particles, the Kanamori Hamiltonian equals the Slater Hamiltonian of the four-index Kanamori matrix, and the density-density Hamiltonian of the reduced matrices is the diagonal part of the Slater Hamiltonian. A matrix with an imaginary part above 1e-10 is refused without complex=True. The labels of different orbitals differ and are those of set_operator_structure.",
  "every interaction matrix, every number of orbitals, every list of different spin names, every labelling",
  "The formulas are sums over all spins and orbitals of products of non-commuting operators; equality must hold for all matrices and sizes.",
  "python/triqs/operators/util/hamiltonians.py: h_int_slater, h_int_kanamori, h_int_density", "python/triqs/operators/util/op_struct.py: get_mkind, set_operator_structure")
p("C69", "observables: number, spin and orbital angular momentum",
  "N_op, S_op and L_op are the documented one-body operators; the components of S and of L satisfy [J_x,J_y] = iJ_z and cyclic, J_+- = J_x +- iJ_y, and are hermitian; S2_op and L2_op are the sums of squares and commute with all components; LS_op is the scalar product and L commutes with S, in the spherical basis, the cubic basis (p, d and f shells) and every unitary basis. The Slater Hamiltonian of a shell commutes with L and S, the Kanamori Hamiltonian with U_ij = U'_ij - J commutes with S, and every builder commutes with S_z. S_op refuses more than two spins.",
  "every number of orbitals up to 100000, every basis, every interaction matrix of a shell",
  "The algebra must hold for every l; rotational invariance rests on identities between Wigner 3-j symbols.",
  "python/triqs/operators/util/observables.py: N_op, S_op, S2_op, L_op, L2_op, LS_op")
p("C70", "interaction matrices",
  "U_matrix_slater satisfies U_ijkl = U_jilk and U_klij = conj(U_ijkl), is real in the cubic and spherical bases, conserves m in the spherical basis, and its mean over U_ijij is the first radial integral (U_int) in every unitary basis; U_J_to_radial_integrals is inverted by radial_integrals_to_U_J; spherical_to_cubic is unitary for p, d and f shells (for l=0 it is zero); reduce_4index_to_2index of the Kanamori matrix is the two-index Kanamori matrix and is symmetric; the t2g and eg selections name the right harmonics, which are the same up to a phase in all conventions (except yz and xz, exchanged for wien2k); clebsch_gordan is the documented coefficient up to a sign, wrong exactly when j1-j2+m3 is even and j1-j2+(m3 mod 2) is not zero.",
  "every l, radial integrals, basis and convention",
  "Sums of Wigner symbols over all m for every l.",
  "python/triqs/operators/util/U_matrix.py: U_matrix_slater, spherical_to_cubic, reduce_4index_to_2index, U_matrix_kanamori, t2g_submatrix, eg_submatrix, U_J_to_radial_integrals, radial_integrals_to_U_J, clebsch_gordan, three_j_symbol, angular_matrix_element, transform_U_matrix")
p("C71", "diagonal, real and imaginary parts of operators",
  "diagonal_part(H) has the matrix elements of H between equal Fock states and no others; the real (imaginary) part of an operator has the real (imaginary) parts of its matrix elements between Fock states; make_operator_real raises exactly when some coefficient has an imaginary part larger than tol, otherwise returns the real part, which is H itself when all coefficients are real.",
  "every operator, every tolerance, every numbering of the modes",
  "All operators: the test on index sets of each monomial must select exactly the number-conserving-per-mode terms.",
  "python/triqs/operators/util/hamiltonians.py: diagonal_part, make_operator_real", "c++/triqs/operators/many_body_operator.hpp: real, imag")
p("C72", "Fourier transform between lattice and Brillouin zone",
  "For Green's functions on a cyclic lattice and the Brillouin-zone mesh of the same dimensions, G(k) is the sum over the sites of exp(i k.R) G(R) and G(R) is 1/N times the sum over the k points of exp(-i k.R) G(k), with k and R the vectors the meshes report; the two transforms are inverse to each other on every mesh. Transforming one mesh of a product transforms each line along that mesh on its own. The meshes are not compared: a smaller output mesh is written out of bounds, and one of another shape with as many points gets values that are not those of its points.",
  "every lattice in 1 to 3 dimensions, every mesh size, every Green's function and target",
  "All mesh dimensions and all data; the phase convention and storage order must agree with the vectors of the meshes for each.",
  "c++/triqs/gfs/transform/fourier_lattice.cpp: _fourier_impl, _fourier_plan", "c++/triqs/gfs/transform/fourier_common.cpp: _fourier_base", "c++/triqs/gfs/transform/fourier.hpp: _fourier")
p("C73", "Fourier transform between real time and real frequency",
  "On matching meshes G(w) = dt sum_t exp(i w t) (G(t) - tail(t)) + tail(w) and G(t) = dw/2pi sum_w exp(-i w t) (G(w) - tail(w)) + tail(t); the two are inverse to each other with the same moments; tail(w) is the Fourier integral of tail(t) up to what lies outside the time window, and has the given first and second moments; one or two moments only, a zeroth moment that does not vanish, or meshes that do not match raise.",
  "every pair of meshes, all data and all moments",
  "All meshes and data; the mixture of offsets, phases and tail must cancel exactly for each size.",
  "c++/triqs/gfs/transform/fourier_real.cpp: _fourier_impl")
p("C74", "Fourier transform between imaginary time and Matsubara frequency",
  "G(i w_n) is the trapezoidal sum of exp(i w_n tau) (G(tau) - tail(tau)) plus tail(i w_n), and G(tau) is 1/beta times the sum over the frequencies of exp(-i w_n tau) (G(i w_n) - tail(i w_n)) plus tail(tau), with G(beta) = -+ (G(0) + m1); from frequencies to times and back with the same moments is the identity; on finer time meshes the transform tends to the Fourier integral whatever moments are given; the tail is its own exact transform and has the given moments; moments left out come from the fit at the ends of the interval (exact up to 1e-6 for polynomials of degree 8) when the data is smooth, are zero when it is noisy, and come from the tail fitter in the other direction; insufficient meshes, positive-only frequency meshes, bad fits and a zeroth moment that does not vanish raise. Not checked: that both meshes have the same temperature and statistic, and that smooth data without moments has nine times (read out of bounds).",
  "every temperature, statistic, mesh size, all data and moments; the limit is over all sizes",
  "All sizes, including the limit of infinitely fine meshes.",
  "c++/triqs/gfs/transform/fourier_matsubara.cpp: _fourier_impl, fit_derivatives, fit_tail, oneFermion, oneBoson")
p("C75", "mesh of the transform",
  "make_adjoint_mesh of a real-time (or frequency) mesh is a mesh the transform accepts, in both directions, with or without shift; twice without shift gives the original mesh exactly when that is symmetric around zero, and always the same number and distance of points; the mesh contains zero for an odd number of points without shift and for an even number with shift; default sizes of imaginary time and frequency meshes pass the length check of the transform and frequency meshes come back unchanged (unless positive only); lattices and Brillouin-zone meshes come back unchanged.",
  "every mesh of each kind",
  "All mesh sizes and bounds.",
  "c++/triqs/mesh/adjoint.hpp: make_adjoint_mesh")
p("C76", "density matrix",
  "density of a Matsubara Green's function sum_k A_k/(z - e_k) with hermitian A_k and first moment sum_k A_k tends, as the mesh grows, to sum_k A_k n(e_k) with the Fermi or Bose function n, whatever second and third moments are given; it is exact on every mesh when the poles are those of the tail; for fermions it is minus the value at tau = beta of the inverse Fourier transform; it is hermitian for a hermitian Green's function, and the lower triangle is always the conjugate of the upper one. Fewer than four moments are completed by the fit. Positive-only meshes, a zeroth moment and a bad fit raise. On real frequencies it is dw sum_w A(w) f(w), which tends to the integral; at zero temperature it is the trapezoidal rule up to zero when zero is a mesh point (otherwise the weights of the last interval are wrong).",
  "every set of poles and weights, temperature, statistic, mesh and moments; the limit is over all sizes",
  "The claim is about the limit of infinite meshes and all Green's functions.",
  "c++/triqs/gfs/functions/density.cpp: density")
p("C77", "rebinning in imaginary time",
  "rebinning_tau gives at each new time the mean of the old values for which it is the closest new time (of two equally close ones the later), and zero if there are none; every old point is used exactly once; the same number of points changes nothing; constants stay constant when the new mesh is not finer.",
  "every temperature, all pairs of mesh sizes with at least two points, all data",
  "All pairs of mesh sizes: the running count of the loop must match the bins for coarser, finer and incommensurate meshes.",
  "c++/triqs/gfs/functions/imtime.cpp: rebinning_tau")
p("C78", "transforms of Legendre Green's functions",
  "A Legendre Green's function transformed to imaginary time, or evaluated at a time, is sum_l sqrt(2l+1)/beta G_l P_l(2 tau/beta - 1); the inverse is the trapezoidal rule for sqrt(2l+1) int P_l G and tends to the coefficients on finer meshes, so that from coefficients to times and back tends to the identity (also with more or fewer coefficients); transformed to fermionic Matsubara frequencies it is the Fourier integral of the function of imaginary time; from frequencies it goes through 50000 times and is refused for positive-only meshes or more than 24999 positive frequencies.",
  "all coefficients, temperatures, numbers of coefficients, times, frequencies (negative ones included) and meshes",
  "The recursion, the phases and the conjugation at negative frequencies must be right for all l and n; orthogonality is a statement about all pairs of polynomials and the round trip only holds in a limit.",
  "c++/triqs/gfs/transform/legendre_matsubara.hpp: legendre_matsubara_direct, legendre_matsubara_inverse",
  "c++/triqs/utility/legendre.cpp: legendre_T", "c++/triqs/utility/legendre.hpp: legendre_generator", "c++/triqs/mesh/legendre.hpp: evaluate")
p("C79", "tail, discontinuity and density of Legendre Green's functions",
  "The p-th moment (p >= 1) that get_tail computes from Legendre coefficients is (-1)^p times the sum of the (p-1)-th derivatives of G(tau) at 0 and beta, and with as many moments as coefficients sum_p m_p/(i w)^p is exactly G(i w); enforce_discontinuity makes -(G(0)+G(beta)) the given value by the smallest possible change of the coefficients, a second call changes nothing, and odd coefficients and even moments are untouched; density is the transpose of -G(beta).",
  "all coefficients, temperatures, numbers of coefficients, moments and discontinuities",
  "Factorial expressions for all orders, and a least-squares claim about all other sets of coefficients.",
  "c++/triqs/gfs/functions/legendre.cpp: get_tail, enforce_discontinuity", "c++/triqs/utility/legendre.cpp: legendre_t", "c++/triqs/gfs/functions/density.cpp: density(gf_const_view<legendre>)")
p("C80", "fits of high-frequency expansions",
  "fit_tail and fit_hermitian_tail return the known moments unchanged and, with the fitted ones, the (hermitian) expansion closest to the data at the fitted frequencies; these are distinct, on the mesh, inside the window given by the tail fraction and not the zero frequency; if the data there are those of an expansion its moments are returned; the result depends on the fit parameters set last and not on earlier fits with the same mesh; a chosen order adds at least one moment and has at most ten, a given order is returned as given; positive-only meshes, too few frequencies and wrong shapes are refused.",
  "all Matsubara meshes, data, known moments, parameters and histories of calls that use the same fitter",
  "The fitter caches matrices between calls, so the claim ranges over histories of calls; optimality is a claim about all other expansions; recovery is one about all expansions.",
  "c++/triqs/mesh/tail_fitter.hpp: tail_fitter, tail_fitter_handle", "c++/triqs/gfs/functions/functions2.hpp: fit_tail, fit_hermitian_tail, fit_tail_no_normalize")
p("C81", "values outside a Matsubara mesh, tail replacement and fits on a window",
  "The value at a Matsubara frequency is the stored one on the mesh, the conjugate of the mirrored one on positive-only meshes, and otherwise that of the expansion fit_tail returns, hence exact if the function is an expansion in the fit window; replace_by_tail writes the expansion to n >= n_min and n < -n_min only, replace_by_tail_in_fit_window to all frequencies of the fit window; fit_tail_on_window recovers the moments of fermionic data that are an expansion at the frequencies of the window.",
  "all meshes, data, expansions, frequencies, windows and histories of the fitter",
  "Extrapolation is right for every function with an expansion or it is useless; the index arithmetic of windows has off-by-one cases at both ends for both statistics.",
  "c++/triqs/gfs/evaluator.hpp: gf_evaluator<mesh::imfreq>", "c++/triqs/gfs/functions/imfreq.hpp: restricted_view, replace_by_tail, replace_by_tail_in_fit_window, fit_tail_on_window", "c++/triqs/gfs/functions/functions2.hpp: tail_eval")
p("C82", "exact diagonalization with given quantum numbers",
  "atom_diag constructed with a list of quantum-number operators that are real, conserved by the Hamiltonian, separated by more than the tolerance and changed uniformly by every c and c^dagger represents the full problem; two Fock states are in the same subspace if and only if their quantum numbers are equal, the connection tables lose no element of c and c^dagger, and the list of quantum numbers names every value once; sums of weights over occupied orbitals (particle number, spin) always qualify; a complex quantum number or a c that splits a set of equal quantum numbers makes the constructor throw.",
  "all Hamiltonians and quantum-number operators over up to 17 orbitals, all eigensolvers that diagonalize",
  "The claim is about every Hamiltonian and every choice of operators, and about all pairs of Fock states at once; tests use one model with N and S_z.",
  "c++/triqs/atom_diag/impl/worker.cpp: partition_with_qn", "c++/triqs/atom_diag/impl/atom_diag.cpp: atom_diag", "c++/triqs/atom_diag/atom_diag.hpp: get_quantum_numbers")
p("C83", "archives of many-body operators",
  "An operator with at most four c and c^dagger per monomial, written to HDF5 and read back, is the same operator with the same real or complex coefficients, with or without a given set of indices, which is read back too; a real operator can be read as a complex one and a complex one read as real throws; longer monomials and indices outside the given set are refused; make_fundamental_operator_set holds exactly the indices of the operator.",
  "all operators, index sets, coefficient types and paddings of the stored table",
  "The numbering of the indices, their signs and the fixed-size records must fit together for every operator and every set; a test stores one operator.",
  "c++/triqs/operators/many_body_operator.cpp: h5_write, h5_read", "c++/triqs/operators/many_body_operator.hpp: h5_write, h5_read, make_fundamental_operator_set")
p("C84", "archives of atom_diag",
  "An atom_diag object made by any constructor, whose Hamiltonian has at most four operators per monomial, written to HDF5 and read into a new object, comes back the same in every member, in whatever order the file lists the matrices of c and c^dagger; a longer Hamiltonian is refused; a file without the Hamiltonian and quantum numbers leaves those of the object untouched; reading into any object makes it the one in the file.",
  "all Hamiltonians, constructors, orbital sets, quantum numbers, paddings and listing orders, all objects read into",
  "The matrices are stored sparsely under names made of two numbers that are parsed back, and the listing order is that of the file; a test stores one object and reads it into a new one.",
  "c++/triqs/atom_diag/impl/atom_diag.cpp: h5_write, h5_read", "c++/triqs/atom_diag/atom_diag.hpp: eigensystem_t")
p("C85", "bound_and_bisect",
  "Bounds returned by determine_bounds are the first points of the grid x_0 + k dx in the two directions, within maxiter steps, at which the function is below and above the target. For a continuous monotone function that crosses the target within maxiter steps of the start, the solver returns a point within the tolerance of a solution together with the value of the function there.",
  "all functions, targets, starting points, steps and numbers of iterations",
  "Whether the search runs towards the solution is decided by a single difference at the start; a test tries a few functions.",
  "python/triqs/utility/bound_and_bisect.py: determine_bounds, bound_and_bisect")
p("C86", "densities of states, density of free fermions, Hilbert transforms",
  "The density of free fermions of a DOS at the chemical potential mu is the number of states below mu: for each pair of neighbouring points the part of the interval below mu times the mean of the two values; it starts at zero and grows with mu. A Hilbert transform is the sum over the points of weight / (z + mu + i eta - Sigma - eps), whatever the number of MPI ranks; the weights are positive and sum to one, and on a uniform grid are the values of the DOS divided by their sum; for a DOS that is nowhere negative the result is causal and bounded.",
  "all grids, densities of states, chemical potentials, frequencies and self-energies, all numbers of ranks",
  "The sum is corrected at its two ends and its last interval is a part of one, and the points are distributed over ranks; a test compares a few numbers.",
  "python/triqs/dos/dos.py: DOS.density, DOSFromFunction", "python/triqs/dos/hilbert_transform.py: HilbertTransform", "python/triqs/utility/mpi_mpi4py.py: slice_array")
p("C87", "arithmetic of Green's functions in Python and lazy expressions",
  "G << expression stores at every point of the mesh the value of the expression there: Green's functions, matrices, numbers (which stand for that multiple of the unit matrix), iOmega_n / Omega and Function descriptors combined by sums, differences, matrix products, division by numbers and inverse(); the mesh and the shape of G stay the same and what it held before does not matter. Assigning a function of another mesh or shape raises and changes nothing.",
  "all expressions of any depth, all meshes of Matsubara or real frequencies, all values, scalar- and square-matrix-valued functions",
  "The expression is rebuilt, its numbers are replaced by descriptors according to the operator above them, and each pair of operand types takes another path; tests assign a few expressions.",
  "python/triqs/gf/gf.py: Gf.__lshift__, __iadd__, __isub__, __imatmul__, __matmul__, __rmatmul__, copy_from, inverse", "python/triqs/gf/lazy_expressions.py: LazyExpr, transform, eval_expr_with_context", "python/triqs/gf/descriptor_base.py: convert_scalar_to_const, Omega_, Const, Function", "python/triqs/gf/tools.py: inverse")
p("C88", "the Green's functions of a semicircular and of a flat density of states",
  "G << SemiCircular(D, mu) stores on the diagonal of G, at every Matsubara frequency, the one causal solution of g = 1/(z - D^2/4 g) with z = i omega + mu, and zero elsewhere; it is bounded by 1/|omega|, behaves as 1/z, and is the complex conjugate at the opposite frequency. At real frequencies the same equation holds and -Im g / pi is the semicircle of half bandwidth D. G << Flat(D) stores the integral of A(e)/(z - e) for the flat density of states A, and -Im g / pi = A at real frequencies.",
  "all half bandwidths, chemical potentials and frequencies, scalar- and square-matrix-valued functions",
  "Which branch of the square root or of the logarithm is right depends on the signs of real and imaginary parts and on the position in the band; tests look at a few frequencies of functions with one component.",
  "python/triqs/gf/descriptors.py: SemiCircular, Flat", "python/triqs/gf/descriptor_base.py: Function")
p("C89", "block Green's functions, Dyson's equation and sums over k points",
  "An operator applied to a BlockGf acts on every block: the result has the same names in the same order, each block being the operator applied to this block and to the block of the same name, to the list entry at the same place, or to the number or array; an operand that lacks a block is refused. If G0^-1 - G^-1 = Sigma holds at every point, dyson of any two of the three returns the third. SumkDiscrete returns the sum over all k points of w_k (omega + mu - field - Sigma(k) - eps(k))^-1, for every number of MPI ranks.",
  "all block Green's functions, names and operands; all G0, G and Sigma with inverses; all lists of k points, weights and hoppings, self-energies, fields and numbers of ranks",
  "Blocks in another order, operands of each kind, and every split of the k points over ranks; the unit tests compare a few numbers on one rank.",
  "python/triqs/gf/block_gf.py: BlockGf", "python/triqs/gf/tools.py: dyson", "python/triqs/sumk/sumk_discrete.py: SumkDiscrete.__call__")
p("C90", "tight-binding Hamiltonians of other programs, paths in the Brillouin zone",
  "TB_from_pythTB accepts every model, and the Fourier transform of the result is the Hamiltonian of the model: on-site energies plus, for every hopping, the term given and its hermitian conjugate, however often and in whichever direction a hopping is given. TB_from_wannier90 gives the Hamiltonian sum_R e^{2 pi i k.R} <0 m|H|R n> / deg(R) of the file, repeated for both spins on demand, plus the local term. k_space_path divides each segment into equal steps from its beginning to its end; the distances are the lengths of the path up to each point, and the ticks those up to the ends of the segments.",
  "all models, lists of hoppings and on-site energies; all files, degeneracies and local terms; all momenta; all lists of segments, numbers of points and reciprocal lattices",
  "Hoppings given twice, in both directions or inside a cell, and matrices that are not symmetric; the test file has real symmetric matrices, and the test of pythTB is skipped when pythTB is not installed.",
  "python/triqs/lattice/utils.py: TB_from_pythTB, TB_from_wannier90, extend_wannier90_to_spin, k_space_path", "c++/triqs/lattice/tight_binding.cpp: tight_binding")
p("C91", "the k grid of SumkDiscreteFromLattice",
  "SumkDiscreteFromLattice(lattice, n_points = N) has N^dim points: each point whose coordinates are among 1/N - 1/2, 2/N - 1/2, ..., 1/2 exactly once, with equal weights that sum to one, and the Hamiltonian at each. With hoppings shorter than N in every direction the weighted sum of the Hamiltonian over the grid is exactly its on-site matrix. The grid is symmetric under inversion up to reciprocal lattice vectors, and contains k = 0 if and only if N is even. A pickled copy has the same grid; Q shifts the points; a patch restricts them.",
  "all lattices of dimension one to three, hoppings and numbers of points",
  "The only test makes one object, for one lattice and ten points per direction, and does not look at the points or weights.",
  "python/triqs/sumk/sumk_discrete_from_lattice.py: SumkDiscreteFromLattice", "python/triqs/sumk/sumk_discrete.py: resize_arrays")
p("C92", "hybridization functions of discrete baths",
  "make_delta(V, eps, mesh) is sum_j V_kj V_lj^* / (i omega_n - eps_j) at every point of a Matsubara mesh and - sum_j V_kj V_lj^* e^{-tau eps_j} / (1 + e^{-beta eps_j}) at every point of an imaginary-time mesh, computed without overflow for either sign of eps. For fermions the Fourier integral of the latter is the former. Opposite frequencies have hermitian conjugate matrices, -Delta(tau) is positive semidefinite, the imaginary part at omega has the sign opposite to omega, and Delta(0) + Delta(beta) = - V V^dagger. Lists of V and eps give one block each, with the given names.",
  "all numbers of orbitals and bath sites, hopping matrices, energies (arrays or lists), temperatures and meshes; all lists of blocks",
  "Large |eps| beta of both signs, complex V and meshes that are not symmetric; the test uses make_delta only as an input for a fit.",
  "python/triqs/gf/tools.py: make_delta")
p("C93", "arithmetic of Matsubara frequencies and mesh points in Python",
  "Sums, differences, products, quotients and negatives of MatsubaraFreq objects, Matsubara mesh points and numbers, in any combination, stand for those of the numbers i omega_n. Two frequencies, or two mesh points, of the same temperature add and subtract to a frequency with the right index and statistic, the same as in C++; different temperatures raise. Division by a vanishing frequency raises.",
  "all indices, temperatures, statistics and numbers; all combinations of operand types",
  "Every combination of statistics and of operand types; there is no test of the class.",
  "python/triqs/gf/matsubara_freq.py: MatsubaraFreq", "python/triqs/gf/mesh_point.py: MeshPoint", "c++/triqs/mesh/domains/matsubara.hpp: operator+, operator-")
p("C94", "Green's functions in text files",
  "write_gf_to_txt writes one file name_i_j.dat per matrix element, with one row (frequency, real part, imaginary part) per mesh point, and changes no other file. read_gf_from_txt gives back the mesh and the data that were written.",
  "all names, meshes, numbers of points, matrix shapes and data; all previous contents of the directory",
  "All shapes and numbers of points; there is no test of the two functions.",
  "python/triqs/gf/tools.py: write_gf_to_txt, read_gf_from_txt")
p("C95", "Computing a stack of points",
  "DistributionOnNodesOneStack.run ends, calls the function exactly once on every point that is not None and returns the results in the order of the points; if the function raises, run raises.",
  "all stacks of points, with None anywhere, all functions",
  "All stacks and all functions; there is no test of the class.",
  "python/triqs/utility/dist_on_nodes.py: DistributionOnNodes.run, DistributionOnNodesOneStack")
p("C96", "Triangles and weight of a patch of the Brillouin zone",
  "BZPatch cuts each polygon into the triangles made of its first corner and two consecutive corners; _weights are their areas and weight is their sum, which is the area of the polygons.",
  "all lists of polygons with any number of corners at any position",
  "All polygons; the shapes for which the weight is the area are infinitely many.",
  "python/triqs/lattice/bz_patch.py: BZPatch")
p("C97", "The window of a plot",
  "clip_array of values in increasing order returns a slice that contains exactly the values between x_min and x_max, for an array or for any generator of ordered values; it raises only if x_max < x_min.",
  "all ordered sequences of any length, all windows",
  "All sequences and windows, including empty ones, repeated values and windows that contain no value.",
  "python/triqs/plot/protocol.py: clip_array")
here = os.path.dirname(os.path.abspath(__file__))
with open(os.path.join(here, "..", "properties.jsonl"), "w") as f:
    for x in P: f.write(json.dumps(x) + "\n")
print(len(P))
