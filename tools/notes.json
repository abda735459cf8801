{
 "C01": [
  "proved",
  "Exact arithmetic over an arbitrary field; f, the singularity test and the accuracy test are arbitrary. No invertibility is needed for the contents; C01_total shows that in-range histories through invertible matrices run without exception. k-fold operations with k >= 2 (k = 0, and k = 1 before any larger one, read outside the work arrays)."
 ],
 "C02": [
  "proved",
  "Exact arithmetic over an arbitrary field; f, the singularity test and the accuracy test are arbitrary. Every matrix of the history must be invertible."
 ],
 "C03": [
  "proved",
  "Exact arithmetic over an arbitrary field; f, the singularity test and the accuracy test are arbitrary. Every matrix of the history must be invertible."
 ],
 "C04": [
  "proved",
  "Exact arithmetic over an arbitrary field; f, the singularity test and the accuracy test are arbitrary. Holds for tries that are rejected too, and for a new matrix that is singular."
 ],
 "C05": [
  "proved",
  "The continuation must be defined without the try (a k-fold try also enlarges work arrays, so a k = 1 try that would read outside them may become defined)."
 ],
 "C06": [
  "proved",
  "Positions of the final matrix for insertions, of the initial one for removals; the ratio does not depend on the order of the arguments."
 ],
 "C07": [
  "proved",
  "Exact scalars (integral domain). Every monomial, every Fock vector; termination of the bubble sort proved."
 ],
 "C08": [
  "proved",
  "All expressions of the operator API except division by a scalar (which is multiplication by 1/x)."
 ],
 "C09": [
  "proved",
  ""
 ],
 "C10": [
  "proved",
  "For operators built by expressions. Counterexample proved for the (coefficient, monomial) constructor, which does not normal order."
 ],
 "C11": [
  "proved",
  ""
 ],
 "C12": [
  "proved",
  "Exact part proved; the effect of the tolerance characterised; associativity for doubles refuted (IEEE binary64 evaluation inside Coq)."
 ],
 "C13": [
  "proved",
  "h += h proved for exact scalars; h -= h refuted (undefined behaviour); h *= h is the ordinary product (the code uses a temporary map)."
 ],
 "C14": [
  "proved",
  ""
 ],
 "C15": [
  "proved",
  "Integers that fit int and strings without NUL; both restrictions shown necessary by counterexamples. h5 storage modelled as NUL-terminated strings with arbitrary padding."
 ],
 "C16": [
  "proved",
  "Full spaces, invariant subspaces and mapped subspaces; both storage kinds; exact scalars. Raw non-normal monomials refuted."
 ],
 "C17": [
  "partial",
  "Validity up to 17 orbitals or 16 lowest occupied modes proved; failure from 18 orbitals on proved as a counterexample for every such size."
 ],
 "C18": [
  "proved",
  "Full spaces up to 30 orbitals (sharp: 31 and 32 refuted), subspaces with distinct states."
 ],
 "C19": [
  "proved",
  "Exact scalars; both storage kinds. Projection to a smaller full space refuted (out of bounds)."
 ],
 "C20": [
  "proved",
  "For any choice of representatives by the union-find library. With a hybridization operator the chains may also use its elements (as documented), and get_matrix_elements then holds its elements instead of those of H (C20_elements_with_hybridization_refuted)."
 ],
 "C21": [
  "proved",
  ""
 ],
 "C22": [
  "partial",
  "False in full: C22_one_to_one_refuted gives a hermitian, number-conserving Hamiltonian of 4 orbitals whose automatic partition has a subspace that c+_0 maps into two subspaces. Proved: the exact relation computed by the merge; each operator maps each subspace of the partition before the merge into one after it; one-to-one on the new partition if no subspace before the merge held both a state the operator acts on and a state it produces; find_mappings is exact."
 ],
 "C23": [
  "proved",
  "For every object made by the automatic constructors; N is the number of states kept."
 ],
 "C24": [
  "proved",
  "For every object made by the automatic constructors. Ordering is by lowest energy + 1e-10 * (number before sorting), as coded."
 ],
 "C25": [
  "proved",
  "exact real arithmetic for the doubles, the eigensolver is an oracle assumed to solve each block (solves); standard axioms of the Coq reals"
 ],
 "C26": [
  "proved",
  "Exact real and complex arithmetic; std::exp/cosh/sqrt are the real functions; boost's cyl_bessel_i enters as a function that satisfies the integral representation of the modified spherical Bessel functions (hypothesis of C26_legendre). C26_both_ways holds for every value type and update, so also for floating point. The atom is any result of the constructors of C63 whose c, c^dagger have single targets (C22/C64 show when this fails). Negligible residues (below 2^-52) are dropped by the code; the theorems bound their effect by D^2 2^-52. New block_gf objects are zero."
 ],
 "C27": [
  "proved",
  "Signals, stop callbacks, exceptions, world-dependent moves arbitrary; reports and timers not modelled; MPI monitor is an oracle. Refuted variants: status 0 with a cut last cycle, exception without MPI environment (null pointer), int overflow above INT_MAX cycles."
 ],
 "C28": [
  "proved",
  "Exact reals; tiny-ratio variant refuted."
 ],
 "C29": [
  "proved",
  "Exact reals for the cumulative table, plus a version for any perturbed table."
 ],
 "C30": [
  "proved",
  ""
 ],
 "C31": [
  "proved",
  "Flocq binary64, round to nearest even, no overflow (n < 2^1024)."
 ],
 "C32": [
  "proved",
  "Size 0 refuted."
 ],
 "C33": [
  "proved",
  "Group laws proved; two over-strong readings refuted (unary minus of zero, multiplication with wrap)."
 ],
 "C34": [
  "proved",
  "Exact reals. Additionally refuted: operator/ returns the product; kronecker ignores the statistic (true only for equal statistics)."
 ],
 "C35": [
  "proved",
  "Also proved: the energy-window constructor always leaves out a fermionic frequency of the window (finding)."
 ],
 "C36": [
  "proved",
  "Exact reals, L>=2 and xmin<xmax; degenerate meshes (L=1 or xmin=xmax) proved to run into an undefined conversion."
 ],
 "C37": [
  "proved",
  ""
 ],
 "C38": [
  "partial",
  "The property is false of the code: equality compares a sum of hashes, so permuted dims compare equal (refuted for every hash function). Only reflexivity holds."
 ],
 "C39": [
  "proved",
  "Exact reals; every 1-3 dimensional non-degenerate lattice. Distinctness of mesh points refuted for meshes with several points in a direction outside of the lattice."
 ],
 "C40": [
  "proved",
  ""
 ],
 "C41": [
  "proved",
  "For every interleaving of data and manual compressions; capacity at least 1. Exact arithmetic, component by component; a self-move assignment is assumed to leave the bin unchanged."
 ],
 "C42": [
  "proved",
  "The bound on the number of data is necessary: with unlimited levels the datum number 2^31 indexes past the end (C42_level_31_refuted, the code shifts an int)."
 ],
 "C43": [
  "proved",
  "Exact arithmetic over any algebraically closed numeric field; data are vectors of any left module. Empty series are undefined behaviour, one datum divides 0 by 0 (both outside the hypothesis)."
 ],
 "C44": [
  "partial",
  "The full statement (every rank returns the serial jackknife of the joined series) is false of the code and refuted: the total number of data is reduced to the root only (the other ranks divide by an unset buffer), and the bias correction uses the local number of data. Proved: f of the averages is right on every rank, the single-rank case is right, and what exactly would be returned if the total were delivered."
 ],
 "C45": [
  "proved",
  "Exact arithmetic, component by component. Empty data are undefined behaviour and one datum has error NaN (stated)."
 ],
 "C46": [
  "proved",
  "Rational limits and samples, exact arithmetic; n_bins = 0 is accepted by the constructor and then indexes an empty array (C46_no_bins_refuted). NaN samples are not modelled."
 ],
 "C47": [
  "proved",
  "Any field, exact arithmetic; the 256-bit GMP precision and the rounding of the coefficients to double are not modelled. C47_after_truncation_refuted: points after a small coefficient are not interpolated."
 ],
 "C48": [
  "proved",
  "Exact scalars (any commutative ring without zero divisors; the U formulae need an element half with half+half=1). C48_block_rejects_refuted: block_matrix_from_op accepts hoppings between blocks and quartic terms (operator precedence in its condition) and is undefined on a constant term."
 ],
 "C49": [
  "proved",
  "constructor checks, fourier at a point, on an array and on a brzone mesh; exact complex arithmetic; a repeated displacement breaks hermiticity (C49_repeated_displacement_refuted)"
 ],
 "C50": [
  "proved",
  "C50_empty_grid_refuted: with nkpts = 0 (default constructor) one point is visited although size() is 0."
 ],
 "C51": [
  "proved",
  "Doubles are rationals: no rounding, no inf/nan; a division by zero has no meaning in the model. Stream output is not modelled."
 ],
 "C52": [
  "proved",
  "Asynchronous delivery between calls; the vector push_back inside the handler is taken as atomic."
 ],
 "C53": [
  "proved",
  "Exact scalars with conjugation; the tolerance comparisons are parameters of the model. C53_boson_refuted: restricted_view of a bosonic function is labelled fermionic and make_gf_from_real_gf accepts a bosonic G(0) that is not real."
 ],
 "C54": [
  "proved",
  "C54_order_refuted: for N = 2 the other dimensions are not in the original order, contrary to the documentation; an empty dimension N divides by zero (C54_empty_dimension)."
 ],
 "C55": [
  "proved",
  "Exact reals; release-mode reading of 3-vectors on lower dimensional lattices."
 ],
 "C56": [
  "proved",
  ""
 ],
 "C57": [
  "proved",
  "integer units, exact linear algebra; the number of points of the cell by the Smith normal form; SL_to_L and remove_internal always raise (C57_SL_to_L_refuted, C57_remove_internal_refuted), negative units and sites outside of the cell (C57_negative_unit_refuted, C57_sites_outside_refuted)"
 ],
 "C58": [
  "proved",
  "C58_exact_solution_refuted: an exact root is reported as a failure when the precision is 0."
 ],
 "C59": [
  "partial",
  "Index validity and mesh points proved for all lattices; nearest proved for orthogonal reciprocal vectors and refuted for a skewed lattice (only the corners of the enclosing cell are compared)."
 ],
 "C60": [
  "proved",
  ""
 ],
 "C61": [
  "proved",
  "Half-open [a,b[ refuted; rng(a,b) proved when b-a is exactly representable."
 ],
 "C62": [
  "proved",
  "The archive does not store max_n_bins of the logarithmic part; C62_continues_refuted shows the effect."
 ],
 "C63": [
  "proved",
  "Exact arithmetic: scalars are any integral domain with conjugation, the eigensolver is any function that diagonalizes the matrices of H on closed sets of states (Section hypothesis 'solves', shown satisfiable for a non-diagonal H over the rationals). At most 17 orbitals, because the sign of c is wrong from 18 on (C17). A negative n_min is refuted (C63_negative_minimum_refuted)."
 ],
 "C64": [
  "proved",
  "Together with C22_one_to_one_refuted this is a finding: with such a Hamiltonian creation_connection keeps only the last target and the other elements are dropped."
 ],
 "C65": [
  "proved",
  "When the vacuum is filtered out the index is left uninitialised by the code (None in the model)."
 ],
 "C66": [
  "proved",
  "dos and dos_patch over exact reals; the eigensolver is a parameter with normalised eigenvectors; flat spectrum gives 0/0 (C66_flat_band)"
 ],
 "C67": [
  "proved",
  "Exact scalars; the diagonalisation is an oracle (solves). The hypothesis terms_single excludes the monomials with two targets, for which get_matrix_element_of_monomial overwrites one matrix with the elements of several targets (see C64/C22). is_almost_zero's tolerance and std::real are parameters. quantum_number_eigenvalues_checked is not modelled."
 ],
 "C68": [
  "proved",
  "Exact complex numbers for floats; arrays are functions of their indices; dump files not modelled. The builders are proved equal, as operators (normal-ordered maps), to the documented sums. Finding: h_int_density/h_int_kanamori sum over all pairs including (i s)=(j s'), so a matrix U with U_ii nonzero adds U_ii n_i/2, contrary to the documented restriction; stated as self_term."
 ],
 "C69": [
  "proved",
  "numpy.isclose with its default tolerances is modelled; the bound n_orb <= 100000 keeps its relative tolerance below the spacing of m. good_basis: spherical, cubic (n = 3, 5, 7), or a unitary T."
 ],
 "C70": [
  "proved",
  "math.sqrt and scipy factorial are exact. Refuted and recorded: spherical_to_cubic(0) is the zero matrix; wien2k yz and xz are exchanged relative to the other conventions; clebsch_gordan has a wrong sign for some arguments (operator precedence)."
 ],
 "C71": [
  "proved",
  "diagonal_part is over every scalar type satisfying the scalar laws."
 ],
 "C72": [
  "proved",
  "FFTW is modelled by its documented formula. The k.R formula needs mesh dimensions beyond the lattice dimension to be 1. That unequal meshes would be rejected is refuted."
 ],
 "C73": [
  "proved",
  "FFTW is modelled by its documented formula; arithmetic is exact."
 ],
 "C74": [
  "proved",
  "FFTW is modelled by its documented formula, the tail fitter is an arbitrary function; arithmetic is exact. Two expected checks are refuted: temperature/statistic agreement, and a minimum of nine times for the default fit."
 ],
 "C75": [
  "proved",
  ""
 ],
 "C76": [
  "proved",
  "The statement that the zero-temperature density is the trapezoidal rule is refuted when zero is not a mesh point; the deviation is given exactly."
 ],
 "C77": [
  "proved",
  "That constants survive on a finer mesh is refuted."
 ],
 "C78": [
  "proved",
  "Boost's cyl_bessel_j is a parameter assumed to satisfy the integral representation of the Bessel functions (a function that does is constructed). For bosonic frequencies the transform is refuted: the code uses the fermionic matrix. The error of the 50000-point rule in the transform from frequencies is not bounded."
 ],
 "C79": [
  "proved",
  "The zeroth row of get_tail, the moments of bosonic functions and the agreement of the density with that of frequency functions are refuted."
 ],
 "C80": [
  "proved",
  "LAPACK's least-squares solver is a parameter assumed to return a least-squares solution (such solvers are constructed), the smallest singular value is an arbitrary parameter. Refuted: symmetric windows, recovery when a given order has more unknowns than frequencies, ten or more known moments."
 ],
 "C81": [
  "proved",
  "Same parameters as C80. Refuted: symmetric replacement for bosons, fit_tail_on_window of bosonic data."
 ],
 "C82": [
  "proved",
  "The tolerant comparison and the test of the imaginary part are parameters with two laws. Refuted: entry b of get_quantum_numbers belongs to subspace b; a Hamiltonian that does not conserve the quantum numbers is refused (undefined behaviour for every such Hamiltonian)."
 ],
 "C83": [
  "proved",
  "Indices are 32-bit integers and strings without NUL (C15), fewer than 2^31 of them. The HDF5 library is assumed to return the records written. Refuted: the overload that returns the index set replaces the operator read into."
 ],
 "C84": [
  "partial",
  "Round trip into a new object proved for every constructor. The last clause is false of the code and refuted: the tables of matrices are resized but not cleared, so that matrices at places empty in the file stay (C84_read_into_object_partial says exactly which), and rows that are too short are written beyond their end (undefined behaviour). The HDF5 library is assumed to return the numbers written."
 ],
 "C85": [
  "partial",
  "The bounds are proved for every function. The second sentence is proved for functions that are not flat at the start (C85_solves), or that grow in the direction of dx (C85_flat_start); without this it is false of the code and refuted (C85_flat_start_refuted). scipy's bisect is a parameter that is assumed to return a point within the tolerance of a zero between the bounds."
 ],
 "C86": [
  "partial",
  "The density is proved for uniform grids and mu at or above the first point; outside this it is false of the code and refuted (below the grid the result is negative, on other grids the first step is used throughout). The Hilbert transform is proved for functions of one component with a Sigma that does not depend on epsilon. The weights are not those of the trapezoidal rule (refuted): the ends count fully."
 ],
 "C87": [
  "partial",
  "Proved for the expressions of PyGfSpec.covered. Outside of it the claim is false of the code: a Green's function times a descriptor raises while descriptor times Green's function works (refuted), as does an in-place product of two matrix-valued functions (refuted); copy_from of another shape raises after the mesh has been replaced (refuted). The matrix inverse is a parameter; numpy's broadcasting, meshes of time and products of meshes are not modelled."
 ],
 "C88": [
  "partial",
  "Proved for all non-zero Matsubara frequencies and all real ones. False of the code and refuted: on real frequencies SemiCircular fills all elements of a matrix, also off the diagonal; at the zero frequency of a bosonic mesh with mu > D it takes the wrong solution. That the causal solution of the equation is the Hilbert transform of the semicircle is not proved; for the flat density of states the integral is. Inside the band at real frequencies only the imaginary part of Flat is stated (the real part is a principal value)."
 ],
 "C89": [
  "partial",
  "Proved for blocks of one mesh variable with scalar or square-matrix targets (the Green's functions of C87); the sum over k on Matsubara meshes, the only ones it accepts. False of the code and refuted: B + e, B - e and B * e with a lazy expression e (iOmega_n) return B unchanged; M * B with a matrix M on the left is B * M; with the object Sigma as result the sum is the one for Sigma = 0. Of numpy.linalg.inv it is assumed that it returns the inverse of a matrix that has one. One block of SumkDiscrete is modelled (the blocks do not interact); a Sigma function of k alone is the case that ignores its second argument."
 ],
 "C90": [
  "partial",
  "Proved: pythTB models in three dimensions; Wannier90 files up to a transposition; paths with at least two points per segment. False of the code and refuted: pythTB models in one and two dimensions are never accepted; the Hamiltonian of a Wannier90 file is transposed (the file lists the first index fastest, and the columns with the indices are not read). Not modelled: the text of the files, the lattice vectors, pythTB models with spin, TB_to_sympy."
 ],
 "C91": [
  "partial",
  "Proved: the points, weights and Hamiltonians of the grid, the sum of the Hamiltonian over it, inversion and k = 0. False of the code and refuted: a pickled copy has N^(dim dim) points; Q and patches always raise; coordinates are not below 1/2. Real numbers stand for floating point numbers."
 ],
 "C92": [
  "partial",
  "Proved for energies in a numpy array. False of the code and refuted: energies in a Python list, which the documentation asks for, always raise. Not modelled: floating point; points where i omega = eps; discretize_bath."
 ],
 "C93": [
  "partial",
  "Proved: the numbers, in all combinations; two frequencies or two mesh points. False of the code and refuted: the sum of a MatsubaraFreq and a mesh point is a plain number, and is not refused for different temperatures. Real numbers stand for floating point numbers."
 ],
 "C94": [
  "partial",
  "Proved: writing; reading back square functions of real frequencies on at least two points. False of the code and refuted: more columns than rows, or a single mesh point, cannot be read back. Not modelled: the text itself (numbers are exact), files that other programs write on non-uniform meshes."
 ],
 "C95": [
  "partial",
  "Proved for one process. False of the code and refuted: that a result None is ignored. Missing: several processes (fork, pickled files and messages are not modelled)."
 ],
 "C96": [
  "partial",
  "Proved: triangles, weights and their sum for all polygons; the weight is the area if the first corner sees the others in one direction of rotation, as in a convex polygon. False of the code and refuted: for other polygons. Not modelled: dos, rounding."
 ],
 "C97": [
  "partial",
  "Proved for arrays and lists. False of the code and refuted for generators. Not modelled: NaN."
 ]
}