## Findings: behaviour of the code that differs from its documentation or is undefined

Each is either a `_refuted` theorem or a precondition that a theorem had to state.

* many_body_operator: the constructor from a coefficient and a monomial does not
  normal order (C10, C16); with the 1e-15 zero test addition is not associative
  (C12); `h -= h` is undefined and `h += h` is undefined when a sum cancels (C13).
* time_pt: unary minus of zero and multiplication by a double wrap (C33).
* matsubara_freq: `operator/` returns the product of the values, kronecker ignores
  the statistic (C34).  The imfreq constructor from a window leaves out a frequency (C35).
* fundamental_operator_set: integers outside `int` and strings with NUL are not
  preserved by HDF5 (C15).
* imperative_operator: the fermionic sign is wrong from 18 orbitals on (C17).
* hilbert_space: with 31 orbitals the dimension is negative, with 32 it is 0;
  `get_fock_state(fops, set)` shifts an int; a state inserted twice breaks the HDF5
  numbering; `get_state_index` of an absent state is undefined (C18).
* state: projection onto a smaller full hilbert_space reads out of bounds (C19).
* space_partition: the matrix elements recorded with a hybridization operator are
  not those of H (C20); after merge_subspaces c and c^dagger need not be one-to-one
  on subspaces (C22), and atom_diag then loses matrix elements (C64).
* atom_diag: a negative n_min filters out every state; a filter with an H that does
  not conserve particle number is undefined; quantum_numbers are not reordered with
  the subspaces; vacuum_subspace_index is not initialised when the vacuum is filtered
  out; get_matrix_element_of_monomial mixes targets when a monomial maps a block to
  two blocks; get_op_mat may throw although the operator has a single target.
* linear meshes with one point or an empty interval: closest point is undefined (C36).
* cyclic and Brillouin-zone meshes: equality compares a hash that collides (C38);
  closest_index compares the corners of one cell only (C59); to_value ignores
  coordinates beyond ndim.
* bravais_lattice: a zero unit vector gives NaN silently (C55).
* mc_generic: a signal in the last cycle gives status 0 with an interrupted cycle;
  an exception without MPI environment dereferences a null monitor; cycle numbers
  overflow at 2^31 (C27); a negative ratio of modulus below 1e-14 is accepted with
  sign +1 (C28); `accumulate(0)` leaves nmeasures stale.
* signal handler: it is never uninstalled after stop; `last`/`pop` of the empty list
  are undefined (C52).
* random_generator: a real in (a,b) can be b (C61).
* buffered_function: size 0 and default construction are undefined, not exceptions (C32).
* det_manip: k = 1 tries before any larger k read outside the work arrays; the last
  index of a k-fold try is not checked; a throwing complete leaves the try pending;
  swap or roll between try and complete loses the sign; moves omit some members;
  `complete_operation` without a try returns silently.
* stat: jackknife_mpi divides by values valid on the root only (C44); mean of no data
  is undefined; histogram with no bins accepts data and is then undefined (C46);
  log_binning shifts an int past 31 levels (C42); archived accumulators do not
  continue (C62).
* pade_approximant: points after a small coefficient are not interpolated; a zero or
  repeated value throws; an exception leaves GMP's default precision changed (C47).
* extractors: block_matrix_from_op accepts off-block terms and quartic terms because of
  operator precedence (C48).
* tight_binding: a repeated displacement is accepted with a non-hermitian h_k (C49).
* grid_generator: an empty grid visits one point (C50).
* gf: a boson G(0) that is not real is accepted by make_gf_from_real_gf (C53);
  flatten_2d does not keep the order of the other dimensions (C54).
* dichotomy reports failure when |f(x)-y| equals the precision (C58).
* super lattice: change_coordinates_SL_to_L always raises TypeError;
  remove_internal_hoppings=True always raises AttributeError; units with negative
  coordinates are refused (C57).
* dos: a flat band divides 0 by 0; one energy point gives NaN (C66).
* Lehmann representation: weights are normalised including the excluded states (C26).
* h_int_density and h_int_kanamori include the pairs (i s) = (j s'), which the
  documented sum excludes: U_ii n_i / 2 is added when U_ii is not 0 (C68).
* U_matrix_slater with only one of U_int and J_hund raises TypeError instead of the
  documented ValueError; with l=0 and the cubic basis it is the zero matrix, because
  spherical_to_cubic(0) is (C70).
* spherical_to_cubic: with convention wien2k the rows named yz and xz are the xz and
  yz rows of the other conventions (C70).
* clebsch_gordan: (j1-j2+m3 % 2) parses as j1-j2+(m3 % 2), so <2 0 0 0|2 0> = -1 (C70).
* imag(op): documented as a copy with the real parts set to zero, but the imaginary
  parts are returned as real coefficients (C71).
* Lattice Fourier transform: meshes are not compared, a smaller output mesh is written
  out of bounds and one of another shape with the same size is filled with values of
  other points (C72).
* Matsubara Fourier transform: temperature and statistic of the two meshes are not
  compared; without moments and with fewer than nine times the fit reads out of
  bounds (C74).
* The moments given for one mesh of a product of three or more are flattened in the
  original order while the data is flattened in the order of C54 (C54, C74).
* The adjoint of a positive-only Matsubara mesh does not remember that it was (C75).
* density of a real-frequency Green's function at zero temperature: the weights of the two
  points around zero are exchanged in the last interval, an error dw a(1-a) times the change
  of the spectral function there; a mesh that ends below zero is read out of bounds (C76).
* density: a target that is not square is not detected and gives undefined behaviour (C76).
* rebinning_tau onto a finer mesh fills the points without data with zero; onto a mesh of
  one point it converts 0/0 to an integer (C77).
* The transform of a Legendre Green's function to Matsubara frequencies uses the fermionic matrix
  for bosonic meshes too: a constant gives 2i/pi instead of 1 at the zeroth frequency (C78).
* get_tail of a Legendre Green's function calls legendre_t with p = 0 against its assertion; in
  release builds the zeroth row is sum over odd l of 2 sqrt(2l+1) G_l instead of zero.  Tail and
  discontinuity ignore the statistic (C79).  The comment of enforce_discontinuity says
  G(0)-G(beta); what is imposed is -(G(0)+G(beta)).
* density of a Legendre Green's function is transposed with respect to the one of frequency
  functions (C76, C79).
* Tail fits: the highest frequency of the mesh is never used, while its mirror image, the lowest, always
  is; the windows at the two ends are not mirror images of each other (C80).
* A given expansion order is not compared with the number of frequencies: with more unknown moments than
  frequencies the fit succeeds and returns some solution of an underdetermined problem (C80).
* With a given order and ten or more known moments the fitter reads beyond the end of its array
  of solvers (C80).
* fit_tail_on_window always makes a fermionic mesh: bosonic data are fitted against fermionic
  frequencies, and 1/(i w) gets the first moment 21/20 (C81).  The window starts at n_min-1 and not at n_min.
* replace_by_tail for bosons replaces n_min but not -n_min (C81).
* get_quantum_numbers is documented as result[sp_index][qn_index], but the subspaces are sorted by energy after
  the list was made and the list is not: the quantum numbers are attached to the wrong subspaces (C82).
* atom_diag with quantum numbers never checks that the Hamiltonian conserves them: if it does not, the
  constructor looks a state up in a subspace that does not hold it, undefined behaviour instead of an error (C82).
* The h5_read of a many-body operator that also returns the index set does not clear the operator it reads into, and
  inserts with std::map::insert: old coefficients win over those of the file and old monomials stay (C83).
* Reading an atom_diag from a file into an object that is in use resizes its tables of matrices without clearing them:
  rows of the old object keep their length, and a file with more subspaces is read beyond their end (C84).
* bound_and_bisect of a monotone function that is flat at the starting point and falls in the direction of dx searches
  away from the solution, and raises whatever maxiter is (C85).
* DOS.density below the first point of the grid is negative and grows without bound (index -1 is the last point), and on a
  grid that is not uniform it uses the first step for all intervals (C86).
* HilbertTransform with n_points_integral calls _DOS__f, but the method is _DOSFromFunction__f, and with test_convergence it
  calls DOS.HilbertTransform, which does not exist (found by reading; not modelled).
* G *= H of two square matrix-valued functions always fails: the assertion in Gf.__imatmul__ demands that H is *not* square (C87).
* G * iOmega_n raises, iOmega_n * G is a lazy expression (C87). G += iOmega_n rebinds G to a lazy expression instead of changing it
  (found by reading; not modelled).
* Gf.copy_from replaces the mesh before it compares the shapes, so that a failed copy leaves a function whose mesh does not fit its
  data (C87).
* LazyExpr.copy wraps its children in one more list, so that the copy can not be evaluated (found by reading; not modelled).
* SemiCircular on real frequencies is not multiplied by the identity: a matrix-valued function gets the same value in all elements,
  off the diagonal too (C88).
* SemiCircular at the zero frequency of a bosonic mesh, with a chemical potential above the band, is the wrong root (C88).
* SemiCircular.__str__ always raises: chem_potential is not defined, and the format has one argument only (found by reading; not
  modelled).
* BlockGf + iOmega_n, BlockGf - iOmega_n and BlockGf * iOmega_n silently return the block function unchanged: in-place operators of the
  blocks return a lazy expression, which only rebinds the loop variable (C89).
* M * BlockGf with a matrix M multiplies on the right: __rmul__ is __mul__, while M * Gf multiplies on the left (C89).
* SumkDiscrete(..., result = Sigma) sets Sigma to zero before it subtracts it (C89).
* SumkDiscrete with a function as Sigma calls inspect.getargspec, which Python 3.11 has removed (found by reading; not modelled).
* TB_from_pythTB refuses every model that is not three-dimensional: the on-site energies are stored under (0, 0, 0) (C90).
* TB_from_wannier90 transposes the hopping matrices: Wannier90 writes <0 m|H|R n> with m fastest (so does the file of the unit test),
  and the numbers are reshaped to [R, m, n] without reading the columns m and n.  The eigenvalues are unaffected, H(k) is not (C90).
* A pickled or copied SumkDiscreteFromLattice has N^(dim dim) k points instead of N^dim: __reduce__ passes the total number of points as
  the number of points per direction (C91).
* SumkDiscreteFromLattice: the shift Q always raises (there is no N_kpts), and so does a patch (its number of points is a float); the
  coordinates include 1/2, contrary to the documented -0.5 < k_i < 0.5, and odd grids do not contain k = 0 (C91).
* make_delta raises for bath energies in a list, contrary to its documentation: eps[None, :] needs a numpy array (C92).
* The sum of a MatsubaraFreq and a mesh point is a complex number in either order, without a check of the temperatures, while the
  difference MatsubaraFreq - MeshPoint is a MatsubaraFreq (C93).
* read_gf_from_txt cannot read a block with more columns than rows (it makes an N1 x N1 function) nor files of a single row (C94).
* DistributionOnNodesOneStack records results that are None, which its base class says are ignored, and empties the list that the caller passed
  (C95).  Read, not modelled: with several processes it opens its pickle files in text mode, and the test of `os.waitpid` is always true.
* BZPatch: the weight of a non-convex polygon depends on the corner it starts from and can exceed its area (C96).
* clip_array accepts generators according to its documentation, but its second search goes on where the first stopped, so values
  are lost, or it raises for want of a length (C97).
