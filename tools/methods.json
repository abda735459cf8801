{
 "C01": "det_manip as a state machine (lists of rows and columns, permutation tables, work arrays) over an arbitrary field; invariant by induction over the history.",
 "C02": "same invariant; determinant lemmas (Schur complement) of mathcomp.",
 "C03": "same invariant; block inverse formulas.",
 "C04": "same; ratio of determinants from the Schur complement.",
 "C05": "a try followed by no completion commutes with every continuation.",
 "C06": "list edits at several positions against the specification of simultaneous insertion and removal.",
 "C07": "monomials as lists, normal ordering with fuel; meaning as linear maps on finitely supported Fock vectors, proved equal for every assignment of modes.",
 "C08": "denotation of expressions.",
 "C09": "denotation and uniqueness.",
 "C10": "linear independence of normal-ordered products by a triangular argument.",
 "C11": "denotation against the adjoint.",
 "C12": "case analysis of the tolerance; binary64 counterexample.",
 "C13": "iteration over a map that is modified; undefined outcome.",
 "C14": "lists of index tuples; induction.",
 "C15": "string codec; induction.",
 "C16": "bit masks on N; parity lemmas.",
 "C17": "same; vm_compute counterexample.",
 "C18": "lists and finite maps.",
 "C19": "association lists and dense vectors against amplitudes.",
 "C20": "union-find abstracted to labellings with arbitrary representatives; closure by induction over the matrix elements.",
 "C21": "same.",
 "C22": "counterexample with four orbitals; one direction proved.",
 "C23": "prefix sums.",
 "C24": "permutation of blocks applied to every table.",
 "C25": "power series of the exponential in the eigenbasis (Coquelicot).",
 "C26": "finite sums over eigenstates; Fourier and Legendre integrals by antiderivatives and Bonnet's recursion.",
 "C27": "run loop with oracles for random numbers, callbacks and signals; induction over cycles.",
 "C28": "same.",
 "C29": "same.",
 "C30": "same.",
 "C31": "Flocq binary64.",
 "C32": "stream machine; refinement.",
 "C33": "Z modulo 2^64.",
 "C34": "integers and reals.",
 "C35": "integer index maps.",
 "C36": "reals; floor lemmas.",
 "C37": "integer index maps.",
 "C38": "same; collisions by computation.",
 "C39": "reals; floor lemmas.",
 "C40": "mixed radix by induction over the components.",
 "C41": "fold over the data; invariant.",
 "C42": "same, binary counter of levels.",
 "C43": "field algebra.",
 "C44": "ranks as a list; root and non-root outcomes.",
 "C45": "field algebra.",
 "C46": "floor lemmas.",
 "C47": "continued fraction over a field; induction.",
 "C48": "on the operator model.",
 "C49": "complex numbers, trigonometry.",
 "C50": "counter; induction.",
 "C51": "two-case number type.",
 "C52": "state machine.",
 "C53": "index maps and conjugation.",
 "C54": "row-major index arithmetic.",
 "C55": "reals; recursion of Legendre polynomials.",
 "C56": "integers.",
 "C57": "integer matrices (mathcomp), Python list semantics.",
 "C58": "rationals; induction over the iterations.",
 "C59": "reals.",
 "C60": "same machine as C27.",
 "C61": "Flocq binary64.",
 "C62": "archive as a record.",
 "C63": "complete() over an arbitrary eigen-solver; spectral statement against brackets of the Hamiltonian.",
 "C64": "same.",
 "C65": "same.",
 "C66": "reals; binning.",
 "C67": "products of masks, matrices in the eigenbasis.",
 "C68": "operator expressions over the complex numbers; coefficients of normal-ordered monomials, sums over labels.",
 "C69": "commutators of one-body and two-body operators; matrices of L; recursion of Racah's sum for the 3-j symbols.",
 "C70": "Racah's formula over the reals; tensor symmetries; finite tables for the cubic harmonics.",
 "C71": "balance of creators and annihilators per mode; uniqueness of the normal form.",
 "C72": "discrete Fourier transform in several dimensions by its documented formula (Fourier.v); orthogonality of roots of unity; k.R from the reciprocal lattice.",
 "C73": "phases of the offsets split off; orthogonality of roots of unity; integral of the tail by antiderivatives.",
 "C74": "phases split off, the end-point correction is half the jump of the tail; Riemann sums for the limit; partial fractions for tail integral and moments; the literal weights of the fit checked on monomials.",
 "C75": "algebra of mesh bounds; inverse of the reciprocal matrix.",
 "C76": "closed form of the discrete sum over times, uniform 1/n^2 bound and dominated convergence for the Matsubara sum; algebra; Riemann sums.",
 "C77": "loop invariant with integer quotients for the rounded index.",
 "C78": "loop invariants for the generator; orthogonality from the Legendre differential equation, norms by recursion; Riemann sums; Bessel function as a parameter with its integral representation.",
 "C79": "integration by parts with the derivatives of the Legendre polynomials at the ends in closed form; Pythagoras for the least-squares claim.",
 "C80": "invariant of the cached state relating it to a fresh fitter, for all histories; least squares by residuals, uniqueness from the number of roots of a polynomial; existence of solvers by projections.",
 "C81": "reduction to C80; index arithmetic.",
 "C82": "invariants of the loops over Fock states (classes of states seen so far, rows of the connection tables), then the completion lemma of C63.",
 "C83": "induction over the monomials and the records; lemmas on sorted association lists; C15 for the attribute.",
 "C84": "the cells of a table as a list up to permutation; induction over the datasets read; the constructors' results shown to be regular by going through complete, autopartition and partition_with_qn.",
 "C85": "induction over the steps of the walk; monotonicity decides which of the two walks meets which sign; scipy's bisect as a parameter with its contract.",
 "C86": "induction over the grid; the sum over ranks through the concatenation of slices (C56); imaginary part and modulus term by term.",
 "C87": "induction over the expression, with the relation 'this Python value means this matrix for each point'; one lemma per operator and pair of operand types.",
 "C88": "algebra of complex square roots; the product of the two solutions is positive, so that their imaginary parts have opposite signs; antiderivatives for the flat density of states; the assignment through C87.",
 "C89": "induction over the blocks; the operators of C87 on each; the sum over k by induction over the list, and over the ranks by C56 (the slices of the ranks concatenate to the list).",
 "C90": "invariant of the loop over the hoppings (keys distinct and closed under R -> -R, t(R) = t(-R)^dagger, the Fourier sum of the dict); the file as a list of rows addressed by their position; induction over the segments.",
 "C91": "the nested loops are a product of lists in any number of dimensions (induction); sums of plane waves over it factorise into sums of roots of unity.",
 "C92": "np.linspace gives the mesh points; the shifted exponent cancels; antiderivative of e^{(i omega - eps) tau}; quadratic forms as sums of squares.",
 "C93": "case analysis over the types of the operands, following Python's dispatch; ring identities.",
 "C94": "a directory is a function from names to rows; induction over the files written and read; minimum and maximum of an equidistant mesh.",
 "C95": "the loop with fuel; induction over the stack against an inductive description of the expected results.",
 "C96": "loop invariant over the corners; induction from the fan of triangles to Gauss's area formula.",
 "C97": "the two searches by induction over the values, any type with a total preorder."
}