# Formal model of TRIQS in Rocq/Coq 8.16.1

This file says what is modelled, how each property of `properties.jsonl` is
proved, and what the result rests on.  It is produced by `tools/gen_design.py`
from `tools/design_head.md`, the manifest and the output of `Print Assumptions`.

## Layout

* `rocq/theories/X.v` : model definitions; each has a comment citing the file and
  lines in `/repo` it models and the simplifications made.
* `rocq/theories/XSpec.v` : the specification a theorem refers to, written
  without the model's helpers.  `Fock.v`, `FockSpec.v` and `OpExpr.v` are the
  specification of second-quantised operators (Fock states, action of c and
  c^dagger, meaning of operator expressions).
* `rocq/theories/X_proofs.v` and files with other suffixes : lemmas.
* `rocq/theories/X_props.v` : the property theorems `Cnn_...`, each with
  `Print Assumptions` beneath it and an `Example` that meets its hypotheses.
* `properties.jsonl` (from `tools/gen_properties.py`), `MANIFEST.json` (from
  `tools/gen_manifest.py` and `tools/notes.json`), `ASSUMPTIONS.md`,
  `seeded/LOG.jsonl` (wrong programs tried against the theorems).

## Modelling conventions

* Numbers.  Where the code computes with `double` or `complex`, the model
  computes exactly: in an arbitrary field, in `Q`, `R` or `C`, or in a structure
  `scalar_ops` with laws (integers, rationals, reals, complex numbers are
  instances, binary64 is an instance without the laws).  Rounding is modelled
  where it is the point: random numbers (Flocq binary64), tolerance of the
  zero test (binary64), time points (64-bit words).
* Machine integers are `Z`/`N`/`nat`; wrap-around is explicit where the code can
  wrap, and each theorem names the range it needs.
* Exceptions and undefined behaviour (out-of-range access, dereferencing
  `end()`, signed overflow) are separate outcomes `Throw` and `UB` of the model
  (`Base.v`).  A theorem that says a call returns `Ok` excludes both.
* External code is a universally quantified parameter with the law it is
  trusted for stated as a hypothesis: LAPACK (`solves`: the eigensystem it
  returns is one), the union-find of Boost (choice of representatives is
  arbitrary), user functions and callbacks, the random stream, MPI
  reductions, HDF5 (returns what was written), `cyl_bessel_i`.  FFTW is
  modelled by the formula in its manual.  The tail fitter is an arbitrary function in
  C72-C79 and is modelled in C80-C81.
* A statement of the documentation that is false of the code is recorded as a
  theorem with suffix `_refuted` that exhibits the counterexample; the property
  is then worded as what is true.  `_partial` marks theorems that prove less
  than the property.

## Trusted base

* The Coq 8.16.1 kernel, with `vm_compute` for closed computations.
* The axioms of the standard library listed below theorem by theorem: the
  construction of the reals (`ClassicalDedekindReals.sig_forall_dec`,
  `sig_not_dec`), `functional_extensionality_dep` and `Classical_Prop.classic`
  (both through Reals, Coquelicot and Flocq).  No other axiom.
* The correspondence between the C++/Python text and the Gallina definitions,
  documented by the comments with line numbers.  Nothing extracts or compiles
  the C++ code.
* The laws assumed of external code, listed in the previous section; they are
  hypotheses of the theorems that use them.

