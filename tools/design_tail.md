## What is not modelled

* `c++/triqs/gfs` except imfreq symmetrisation, flattening, Fourier transforms
  and what is named above: expression templates, views, block_gf containers, HDF5 and MPI of Green's
  functions.  DLR meshes and transforms (they rest on the cppdlr library).
* Python wrappers generated by cpp2py, plotting, `h5diff`, stream redirection.
* `utility` headers that carry no state or are compile-time tools (tuple_tools,
  expression templates, type names, exceptions, timers).
* Memory management, concurrency of MPI ranks beyond the reductions named,
  performance.
* Rounding, where the conventions above say that arithmetic is exact.
