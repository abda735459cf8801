(** Model of the array slicing of python/triqs/utility/mpi_mpi4py.py (lines 96-109).
    [size] is the number of MPI ranks, [rank] the calling rank (module globals in the code);
    Python integers are unbounded and // is the floor division. *)
From Coq Require Import ZArith List Bool.
Import ListNotations.
Local Open Scope Z_scope.

(** lines 96-99 *)
Definition slice_inf (size rank imin imax : Z) : Z :=
  let j := (imax - imin + 1) / size in
  let i := imax - imin + 1 - size * j in
  if rank <=? i - 1 then imin + rank * (j + 1) else imin + rank * j + i.
(** lines 101-104 *)
Definition slice_sup (size rank imin imax : Z) : Z :=
  let j := (imax - imin + 1) / size in
  let i := imax - imin + 1 - size * j in
  if rank <=? i - 1 then imin + (rank + 1) * (j + 1) - 1 else imin + (rank + 1) * j + i - 1.

(** A[a:b] along the first dimension: a negative bound counts from the end, then both are
    clipped to the length *)
Definition py_bound (n x : Z) : Z := Z.min n (if x <? 0 then Z.max 0 (x + n) else x).
Definition py_slice {A : Type} (l : list A) (a b : Z) : list A :=
  let n := Z.of_nat (length l) in
  let a' := Z.to_nat (py_bound n a) in
  firstn (Z.to_nat (py_bound n b) - a') (skipn a' l).
(** lines 106-109; the list stands for the entries A[0], A[1], ... *)
Definition slice_array {A : Type} (size rank : Z) (l : list A) : list A :=
  let imax := Z.of_nat (length l) - 1 in
  py_slice l (slice_inf size rank 0 imax) (slice_sup size rank 0 imax + 1).
