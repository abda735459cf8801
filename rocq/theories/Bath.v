(** Model of python/triqs/gf/tools.py:272-327 : make_delta, the hybridization function of a discrete bath.

    Simplifications: floating point numbers are real and complex numbers.  A mesh point where i omega_n = eps_j (numpy: inf or nan and a warning)
    gives an unspecified number.  V is an array; a list V is a list of blocks. *)
From Coq Require Import ZArith Reals List Bool Arith.
From Coquelicot Require Import Complex.
From Verif Require Import Base.
Import ListNotations.
Local Open Scope nat_scope.

(** MeshImFreq(beta, statistic) with the indices first ... last, MeshImTime(beta, n_tau), any other mesh *)
Inductive pymesh : Type :=
| MeshImFreq (beta : R) (fermion : bool) (first : Z) (points : nat)
| MeshImTime (beta : R) (points : nat)
| MeshOther.
Definition mesh_len (m : pymesh) : nat := match m with MeshImFreq _ _ _ n => n | MeshImTime _ n => n | MeshOther => 0 end.
(** a list of numbers or a numpy array: only the latter can be indexed with [None, :] *)
Inductive pyvec : Type := PyList (l : list R) | NpArray (l : list R).
Definition len (v : pyvec) : nat := match v with PyList l | NpArray l => length l end.
Definition row_of (v : pyvec) : res (nat -> R) := match v with PyList _ => Throw | NpArray l => Ok (fun j => nth j l 0%R) end.
(** an array V of shape (a_rows, a_cols) *)
Record array2 : Type := mkArray { a_rows : nat; a_cols : nat; a_el : nat -> nat -> C }.
(** the result: a matrix for every point of the mesh *)
Record hyb : Type := mkHyb { d_mesh : pymesh; d_norb : nat; d_data : nat -> nat -> nat -> C }.

(** np.linspace(start, stop, num)[i] *)
Definition linspace (start stop : C) (num i : nat) : C :=
  match num with 0 | 1 => start | _ => (start + (stop - start) * RtoC (INR i / INR (num - 1)))%C end.
(** mesh(n) of a MeshImFreq *)
Definition mesh_value (beta : R) (fermion : bool) (n : Z) : C := (0, IZR (2 * n + (if fermion then 1 else 0)) * PI / beta)%R.
(** lines 317-319 *)
Definition one_freq (beta : R) (fermion : bool) (first : Z) (points : nat) (eps : nat -> R) (w j : nat) : C :=
  let last := (first + Z.of_nat points - 1)%Z in
  (RtoC 1 / (linspace (mesh_value beta fermion first) (mesh_value beta fermion last) points w - RtoC (eps j)))%C.
(** lines 320-323.  (eps < 0.0) * eps *)
Definition neg_part (x : R) : R := if Rlt_dec x 0 then x else 0%R.
Definition one_time (beta : R) (points : nat) (eps : nat -> R) (w j : nat) : C :=
  let tau := fst (linspace (RtoC 0) (RtoC beta) points w) in
  RtoC (- exp (- tau * eps j + beta * neg_part (eps j)) / (1 + exp (- beta * Rabs (eps j)))).
(** a sum over the axis j of np.einsum *)
Fixpoint axis_sum (n : nat) (f : nat -> C) : C := match n with 0 => RtoC 0 | S n' => (axis_sum n' f + f n')%C end.
(** lines 313-327.  With another mesh one_fermion is never assigned: UnboundLocalError *)
Definition make_delta (V : array2) (eps : pyvec) (m : pymesh) : res hyb :=
  if negb (a_cols V =? len eps) then Throw else
  do one <- match m with
            | MeshImFreq beta s first n => do e <- row_of eps ; Ok (one_freq beta s first n e)
            | MeshImTime beta n => do e <- row_of eps ; Ok (one_time beta n e)
            | MeshOther => Throw
            end ;
  Ok (mkHyb m (a_rows V) (fun w k l => axis_sum (a_cols V) (fun j => (a_el V k j * one w j) * Cconj (a_el V l j))%C)).
(** lines 301-311 : blocks; the names default to 0, 1, ... (here numbers stand for names) *)
Fixpoint make_each (V : list array2) (eps : list pyvec) (m : pymesh) : res (list hyb) :=
  match V, eps with
  | v :: V', e :: eps' => do d <- make_delta v e m ; do r <- make_each V' eps' m ; Ok (d :: r)
  | _, _ => Ok []
  end.
Definition make_delta_blocks (V : list array2) (eps : list pyvec) (m : pymesh) (block_names : option (list nat)) : res (list (nat * hyb)) :=
  let names := match block_names with None => seq 0 (length V) | Some l => l end in
  if negb ((length V =? length eps) && (length V =? length names)) then Throw else
  do r <- make_each V eps m ; Ok (combine names r).
