(** Model of partition_function and atomic_density_matrix (atom_diag/impl/functions.cpp).
    Numbers are exact: the energies (double) are reals, [inj] converts a double to the scalar type
    of the diagonalization.  std::exp is the real exponential. *)
From Coq Require Import ZArith NArith List Bool Reals.
From Verif Require Import Base Scalar AtomDiag RealAtom.
Import ListNotations.
Local Open Scope R_scope.

Section Thermal.
  Context (S : scalar_ops) (inj : R -> S).
  Notation E := (RE S inj).
  Notation atom := (atom S E).

  Definition rsum (l : list R) : R := fold_left Rplus l 0.

  (** functions.cpp:39-43 : z += sum(exp(-beta * es.eigenvalues)) *)
  Definition partition_function (a : atom) (beta : R) : R :=
    fold_left (fun z es => z + rsum (map (fun x : R => exp (- beta * x)) (evals S E es))) (a_eigs S E a) 0.

  (** functions.cpp:48-60; get_eigenvalue(bl, u) (atom_diag.hpp) with u below the dimension of the
      block is evals[u] *)
  Definition density_block (z beta : R) (ev : list R) : mat S :=
    mkMat (length ev) (length ev) (fun u v => if (u =? v)%nat then inj (exp (- beta * nth u ev 0) / z) else k0).
  Definition atomic_density_matrix (a : atom) (beta : R) : list (mat S) :=
    let z := partition_function a beta in
    map (fun es => density_block z beta (evals S E es)) (a_eigs S E a).
End Thermal.
