(** Vocabulary for regular grids in the Brillouin zone. *)
From Coq Require Import ZArith Reals List Bool Arith.
From Coquelicot Require Import Complex.
From Verif Require Import Base TightBinding TightBindingSpec.
Import ListNotations.
Local Open Scope nat_scope.

(** the N equally spaced values 1/N - 1/2, 2/N - 1/2, ... , 1/2 *)
Definition grid_value (N : nat) (x : R) : Prop := exists n, n < N /\ x = (INR (n + 1) / INR N - 1 / 2)%R.
(** a point all of whose [dim] coordinates are such values *)
Definition grid_point (dim N : nat) (k : list R) : Prop := length k = dim /\ Forall (grid_value N) k.
(** the displacements are shorter than N in every direction *)
Definition short (N : nat) (R : list Z) : Prop := Forall (fun r => (Z.abs r < Z.of_nat N)%Z) R.
(** k and k' differ by a reciprocal lattice vector *)
Definition equivalent (k k' : list R) : Prop := Forall2 (fun x y => exists z : Z, x = (y + IZR z)%R) k k'.
Definition total (l : list R) : R := fold_right Rplus 0%R l.
