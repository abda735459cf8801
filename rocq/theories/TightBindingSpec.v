(** Specification vocabulary for tight-binding Hamiltonians. *)
From Coq Require Import ZArith Reals List Bool.
From Coquelicot Require Import Complex.
From Verif Require Import Base Lattice TightBinding.
Import ListNotations.

(** the hopping matrix t(R) is given for the displacement R *)
Definition hopping (displ : list (list Z)) (mats : list hop) (R : list Z) (m : hop) : Prop :=
  exists n, nth_error displ n = Some R /\ nth_error mats n = Some m.
(** t(R) = t(-R)^dagger up to the tolerance 1e-12, element by element *)
Definition conjugate_hops (n : nat) (m m' : hop) : Prop :=
  forall i j, (i < n)%nat -> (j < n)%nat -> (Cmod (h_el m i j - Cconj (h_el m' j i))%C <= 1 / 1000000000000)%R.
(** sum over a list *)
Fixpoint csum {A} (f : A -> C) (l : list A) : C := match l with [] => (RtoC 0) | x :: l' => (f x + csum f l')%C end.
(** e^{i x} *)
Definition phase (x : R) : C := (cos x, sin x).
(** k.R, k and R with the same number of components *)
Fixpoint inner (k : list R) (d : list Z) : R := match k, d with x :: k', n :: d' => (x * IZR n + inner k' d')%R | _, _ => 0%R end.
(** sum_R e^{2 pi i k.R} t(R)_ij *)
Definition h_k (displ : list (list Z)) (mats : list hop) (k : list R) (i j : nat) : C :=
  csum (fun x => (phase (2 * PI * inner k (fst x)) * h_el (snd x) i j)%C) (combine displ mats).
(** k + G for an integer combination G of reciprocal lattice vectors *)
Definition shift (k : list R) (G : list Z) : list R := map (fun p => (fst p + IZR (snd p))%R) (combine k G).
