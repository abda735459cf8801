(** Specification vocabulary for densities. *)
From Coq Require Import ZArith Reals List Bool.
From Coquelicot Require Import Coquelicot.
From Verif Require Import Base Matsubara LinMesh ThermalSpec Fourier FourierSpec.
Import ListNotations.
Local Open Scope R_scope.

(** the Green's function sum_k a_k / (z - e_k) *)
Definition poles (ps : list (R * (nat -> nat -> C))) (z : C) (i j : nat) : C :=
  csum ps (fun p => Cdiv (snd p i j) (Cminus z (RtoC (fst p)))).
(** Fermi or Bose function *)
Definition occupation (s : statistic) (beta e : R) : R := 1 / (exp (beta * e) - match s with Fermion => -1 | Boson => 1 end).
(** no boson has zero energy *)
Definition no_zero_mode (s : statistic) (ps : list (R * (nat -> nat -> C))) : Prop :=
  match s with Fermion => True | Boson => forall p, In p ps -> fst p <> 0 end.
(** the value of g at the frequencies of a mesh, as stored *)
Definition on_mesh (m : imfreq) (g : C -> nat -> nat -> C) : nat -> nat -> nat -> C :=
  fun d => g (i_omega (if_beta m) (if_stat m) (if_to_index m (Z.of_nat d))).
(** at least four moments, the zeroth vanishing, for an n x n target *)
Definition matrices_given (n : nat) (km : list (nat -> nat -> C)) : Prop :=
  (0 < n)%nat /\ (4 <= length km)%nat /\ forall i j, (i < n)%nat -> (j < n)%nat -> Cmod (nth 0 km (fun _ _ => RtoC 0) i j) < / 10 ^ 8.
(** the spectral function i (G - G^dagger) / 2 pi *)
Definition spectral (g : nat -> nat -> C) (i j : nat) : C := Cdiv (Cmult Ci (Cminus (g i j) (Cconj (g j i)))) (RtoC (2 * PI)).
(** areas of the trapezoids between the points 0 .. n of distance h *)
Definition areas (h : R) (n : nat) (f : nat -> C) : C := csum (seq 0 n) (fun k => Cmult (RtoC (h / 2)) (Cplus (f k) (f (S k)))).
(** area of the trapezoid between 0 and the fraction a of the interval on which a linear function goes from u to v *)
Definition part_area (h a : R) (u v : C) : C := Cmult (RtoC (a * h / 2)) (Cplus u (Cplus u (Cmult (RtoC a) (Cminus v u)))).
(** a Green's function with three poles at the positions the code uses for its tail *)
Definition three_poles (s : statistic) (A B C0 : nat -> nat -> C) : list (R * (nat -> nat -> C)) :=
  match s with Fermion => [(0, A); (1, B); (-1, C0)] | Boson => [(-1, A); (1, B); (1 / 2, C0)] end.
(** hermitian matrices as weights *)
Definition hermitian_weights (ps : list (R * (nat -> nat -> C))) : Prop := forall p, In p ps -> forall i j, snd p j i = Cconj (snd p i j).
(** G(i w)_ji = conj G(-i w)_ij on a mesh whose point opposite to the d-th is the d-th from the end, and for the moments *)
Definition hermitian_data (m : imfreq) (g : nat -> nat -> nat -> C) (km : list (nat -> nat -> C)) : Prop :=
  (forall d i j, (d < Z.to_nat (if_size m))%nat -> g (Z.to_nat (if_size m) - 1 - d)%nat j i = Cconj (g d i j)) /\
  forall k i j, nth k km (fun _ _ => RtoC 0) j i = Cconj (nth k km (fun _ _ => RtoC 0) i j).
