(** Specification vocabulary for Fourier transforms. *)
From Coq Require Import ZArith Reals List Bool.
From Coquelicot Require Import Coquelicot.
From Verif Require Import Base Matsubara LinMesh Mesh Lattice ThermalSpec Flatten Fourier.
Import ListNotations.
Local Open Scope R_scope.

(** the value of a Green's function (component c) at the point with index i of a lattice mesh *)
Definition at_index (m : cyc) (g : data) (i : idx) (c : nat) : C := g (Z.to_nat (cy_data m i)) c.
(** there is at least one point in every direction, and one point in the directions that the lattice does not have *)
Definition fits (l : lattice) (m : cyc) : Prop :=
  (0 < cy_d0 m)%Z /\ (0 < cy_d1 m)%Z /\ (0 < cy_d2 m)%Z /\
  ((la_dim l < 2)%nat -> cy_d1 m = 1%Z) /\ ((la_dim l < 3)%nat -> cy_d2 m = 1%Z).
(** two data arrays with the same values in the rows below n *)
Definition same_rows (n : nat) (g g' : data) : Prop := forall i c, (i < n)%nat -> g i c = g' i c.

(** sum over the points 0 .. n-1 *)
Definition total (n : nat) (f : nat -> C) : C := csum (seq 0 n) f.
(** the two meshes have the same number of points and dt dw L = 2 pi *)
Definition conjugate_meshes (wm tm : linear) : Prop :=
  (2 <= li_L tm)%Z /\ li_L wm = li_L tm /\ li_delta tm * li_delta wm * IZR (li_L tm) = 2 * PI.
(** a linear mesh as its constructor makes it, with at least two points *)
Definition li_built (m : linear) : Prop := exists a b n, (2 <= n)%Z /\ a < b /\ m = li_make a b n.

(** the exponential exp(i w_n tau) of the n-th Matsubara frequency *)
Definition matsubara_wave (beta : R) (s : statistic) (n : Z) (tau : R) : C :=
  expi (PI * IZR (2 * n + match s with Fermion => 1 | Boson => 0 end) / beta * tau).
(** i w_n *)
Definition i_omega (beta : R) (s : statistic) (n : Z) : C :=
  Cmult Ci (RtoC (PI * IZR (2 * n + match s with Fermion => 1 | Boson => 0 end) / beta)).
(** the j-th of n+1 equidistant times from 0 to beta *)
Definition tau_pt (beta : R) (n j : nat) : R := INR j * (beta / INR n).
(** the trapezoidal rule with n intervals on [0, beta] *)
Definition trapezoid (beta : R) (n : nat) (f : nat -> C) : C :=
  Cmult (RtoC (beta / INR n)) (Cplus (total n (fun j => f j)) (Cmult (RtoC (1 / 2)) (Cminus (f n) (f 0%nat)))).
(** the integral of a complex function *)
Definition cintegral (f : R -> C) (x y : R) (z : C) : Prop :=
  is_RInt (fun t => fst (f t)) x y (fst z) /\ is_RInt (fun t => snd (f t)) x y (snd z).

(** the moments that a caller may give: none, or at least [k], with a vanishing zeroth one *)
Definition moments_given (k n : nat) (km : rows) : Prop := (0 < n)%nat /\ (k <= length km)%nat /\ forall c, (c < n)%nat -> Cmod (row km 0 c) < / 10 ^ 8.
(** row [k], column [c] of the moments, zero where none is given *)
Definition moment (km : rows) (k c : nat) : C := nth k km (fun _ => RtoC 0) c.
(** m1/z + m2/z^2 + m3/z^3 *)
Definition expansion (m1 m2 m3 z : C) : C := Cplus (Cplus (Cdiv m1 z) (Cdiv m2 (Cmult z z))) (Cdiv m3 (Cmult z (Cmult z z))).
(** an imaginary-time mesh with L intervals *)
Definition tau_mesh (beta : R) (s : statistic) (L : nat) : imtime := it_make beta s (Z.of_nat L + 1).
(** the frequency mesh has at most half as many positive frequencies as the time mesh has intervals *)
Definition tau_fits (iwm : imfreq) (L : nat) : Prop := (0 < L)%nat /\ (0 <= if_n iwm)%Z /\ (2 * if_n iwm <= Z.of_nat L)%Z.
(** -1 for fermions, 1 for bosons *)
Definition pm (s : statistic) : R := match s with Fermion => -1 | Boson => 1 end.
(** the polynomial sum_j a_j t^j of degree 8 and a bound for its non-constant terms at distance delta *)
Definition poly (a : nat -> C) (t : R) : C := csum (seq 0 9) (fun j => Cmult (a j) (RtoC (t ^ j))).
Definition size_of (a : nat -> C) (delta : R) : R := fold_right (fun j s => Cmod (a (S j)) * delta ^ j + s) 0 (seq 0 8).
(** D is the greatest of f 0 .. f (n-1) *)
Definition greatest (n : nat) (f : nat -> R) (D : R) : Prop := (forall c, (c < n)%nat -> f c <= D) /\ exists c, (c < n)%nat /\ f c = D.
(** how much a column changes over k steps at the two ends of the L intervals, per unit of time *)
Definition end_slopes (beta : R) (L : nat) (gt : data) (k c : nat) : R :=
  (Cmod (Cminus (gt k c) (gt 0%nat c)) + Cmod (Cminus (gt (L - k)%nat c) (gt L c))) / (INR k * (beta / INR L)).
