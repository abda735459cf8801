(** What a pythTB model, a Wannier90 file and a path of segments mean. *)
From Coq Require Import ZArith Reals List Bool Arith.
From Coquelicot Require Import Complex.
From Verif Require Import Base Lattice TightBinding TightBindingSpec TbConvert.
Import ListNotations.
Local Open Scope nat_scope.

(** the Hamiltonian of a pythTB model: on-site energies, and for every hopping t from i to j + R the term
    e^{2 pi i k.R} t at (i, j) and its hermitian conjugate *)
Definition pyth_h (E : nat -> R) (hops : list phop) (k : list R) (a b : nat) : C :=
  ((if a =? b then RtoC (E a) else RtoC 0) +
   csum (fun h => (if (a =? p_from h) && (b =? p_to h) then phase (2 * PI * inner k (p_R h)) * p_t h else RtoC 0) +
                  (if (a =? p_to h) && (b =? p_from h) then phase (- (2 * PI * inner k (p_R h))) * Cconj (p_t h) else RtoC 0)) hops)%C.
(** the orbitals exist, the displacements have [ndim] components *)
Definition pyth_fits (ndim norb : nat) (hops : list phop) : Prop := Forall (fun h => p_from h < norb /\ p_to h < norb /\ length (p_R h) = ndim) hops.

(** The file of Wannier90: for each displacement R(r) the numbers H(r, m, n) = <0 m|H|R n>, m first *)
Definition wannier_file (nw nr : nat) (Rs : nat -> list Z) (H : nat -> nat -> nat -> C) (rows : list hr_row) : Prop :=
  length rows = nr * nw * nw /\
  forall r m n, r < nr -> m < nw -> n < nw -> nth_error rows ((r * nw + n) * nw + m) = Some (mkRow (Rs r) (m + 1) (n + 1) (H r m n)).
Definition distinct (nr : nat) (Rs : nat -> list Z) : Prop := forall r s, r < nr -> s < nr -> Rs r = Rs s -> r = s.
(** sum over R of e^{2 pi i k.R} H(R)_mn / deg(R) *)
Definition wannier_h (nr : nat) (Rs : nat -> list Z) (deg : nat -> Z) (H : nat -> nat -> nat -> C) (k : list R) (m n : nat) : C :=
  csum (fun r => phase (2 * PI * inner k (Rs r)) * (H r m n / RtoC (IZR (deg r))))%C (seq 0 nr).
(** two spins, without a coupling between them *)
Definition with_spin (spin : bool) (n : nat) (h : nat -> nat -> C) (i j : nat) : C :=
  if spin then (if i / n =? j / n then h (i mod n) (j mod n) else RtoC 0) else h i j.

(** the length of a segment, in units of [cell], and of the path before segment number s *)
Definition segment_length (cell : mat) (s : vec * vec) : R := norm (times_cell cell (vsub (snd s) (fst s))).
Definition length_before (cell : mat) (segments : list (vec * vec)) (s : nat) : R := fold_right Rplus 0%R (map (segment_length cell) (firstn s segments)).
