(** Model of c++/triqs/lattice/tight_binding.{hpp,cpp} : the constructor and fourier.

    Simplifications: double is R and dcomplex is the field C of Coquelicot (no rounding); the bravais lattice enters only by
    its dimension, its number of orbitals and (for the Brillouin zone mesh) the matrices of Lattice.v.  int and long are
    unbounded.  nda's == on vectors of different sizes is false; the difference of matrices of different shapes is UB. *)
From Coq Require Import ZArith Reals List Bool.
From Coquelicot Require Import Complex.
From Verif Require Import Base Mesh Lattice.
Import ListNotations.
Local Open Scope nat_scope.

(** nda::matrix<dcomplex> *)
Record hop : Type := mkHop { h_rows : nat; h_cols : nat; h_el : nat -> nat -> C }.
Record tb : Type := mkTb { tb_dim : nat; tb_norb : nat; tb_displ : list (list Z); tb_mats : list hop }.

(** tight_binding.cpp:47 : max_element(abs(a - dagger(b))) > 1.e-12 *)
Definition tolerance : R := (/ 1000000000000)%R.
Definition deviates (n : nat) (a b : hop) : bool :=
  existsb (fun i => existsb (fun j => if Rlt_dec tolerance (Cmod (h_el a i j - Cconj (h_el b j i))%C) then true else false) (seq 0 n)) (seq 0 n).
(** tight_binding.cpp:43-53 : the first displacement opposite to R *)
Fixpoint find_opposite (R : list Z) (l : list (list Z * hop)) : option hop :=
  match l with
  | [] => None
  | (R', m') :: l' => if list_eq_dec Z.eq_dec R (map Z.opp R') then Some m' else find_opposite R l'
  end.
(** tight_binding.cpp:34-54 : one turn of the loop *)
Definition check_hop (ndim norb : nat) (l : list (list Z * hop)) (x : list Z * hop) : res unit :=
  let '(R, m) := x in
  if negb (Nat.eqb (length R) ndim) then Throw else
  if negb (Nat.eqb (h_rows m) norb) then Throw else
  if negb (Nat.eqb (h_cols m) norb) then Throw else
  match find_opposite R l with
  | None => Throw
  | Some m' =>
      if negb (Nat.eqb (h_cols m') norb && Nat.eqb (h_rows m') norb) then UB else
      if deviates norb m m' then Throw else Ok tt
  end.
Fixpoint check_all (ndim norb : nat) (l todo : list (list Z * hop)) : res unit :=
  match todo with
  | [] => Ok tt
  | x :: todo' => do _ <- check_hop ndim norb l x ; check_all ndim norb l todo'
  end.
(** tight_binding.cpp:29-55 *)
Definition tb_make (ndim norb : nat) (displ : list (list Z)) (mats : list hop) : res tb :=
  if negb (Nat.eqb (length displ) (length mats)) then Throw else
  do _ <- check_all ndim norb (combine displ mats) (combine displ mats) ; Ok (mkTb ndim norb displ mats).

Definition cmat : Type := nat -> nat -> C.
Definition cm_add (a b : cmat) : cmat := fun i j => (a i j + b i j)%C.
(** k . R (nda::blas::dot_generic) *)
Fixpoint kdot (k : list R) (d : list Z) : R :=
  match k, d with
  | x :: k', n :: d' => (x * IZR n + kdot k' d')%R
  | _, _ => 0%R
  end.
(** std::exp(2i * M_PI * x) *)
Definition cexp (x : R) : C := (cos (2 * PI * x), sin (2 * PI * x))%R.
(** tight_binding.hpp:92, 95-96 *)
Definition tb_val (ndim : nat) (k : list R) (x : list Z * hop) : cmat := fun i j => (cexp (kdot (firstn ndim k) (fst x)) * h_el (snd x) i j)%C.
(** tight_binding.hpp:88-107, K of rank 1.  A vector k shorter than ndim, or no displacement: undefined *)
Definition fourier (t : tb) (k : list R) : res cmat :=
  if Nat.ltb (length k) (tb_dim t) then UB else
  match combine (tb_displ t) (tb_mats t) with
  | [] => UB
  | x :: l => Ok (fold_left (fun acc y => cm_add acc (tb_val (tb_dim t) k y)) l (tb_val (tb_dim t) k x))
  end.
Fixpoint zip_add (a b : list cmat) : list cmat :=
  match a, b with
  | x :: a', y :: b' => cm_add x y :: zip_add a' b'
  | _, _ => []
  end.
(** the same lines, K of rank 2: one matrix per row of K (lines 98-101: an outer product), summed over the displacements *)
Definition fourier_stack (t : tb) (ks : list (list R)) : res (list cmat) :=
  if existsb (fun k => Nat.ltb (length k) (tb_dim t)) ks then UB else
  let vals x := map (fun k => tb_val (tb_dim t) k x) ks in
  match combine (tb_displ t) (tb_mats t) with
  | [] => UB
  | x :: l => Ok (fold_left (fun acc y => zip_add acc (vals y)) l (vals x))
  end.
(** the indices of a mesh in the order of iteration (brzone.hpp:268-272, 299-304) *)
Definition br_points (m : brz) : list idx := map (fun n => cy_index (br_dims m) (Z.of_nat n)) (seq 0 (Z.to_nat (cy_size (br_dims m)))).
(** tight_binding.hpp:116-123 : k.value() * reciprocal_matrix_inv(), a row vector times a matrix *)
Definition k_reduced (m : brz) (i : idx) : list R :=
  let v := mvec (transpose (bz_Kinv (br_bz m))) (br_value m i) in [vx v; vy v; vz v].
Definition fourier_mesh (t : tb) (m : brz) : res (list cmat) := fourier_stack t (map (k_reduced m) (br_points m)).
(** hopping_stack, tight_binding.cpp:198-202 : momenta in the columns *)
Fixpoint fourier_each (t : tb) (ks : list (list R)) : res (list cmat) :=
  match ks with
  | [] => Ok []
  | k :: ks' => do h <- fourier t k ; do hs <- fourier_each t ks' ; Ok (h :: hs)
  end.
