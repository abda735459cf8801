(** What the hybridization function of a discrete bath is. *)
From Coq Require Import ZArith Reals List Bool Arith.
From Coquelicot Require Import Complex.
From Verif Require Import Base TightBindingSpec.
Import ListNotations.
Local Open Scope R_scope.

(** the Matsubara frequency number n: (2 n + 1) pi / beta, or 2 n pi / beta *)
Definition omega (beta : R) (fermion : bool) (n : Z) : R := IZR (2 * n + (if fermion then 1 else 0)) * PI / beta.
Definition i_times (x : R) : C := (0, x).
(** sum_j V_kj V_lj^* / (z - eps_j), over the bath sites j *)
Definition bath_z (V : nat -> nat -> C) (eps : list R) (z : C) (k l : nat) : C :=
  csum (fun j => V k j * Cconj (V l j) / (z - RtoC (nth j eps 0)))%C (seq 0 (length eps)).
(** - sum_j V_kj V_lj^* e^{- tau eps_j} / (1 + e^{- beta eps_j}) *)
Definition bath_tau (V : nat -> nat -> C) (eps : list R) (beta tau : R) (k l : nat) : C :=
  (- csum (fun j => V k j * Cconj (V l j) * RtoC (exp (- tau * nth j eps 0) / (1 + exp (- beta * nth j eps 0)))) (seq 0 (length eps)))%C.
(** the quadratic form sum_kl x_k^* M_kl x_l of a matrix of n rows *)
Definition form (n : nat) (M : nat -> nat -> C) (x : nat -> C) : C :=
  csum (fun k => csum (fun l => Cconj (x k) * M k l * x l)%C (seq 0 n)) (seq 0 n).
