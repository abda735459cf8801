(** Specification of densities of free fermions and of Hilbert transforms. *)
From Coq Require Import ZArith Reals List Bool.
From Coquelicot Require Import Complex.
From Verif Require Import Base.
Import ListNotations.
Local Open Scope R_scope.

(** the points of a grid increase with the same step d *)
Fixpoint uniform (d : R) (eps : list R) : Prop :=
  match eps with
  | e0 :: ((e1 :: _) as eps') => e1 = e0 + d /\ uniform d eps'
  | _ => True
  end.
(** The number of states below mu: for every pair of neighbours the part of the interval that is below
    mu, times the mean of the two values. *)
Fixpoint filled (eps rho : list R) (mu : R) : R :=
  match eps, rho with
  | e0 :: ((e1 :: _) as eps'), r0 :: ((r1 :: _) as rho') => (Rmin mu e1 - Rmin mu e0) * ((r0 + r1) / 2) + filled eps' rho' mu
  | _, _ => 0
  end.

Fixpoint add (l : list R) : R := match l with [] => 0 | x :: l' => x + add l' end.
(** sum over i of w_i / (x - eps_i) *)
Fixpoint hilbert (w eps : list R) (x : C) : C :=
  match w, eps with
  | d :: w', e :: eps' => Cplus (Cdiv (RtoC d) (Cminus x (RtoC e))) (hilbert w' eps' x)
  | _, _ => RtoC 0
  end.
