(** Specification vocabulary for rebinning. *)
From Coq Require Import ZArith Reals List Bool.
From Coquelicot Require Import Coquelicot.
From Verif Require Import Base Matsubara LinMesh ThermalSpec Fourier FourierSpec.
Import ListNotations.
Local Open Scope R_scope.

(** the i-th of the points 0, h, 2h, ... is the closest to x, of two equally close ones the larger *)
Definition nearest (h x : R) (i : nat) : Prop := INR i * h - h / 2 <= x < INR i * h + h / 2.
(** ks lists, once each, the times j beta / n, j = 0 .. n, whose closest point among i beta / n', i = 0 .. n', is the i-th *)
Definition bin (beta : R) (n n' i : nat) (ks : list nat) : Prop :=
  NoDup ks /\ forall k, In k ks <-> (k <= n)%nat /\ nearest (beta / INR n') (tau_pt beta n k) i.
(** the mean of the values f k; zero if there are none *)
Definition mean (ks : list nat) (f : nat -> C) : C := match ks with [] => RtoC 0 | _ => Cdiv (csum ks f) (RtoC (INR (length ks))) end.
