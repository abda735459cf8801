(** Specification vocabulary for densities of states. *)
From Coq Require Import ZArith Reals List Bool.
From Coquelicot Require Import Complex.
From Verif Require Import Base TightBinding TbDos.
Import ListNotations.
Local Open Scope R_scope.

Fixpoint rsum {A} (f : A -> R) (l : list A) : R := match l with [] => 0 | x :: l' => f x + rsum f l' end.
(** 0, ..., n-1 *)
Definition upto (n : Z) : list Z := map Z.of_nat (seq 0 (Z.to_nat n)).
(** e is in bin number a when [lo, hi] is cut in n bins; the last bin contains hi *)
Definition in_bin (lo hi : R) (n a : Z) (e : R) : Prop :=
  let d := (hi - lo) / IZR n in
  (0 <= a < n)%Z /\ lo + IZR a * d <= e /\ (e < lo + (IZR a + 1) * d \/ (a = n - 1)%Z /\ e = hi).
(** p is in the triangle a, b, c *)
Definition in_triangle (a b c p : pt) : Prop :=
  exists x y z, 0 <= x /\ 0 <= y /\ 0 <= z /\ x + y + z = 1 /\ p = padd (pmul x a) (padd (pmul y b) (pmul z c)).
Definition triangle_area (t : pt * pt * pt) : R :=
  let '(a, b, c) := t in Rabs ((fst b - fst a) * (snd c - snd a) - (snd b - snd a) * (fst c - fst a)) / 2.
