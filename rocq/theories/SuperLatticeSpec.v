(** Specification for C57: the cell of a superlattice and the folded function. *)
From mathcomp Require Import all_ssreflect all_algebra.
Set Implicit Arguments.
Unset Strict Implicit.
Unset Printing Implicit Defensive.
Import GRing.Theory.
Local Open Scope ring_scope.

(** x = sum_j (k_j / N) units_j with 0 <= k_j < N, N = |det units| : x is in the half-open cell spanned by the rows of units *)
Definition in_cell n (units : 'M[int]_n) (x : 'cV[int]_n) : Prop :=
  exists k : 'cV[int]_n, `|\det units|%:Z *: x = units^T *m k /\ forall j, 0 <= k j 0 < `|\det units|%:Z.

(** the column vector of the first n entries of a list *)
Definition col_of n (s : seq int) : 'cV[int]_n := \col_i s`_i.

(** sum over the hoppings that lead from x to y *)
Definition hops_between n (V : zmodType) (D1 : seq ('cV[int]_n * (nat -> nat -> V))) (x y : 'cV[int]_n) (o1 o2 : nat) : V :=
  \sum_(d <- D1 | x + d.1 == y) d.2 o1 o2.
