(** The Fock states of a set of orbitals, and powers of an operator. *)
From Coq Require Import NArith Arith List.
From Verif Require Import Scalar OpModel OpExpr.
Import ListNotations.

(** the Fock states of n orbitals, and those that are kept *)
Definition all_states (n : nat) : list N := map N.of_nat (seq 0 (2 ^ n)).
Definition kept_list (n : nat) (keep : N -> bool) : list N := filter keep (all_states n).

(** e^k *)
Fixpoint epow {S : scalar_ops} (e : expr S) (k : nat) : expr S :=
  match k with O => EScal k1 | Datatypes.S k' => EMul e (epow e k') end.
