(** What the matrices of an operator in the eigenbasis must be, independently of how atom_diag
    computes them. *)
From Coq Require Import ZArith NArith List Arith Bool.
From Verif Require Import Base Indices Scalar Fock OpModel OpExpr Hilbert AtomDiag AtomDiagSpec.
Import ListNotations.

Section Spec.
  Context (S : scalar_ops) (E : energy_ops S).
  Local Open Scope K_scope.

  (** the operator written as a product of c and c^dagger *)
  Definition word (m : list cop) : expr S :=
    fold_right (fun o e => EMul (if dag o then ECdag (ind o) else EC (ind o)) e) (EScal k1) m.

  (** <B', j| e |B, i>, with |B, i> = sum_k u(k,i) |B_k> the i-th eigenvector of block B *)
  Definition element (l : fops) (e : expr S) (B' : list N) (u' : mat S) (B : list N) (u : mat S) (j i : nat) : S :=
    msum S (length B) (fun k => msum S (length B') (fun q =>
      kconj (m_at u' q j) * bracket S l e (nth q B' 0%N) (nth k B 0%N)) * m_at u k i).

  (** e has an element from a state of B to a state of B' *)
  Definition reaches (l : fops) (e : expr S) (B B' : list N) : Prop :=
    exists f f', In f B /\ In f' B' /\ bracket S l e f' f <> k0.

  (** (c, M) describes e on block b: c = -1 and M absent when e has no element from b to any
      block; otherwise c is a block, M holds the elements from b to c in the eigenbasis, and e has
      no element from b to another block. *)
  Definition describes (l : fops) (a : atom S E) (e : expr S) (b : nat) (c : Z) (om : option (mat S)) : Prop :=
    forall B ev u, block S E a b B ev u ->
    (c = (-1)%Z /\ om = None /\ forall b' B' ev' u', block S E a b' B' ev' u' -> ~ reaches l e B B') \/
    (exists b' B' ev' u' M, c = Z.of_nat b' /\ om = Some M /\ block S E a b' B' ev' u' /\
      m_rows M = length B' /\ m_cols M = length B /\
      (forall j i, (j < length B')%nat -> (i < length B)%nat -> m_at M j i = element l e B' u' B u j i) /\
      forall b2 B2 ev2 u2, block S E a b2 B2 ev2 u2 -> reaches l e B B2 -> b2 = b').

  (** get_fock_states(b) and the eigenvectors of block b *)
  Definition states_of (a : atom S E) (b : nat) : list N := match nth_error (a_subs S E a) b with Some sp => sub_states sp | None => [] end.
  Definition vectors_of (a : atom S E) (b : nat) : mat S := match nth_error (a_eigs S E a) b with Some x => umat S E x | None => mkMat 0 0 (fun _ _ => k0) end.
  (** <b', j| e |b, i> in the eigenbasis *)
  Definition elem (l : fops) (a : atom S E) (e : expr S) (b' j b i : nat) : S :=
    element l e (states_of a b') (vectors_of a b') (states_of a b) (vectors_of a b) j i.
  (** number of states of block b, and of all blocks before b *)
  Definition size_of (a : atom S E) (b : nat) : nat := length (states_of a b).
  Definition before (a : atom S E) (b : nat) : nat := fold_right Nat.add 0%nat (map (size_of a) (seq 0 b)).

  (** every monomial of the operator maps each block into at most one block *)
  Definition terms_single (l : fops) (a : atom S E) (op : omap S) : Prop :=
    forall m c, In (m, c) op -> single_target S E l a (word m).
End Spec.
