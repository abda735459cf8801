(** What a partition of the basis states must be, independently of how it is computed. *)
From Coq Require Import List Arith Bool Lia Relations.
From Verif Require Import Base Partition.
Import ListNotations.

Section Spec.
  Variable A : Type.
  Variable is_zero : A -> bool.

  (** the matrix element <f| op |i> is present and not a zero *)
  Definition nonzero (op : cols A) (i f : nat) : Prop := exists a, In (f, a) (op i) /\ is_zero a = false.
  (** the operator maps the space into itself *)
  Definition in_space (size : nat) (op : cols A) : Prop := forall i f a, i < size -> In (f, a) (op i) -> f < size.
  (** a final state is visited once *)
  Definition once (size : nat) (op : cols A) : Prop := forall i, i < size -> NoDup (map fst (op i)).
  (** c is the conjugate of cd, as far as zeros are concerned *)
  Definition conjugate (size : nat) (cd c : cols A) : Prop :=
    forall i f, i < size -> f < size -> (nonzero cd i f <-> nonzero c f i).

  (** a nonzero matrix element of H or of the optional hybridization operator *)
  Definition h_step (size : nat) (h : cols A) (hyb : option (cols A)) (i f : nat) : Prop :=
    i < size /\ (nonzero h i f \/ match hyb with Some hy => nonzero hy i f | None => False end).
  (** chains of such elements, in either direction *)
  Definition connected (size : nat) (h : cols A) (hyb : option (cols A)) : nat -> nat -> Prop :=
    clos_refl_sym_trans nat (h_step size h hyb).

  (** One zigzag move on pairs (state, side): false = cd can be applied, true = it was.  [same]
      says which states are already in one subspace. *)
  Inductive zmove (size : nat) (same : nat -> nat -> Prop) (cd c : cols A) : nat * bool -> nat * bool -> Prop :=
  | zsame i j b : i < size -> j < size -> same i j -> zmove size same cd c (i, b) (j, b)
  | zup i f : i < size -> nonzero cd i f -> zmove size same cd c (i, false) (f, true)
  | zdown i f : i < size -> nonzero c i f -> zmove size same cd c (i, true) (f, false).
  Definition zlinked size same cd c := clos_refl_sym_trans (nat * bool) (zmove size same cd c).

  (** states joined by zigzag products of cd and c, started on either side *)
  Definition zstep (size : nat) (same : nat -> nat -> Prop) (cd c : cols A) (i j : nat) : Prop :=
    exists b, zlinked size same cd c (i, b) (j, b).
  Definition zmerged size same cd c : nat -> nat -> Prop := clos_refl_sym_trans nat (zstep size same cd c).
End Spec.

(** What is assumed of normalize_sets / compress_sets: they choose other representatives for
    the same sets. *)
Definition valid (l : labels) : Prop := forall x, x < length l -> rep l x < length l /\ rep l (rep l x) = rep l x.
Definition norm_ok (norm : labels -> labels) : Prop :=
  forall l, valid l -> length (norm l) = length l /\ valid (norm l) /\
    forall x y, x < length l -> y < length l -> (rep (norm l) x = rep (norm l) y <-> rep l x = rep l y).
