(** What it means for quantum numbers to label the blocks of a diagonalized problem. *)
From Coq Require Import ZArith NArith List Arith Bool.
From Verif Require Import Base Indices Scalar Fock OpModel OpExpr Hilbert AtomDiag AtomDiagSpec.
Import ListNotations.

Section Spec.
  Context (S : scalar_ops) (E : energy_ops S).
  Local Open Scope K_scope.
  Variable q_real : S -> E.
  Variable q_complex : S -> bool.
  Variable q_lt : E -> E -> bool.
  Variable l : fops.
  (** the operators given as quantum numbers *)
  Variable qs : list (expr S).

  (** the Fock states of the orbitals l *)
  Definition fock (f : N) : Prop := (f < 2 ^ N.of_nat (length l))%N.
  (** the quantum numbers of a Fock state : the real parts of <f| Q |f> *)
  Definition qnum (f : N) : list E := map (fun q => q_real (bracket S l q f f)) qs.

  (** What is used of the two comparisons with a tolerance. *)
  Record qn_laws : Prop := {
    ql_zero : q_complex k0 = false;
    ql_irrefl : forall x : E, q_lt x x = false }.

  (** the quantum numbers are real *)
  Definition qn_are_real : Prop := forall q f, In q qs -> fock f -> q_complex (bracket S l q f f) = false.
  (** two values of the same quantum number are equal, or further apart than the tolerance *)
  Definition qn_apart : Prop := forall q f g, In q qs -> fock f -> fock g ->
    let x := q_real (bracket S l q f f) in let y := q_real (bracket S l q g g) in x = y \/ q_lt x y = true \/ q_lt y x = true.

  (** no element of the operator changes the quantum numbers *)
  Definition conserves (e : expr S) : Prop := forall f g, fock f -> fock g -> bracket S l e g f <> k0 -> qnum g = qnum f.
  (** the quantum numbers after the operator depend on the quantum numbers before it only *)
  Definition shifts (e : expr S) : Prop := forall f f' g g', fock f -> fock f' -> fock g -> fock g' ->
    qnum f = qnum f' -> bracket S l e g f <> k0 -> bracket S l e g' f' <> k0 -> qnum g = qnum g'.

  (** the blocks are the sets of states with equal quantum numbers *)
  Definition blocks_by_qn (a : atom S E) : Prop := forall f f' b b' B B' ev ev' u u',
    block S E a b B ev u -> block S E a b' B' ev' u' -> In f B -> In f' B' -> (b = b' <-> qnum f = qnum f').
  (** the list names each value once, in the order of the first state which has it *)
  Definition qn_listed (qn : list (list E)) : Prop :=
    NoDup qn /\ (forall q, In q qn <-> exists f, fock f /\ qnum f = q) /\
    forall i j q q', (i < j)%nat -> nth_error qn i = Some q -> nth_error qn j = Some q' ->
      exists f, fock f /\ qnum f = q /\ forall f', fock f' -> qnum f' = q' -> (f < f')%N.
  (** entry number b of the list belongs to block number b (atom_diag.hpp:238-243) *)
  Definition qn_aligned (a : atom S E) (qn : list (list E)) : Prop :=
    forall b B ev u f, block S E a b B ev u -> In f B -> nth_error qn b = Some (qnum f).

  (** an operator diagonal in the Fock states which adds up weights of the occupied orbitals *)
  Definition additive (w : nat -> S) (q : expr S) : Prop := forall f g, fock f -> fock g ->
    bracket S l q g f =
      if N.eqb g f then ksum (map (fun k => if N.testbit f (N.of_nat k) then w k else k0) (seq 0 (length l))) else k0.
End Spec.
