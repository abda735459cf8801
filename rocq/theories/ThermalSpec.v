(** Thermal averages, independently of any diagonalization: the exponential of an operator is the
    limit of its power series. *)
From Coq Require Import ZArith NArith List Bool Reals.
From Coquelicot Require Import Coquelicot.
From Verif Require Import Base Scalar Hilbert OpModel OpExpr AtomDiagSpec FockSpec.
Import ListNotations.

(** a 0 + a 1 + a 2 + ... = z *)
Definition sums_to (a : nat -> C) (z : C) : Prop :=
  is_series (fun k => fst (a k)) (fst z) /\ is_series (fun k => snd (a k)) (snd z).
Definition csum {A} (xs : list A) (f : A -> C) : C := fold_right (fun x z => Cplus (f x) z) (RtoC 0) xs.

Section Spec.
  Context (S : scalar_ops) (val : S -> C) (l : fops) (keep : N -> bool).
  Notation kept := (kept_list (length l) keep).

  (** X is the matrix of exp(t e) on the kept Fock states *)
  Definition exponential (e : expr S) (t : R) (X : N -> N -> C) : Prop :=
    forall g f, In g kept -> In f kept ->
      sums_to (fun k => Cmult (RtoC (t ^ k / INR (fact k))) (val (bracket S l (epow e k) g f))) (X g f).
  (** sum of the diagonal elements over the kept Fock states *)
  Definition trace_kept (X : N -> N -> C) : C := csum kept (fun f => X f f).
  (** Tr(X o) over the kept Fock states *)
  Definition trace_with (X : N -> N -> C) (o : expr S) : C :=
    csum kept (fun f => csum kept (fun g => Cmult (X f g) (val (bracket S l o g f)))).
End Spec.
