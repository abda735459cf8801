(** Specification: what the objects of State.v stand for. *)
From Coq Require Import ZArith NArith List Bool Lia.
From Verif Require Import Base Indices Scalar Fock Hilbert State.
Import ListNotations.

(** The Fock states spanning a space, in index order. *)
Definition basis (h : space) : list N :=
  match h with
  | Full d => map N.of_nat (seq 0 (Z.to_nat d))
  | Sub s => sub_states s
  end.

(** Spaces a program can build: the full space of up to 30 orbitals (the dimension is a
    C++ int), or a subspace filled by adding distinct Fock states. *)
Definition space_ok (h : space) : Prop :=
  match h with
  | Full d => exists n, (n <= 30)%nat /\ hs_dim n = Ok d
  | Sub s => exists idx fs, NoDup fs /\ s = sub_adds (sub_new idx) fs
  end.

Section Spec.
  Context {S : scalar_ops}.
  (** the amplitude stored at index i *)
  Definition st_coef (st : state S) (i : nat) : S :=
    match st_amps st with
    | AMap m => match a_find i m with Some a => a | None => k0 end
    | AVec v => nth i v k0
    end.
  (** a state as a linear combination of Fock states *)
  Definition st_vec (st : state S) : list (S * N) :=
    combine (map (st_coef st) (seq 0 (length (basis (st_sp st))))) (basis (st_sp st)).
  (** the amplitude of a Fock state *)
  Definition amplitude (st : state S) (g : N) : S := amp (st_vec st) g.
  (** storage is consistent with the space *)
  Definition st_ok (st : state S) : Prop :=
    space_ok (st_sp st) /\
    match st_amps st with
    | AMap m => NoDup (map fst m) /\ Forall (fun ia => (fst ia < length (basis (st_sp st)))%nat) m
    | AVec v => length v = length (basis (st_sp st))
    end.
  Definition same_kind (s t : state S) : Prop :=
    match st_amps s, st_amps t with AMap _, AMap _ => True | AVec _, AVec _ => True | _, _ => False end.
End Spec.
