(** Specification: fermionic Fock space (independent of the code).

    A Fock state is a set of occupied modes, written as a binary number.  The
    basis convention is that of hilbert_space/imperative_operator.hpp:58-59 :
    |i1 < ... < ik> = c+_i1 ... c+_ik |vacuum>.  Hence c_p and c+_p acting on a
    state give the sign (-1)^(number of occupied modes below p). *)
From Coq Require Import ZArith NArith List Bool.
From Verif Require Import Indices Scalar.
Import ListNotations.

(** A canonical operator: creation ([dag = true]) or annihilation. *)
Record cop : Type := mkCop { dag : bool; ind : indices }.

(** parity of the number of occupied modes strictly below p *)
Fixpoint par_below (f : N) (p : nat) : bool :=
  match p with
  | O => false
  | S q => xorb (par_below f q) (N.testbit f (N.of_nat q))
  end.

Section Action.
  (** mode of each index *)
  Variable pos : indices -> nat.

  (** action on a basis state: None is the zero vector, otherwise (minus?, state) *)
  Definition act_cop (o : cop) (f : N) : option (bool * N) :=
    let p := pos (ind o) in
    let b := N.testbit f (N.of_nat p) in
    if dag o then (if b then None else Some (par_below f p, N.setbit f (N.of_nat p)))
    else (if b then Some (par_below f p, N.clearbit f (N.of_nat p)) else None).

  (** a product of canonical operators acts from right to left *)
  Fixpoint act (m : list cop) (f : N) : option (bool * N) :=
    match m with
    | [] => Some (false, f)
    | o :: m' =>
        match act m' f with
        | None => None
        | Some (s, f1) =>
            match act_cop o f1 with
            | None => None
            | Some (s', f2) => Some (xorb s s', f2)
            end
        end
    end.

  Context {S : scalar_ops}.
  Definition sgn (s : bool) : S := if s then kopp k1 else k1.

  (** matrix element <g| m |f> of a product of canonical operators *)
  Definition mel_mono (m : list cop) (f g : N) : S :=
    match act m f with
    | Some (s, f') => if N.eqb f' g then sgn s else k0
    | None => k0
    end.

  (** matrix element of a linear combination of products *)
  Fixpoint mel (a : list (list cop * S)) (f g : N) : S :=
    match a with
    | [] => k0
    | (m, c) :: a' => kadd (kmul c (mel_mono m f g)) (mel a' f g)
    end.

  (** Finite vectors: formal linear combinations of basis states. *)
  Definition vec : Type := list (S * N).
  Fixpoint amp (v : vec) (g : N) : S :=
    match v with
    | [] => k0
    | (a, f) :: v' => kadd (if N.eqb f g then a else k0) (amp v' g)
    end.
  Definition apply_mono (m : list cop) (c : S) (v : vec) : vec :=
    flat_map (fun af : S * N =>
      match act m (snd af) with
      | Some (s, f') => [(kmul (kmul c (sgn s)) (fst af), f')]
      | None => []
      end) v.
  Definition apply (a : list (list cop * S)) (v : vec) : vec :=
    flat_map (fun mc => apply_mono (fst mc) (snd mc) v) a.

  (** two operators are the same linear map *)
  Definition same_map (a b : list (list cop * S)) : Prop :=
    forall v g, amp (apply a v) g = amp (apply b v) g.
End Action.
