(** Green's functions of a Hamiltonian, independently of the code: traces of products of
    exponentials (ThermalSpec.v) and of operators, Legendre polynomials. *)
From Coq Require Import ZArith NArith String List Bool Reals.
From Coquelicot Require Import Coquelicot.
From Verif Require Import Base Indices Scalar Hilbert OpModel OpExpr AtomDiag AtomDiagSpec AtomDiagOpsSpec FockSpec RealAtom Thermal ThermalSpec.
Import ListNotations.

(** Tr(Y A X B) over the kept Fock states *)
Definition trace4 (S : scalar_ops) (val : S -> C) (l : fops) (keep : N -> bool) (Y : N -> N -> C) (A : expr S) (X : N -> N -> C) (B : expr S) : C :=
  let kept := kept_list (length l) keep in
  csum kept (fun f => csum kept (fun f' => csum kept (fun g' => csum kept (fun g =>
    Cmult (Cmult (Y f f') (val (bracket S l A f' g'))) (Cmult (X g' g) (val (bracket S l B g f))))))).

(** orbital i of the block called name *)
Definition orbital (name : string) (i : nat) : indices := [LStr name; LInt (Z.of_nat i)].

Definition pair_dec (x y : nat * nat) : {x = y} + {x <> y}.
Proof. decide equality; apply Nat.eq_dec. Defined.

Section Residues.
  Context (S : scalar_ops) (inj : R -> S).
  Notation E := (RE S inj).
  (** get_eigenvalue(b, i) *)
  Definition energy_at (a : atom S E) (b i : nat) : R := match nth_error (a_eigs S E a) b with Some x => nth i (evals S E x) 0%R | None => 0%R end.
  (** the residue of the pair of eigenstates (b, i), (b', j) in <A(tau) B(0)> *)
  Definition residue (l : fops) (a : atom S E) (beta : R) (A B : expr S) (b i b' j : nat) : S :=
    kmul (kmul (inj ((exp (- beta * energy_at a b i) + exp (- beta * energy_at a b' j)) / partition_function S inj a beta))
           (elem S E l a A b i b' j)) (elem S E l a B b' j b i).
  (** what a pair of eigenstates adds to a Green's function with one-pole function phi: nothing if one
      of the two states is excluded or if the residue is smaller than 2^-52 *)
  Definition pair_value (val : S -> C) (l : fops) (a : atom S E) (beta : R) (excluded : list (nat * nat)) (A B : expr S) (phi : R -> C) (b i b' j : nat) : C :=
    if in_dec pair_dec (b, i) excluded then RtoC 0 else
    if in_dec pair_dec (b', j) excluded then RtoC 0 else
    if Rlt_dec (Cmod (val (residue l a beta A B b i b' j))) (/ 2 ^ 52) then RtoC 0 else
    Cmult (val (residue l a beta A B b i b' j)) (phi (energy_at a b' j - energy_at a b i)%R).
  (** the sum over all pairs of eigenstates *)
  Definition sum_pairs (a : atom S E) (f : nat -> nat -> nat -> nat -> C) : C :=
    csum (seq 0 (n_blocks S E a)) (fun b => csum (seq 0 (size_of S E a b)) (fun i => csum (seq 0 (n_blocks S E a)) (fun b' => csum (seq 0 (size_of S E a b')) (fun j => f b i b' j)))).
  (** the orbitals of the Green's function are orbitals of the problem, and c, c^dagger map each block
      to at most one block (property C22) *)
  Definition gf_orbitals (gs : list (string * nat)) (l : fops) (a : atom S E) : Prop :=
    forall name n i, In (name, n) gs -> (i < n)%nat ->
      In (orbital name i) l /\ single_target S E l a (EC (orbital name i)) /\ single_target S E l a (ECdag (orbital name i)).
End Residues.

(** Legendre polynomials by Bonnet's recursion: (P_n, P_n+1) *)
Fixpoint legendre_pair (n : nat) (t : R) : R * R :=
  match n with
  | O => (1, t)%R
  | S m => let '(p, q) := legendre_pair m t in (q, ((2 * INR m + 3) * t * q - (INR m + 1) * p) / (INR m + 2))%R
  end.
Definition legendre_P (n : nat) (t : R) : R := fst (legendre_pair n t).

(** the integral of f from x to y is z *)
Definition cintegral (f : R -> C) (x y : R) (z : C) : Prop :=
  is_RInt (fun t => fst (f t)) x y (fst z) /\ is_RInt (fun t => snd (f t)) x y (snd z).
(** exp(i t) *)
Definition cis (t : R) : C := (cos t, sin t).
