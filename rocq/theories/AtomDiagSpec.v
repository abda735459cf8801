(** What an exact diagonalization must provide, independently of how atom_diag computes it. *)
From Coq Require Import ZArith NArith List Arith Bool Sorted.
From Verif Require Import Base Indices Scalar Fock OpModel OpExpr Hilbert ImpOp_run AtomDiag.
Import ListNotations.

(** number of electrons of a Fock state of n orbitals *)
Definition particles (n : nat) (f : N) : nat := length (filter (fun k => N.testbit f (N.of_nat k)) (seq 0 n)).
Definition in_range (n : nat) (n_min n_max : Z) (f : N) : bool :=
  (n_min <=? Z.of_nat (particles n f))%Z && (Z.of_nat (particles n f) <=? n_max)%Z.

Section Spec.
  Context (S : scalar_ops) (E : energy_ops S).
  Local Open Scope K_scope.

  (** f 0 + ... + f (n-1) *)
  Definition msum (n : nat) (f : nat -> S) : S := ksum (map f (seq 0 n)).
  Definition delta (i j : nat) : S := if (i =? j)%nat then k1 else k0.

  (** matrix element <g| e |f> of an operator expression; orbital number p is the p-th of l *)
  Definition bracket (l : fops) (e : expr S) (g f : N) : S := amp (meaning (mode l) e [(k1, f)]) g.

  Definition unitary (n : nat) (u : nat -> nat -> S) : Prop :=
    forall i j, (i < n)%nat -> (j < n)%nat ->
      msum n (fun k => kconj (u k i) * u k j) = delta i j /\ msum n (fun k => u i k * kconj (u j k)) = delta i j.

  (** no later entry is smaller *)
  Definition ascending (ev : list E) : Prop :=
    forall a b x y, (a < b)%nat -> nth_error ev a = Some x -> nth_error ev b = Some y -> e_lt y x = false.
  Definition energy (ev : list E) (a : nat) : S := match nth_error ev a with Some x => e_emb x | None => k0 end.

  (** m = U diag(ev + e0) U^dagger with U unitary and ev ascending *)
  Definition decomposes (n : nat) (m : nat -> nat -> S) (ev : list E) (u : mat S) (e0 : S) : Prop :=
    length ev = n /\ m_rows u = n /\ m_cols u = n /\ unitary n (m_at u) /\ ascending ev /\
    forall j i, (j < n)%nat -> (i < n)%nat ->
      m j i = msum n (fun a => m_at u j a * (energy ev a + e0) * kconj (m_at u i a)).

  (** the laws of the eigenvalue type that are used *)
  Record energy_laws : Prop := {
    el_irrefl : forall x : E, e_lt x x = false;
    el_trans : forall x y z : E, e_lt x y = true -> e_lt y z = true -> e_lt x z = true;
    el_total : forall x y : E, e_lt x y = false -> e_lt y x = false -> x = y;
    el_sub_lt : forall x y g : E, e_lt (e_sub x g) (e_sub y g) = e_lt x y;
    el_emb_sub : forall x g : E, e_emb (e_sub x g) + e_emb g = e_emb x }.

  (** No nonzero matrix element of e leads out of the set of states B. *)
  Definition closed_set (l : fops) (e : expr S) (B : list N) : Prop :=
    forall f g, In f B -> (g < 2 ^ N.of_nat (length l))%N -> ~ In g B -> bracket l e g f = k0.

  (** the operator keeps the number of electrons *)
  Definition conserves_number (l : fops) (e : expr S) : Prop :=
    forall f g, (f < 2 ^ N.of_nat (length l))%N -> (g < 2 ^ N.of_nat (length l))%N ->
      bracket l e g f <> k0 -> particles (length l) g = particles (length l) f.

  (** What is assumed of the eigensolver: it diagonalizes the matrix of the Hamiltonian on every
      set of states, in increasing order, which the Hamiltonian does not leave. *)
  Definition solves (l : fops) (e : expr S) (eigen : mat S -> list E * mat S) : Prop :=
    forall (B : list N) (m : mat S),
      B <> [] -> StronglySorted N.lt B -> (forall f, In f B -> (f < 2 ^ N.of_nat (length l))%N) -> closed_set l e B ->
      m_rows m = length B -> m_cols m = length B ->
      (forall j i fj fi, nth_error B j = Some fj -> nth_error B i = Some fi -> m_at m j i = bracket l e fj fi) ->
      decomposes (length B) (m_at m) (fst (eigen m)) (snd (eigen m)) k0.

  (** ---- observers of a diagonalized problem ---- *)
  (** the Fock states of block b (get_fock_states), its energies and eigenvectors *)
  Definition block (a : atom S E) (b : nat) (B : list N) (ev : list E) (u : mat S) : Prop :=
    exists sp es, nth_error (a_subs S E a) b = Some sp /\ nth_error (a_eigs S E a) b = Some es /\
      sub_states sp = B /\ evals S E es = ev /\ umat S E es = u.
  (** cdag_connection / c_connection *)
  Definition connection (conn : list (list Z)) (n b : nat) : option Z :=
    match nth_error conn n with Some row => nth_error row b | None => None end.
  Definition op_mat (ms : list (list (option (mat S)))) (n b : nat) : option (mat S) :=
    match nth_error ms n with Some row => match nth_error row b with Some o => o | None => None end | None => None end.

  (** The blocks hold every state of [keep] once, and nothing else; a block lists its states in
      increasing order. *)
  Definition blocks_cover (n : nat) (keep : N -> bool) (a : atom S E) : Prop :=
    (forall f, (exists b B ev u, block a b B ev u /\ In f B) <-> (f < 2 ^ N.of_nat n)%N /\ keep f = true) /\
    (forall b B ev u, block a b B ev u -> StronglySorted N.lt B /\ B <> []) /\
    (forall b b' B B' ev ev' u u' f, block a b B ev u -> block a b' B' ev' u' -> In f B -> In f B' -> b = b') /\
    length (a_eigs S E a) = length (a_subs S E a).

  (** In each block H = U diag(energies + gs_energy) U^dagger, and no element of H connects
      different blocks. *)
  Definition hamiltonian_represented (l : fops) (e : expr S) (a : atom S E) : Prop :=
    (forall b B ev u, block a b B ev u ->
       exists g, a_gs S E a = Some g /\
       decomposes (length B) (fun j i => bracket l e (nth j B 0%N) (nth i B 0%N)) ev u (e_emb g)) /\
    (forall b b' B B' ev ev' u u' f f', block a b B ev u -> block a b' B' ev' u' -> In f B -> In f' B' -> b <> b' ->
       bracket l e f' f = k0).

  (** Energies are relative to the ground state: none is below zero, and zero occurs. *)
  Definition energies_from_gs (a : atom S E) : Prop :=
    forall g, a_gs S E a = Some g ->
    (exists b B ev u, block a b B ev u /\ nth_error ev 0 = Some (e_sub g g)) /\
    (forall b B ev u x, block a b B ev u -> In x ev -> e_lt x (e_sub g g) = false).

  (** c or c^dagger of orbital number n: the connection of block b is -1 exactly when the operator
      has no element from b to any block; else it is a block b' with such an element, and the
      stored matrix is U_b'^dagger <.|op|.> U_b. *)
  Definition operator_represented (l : fops) (a : atom S E) (conn : list (list Z)) (mats : list (list (option (mat S))))
    (op : indices -> expr S) : Prop :=
    forall n o b B ev u, nth_error l n = Some o -> block a b B ev u ->
    exists c, connection conn n b = Some c /\
    ((c = (-1)%Z /\ op_mat mats n b = None /\
      forall b' B' ev' u' f f', block a b' B' ev' u' -> In f B -> In f' B' -> bracket l (op o) f' f = k0) \/
     (exists b' B' ev' u' M, c = Z.of_nat b' /\ block a b' B' ev' u' /\ op_mat mats n b = Some M /\
      (exists f f', In f B /\ In f' B' /\ bracket l (op o) f' f <> k0) /\
      m_rows M = length B' /\ m_cols M = length B /\
      forall j i, (j < length B')%nat -> (i < length B)%nat ->
        m_at M j i = msum (length B) (fun k => msum (length B') (fun q =>
          kconj (m_at u' q j) * bracket l (op o) (nth q B' 0%N) (nth k B 0%N)) * m_at u k i))).

  (** a represents the problem H = e on the states of keep *)
  Definition represents (l : fops) (e : expr S) (keep : N -> bool) (a : atom S E) : Prop :=
    blocks_cover (length l) keep a /\ hamiltonian_represented l e a /\ energies_from_gs a /\
    operator_represented l a (a_cdconn S E a) (a_cdmats S E a) ECdag /\
    operator_represented l a (a_cconn S E a) (a_cmats S E a) EC.

  (** Blocks are ordered by their lowest energy, up to a multiple num b of the splitting which
      tells degenerate blocks apart; x is the energy before the shift. *)
  Definition sorted_by_energy (a : atom S E) : Prop :=
    exists num : nat -> nat, (forall b b', (b < n_blocks S E a)%nat -> (b' < n_blocks S E a)%nat -> num b = num b' -> b = b') /\
    (forall b, (b < n_blocks S E a)%nat -> (num b < n_blocks S E a)%nat) /\
    forall g b b' B B' ev ev' u u' x x', a_gs S E a = Some g -> (b < b')%nat -> block a b B ev u -> block a b' B' ev' u' ->
      nth_error ev 0 = Some (e_sub x g) -> nth_error ev' 0 = Some (e_sub x' g) ->
      e_lt (e_add x' (e_split E (num b'))) (e_add x (e_split E (num b))) = false.

  (** the operator has elements from block b to at most one block *)
  Definition single_target (l : fops) (a : atom S E) (op : expr S) : Prop :=
    forall b b1 b2 B B1 B2 ev ev1 ev2 u u1 u2 f f' g1 g2,
      block a b B ev u -> block a b1 B1 ev1 u1 -> block a b2 B2 ev2 u2 -> In f B -> In f' B -> In g1 B1 -> In g2 B2 ->
      bracket l op g1 f <> k0 -> bracket l op g2 f' <> k0 -> b1 = b2.
  (** every element of the operator is in the block its connection names *)
  Definition no_element_lost (l : fops) (a : atom S E) (conn : list (list Z)) (n : nat) (op : expr S) : Prop :=
    forall b b' B B' ev ev' u u' f f', block a b B ev u -> block a b' B' ev' u' -> In f B -> In f' B' ->
      bracket l op f' f <> k0 -> connection conn n b = Some (Z.of_nat b').
End Spec.
