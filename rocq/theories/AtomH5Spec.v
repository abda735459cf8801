(** What it means to store an atom_diag. *)
From Coq Require Import String ZArith NArith List Bool Arith Permutation.
From Verif Require Import Base Indices Scalar Fock OpModel Hilbert Hilbert_proofs RealOrComplex OpH5 OpH5Spec AtomDiag AtomH5.
Import ListNotations.
Local Open Scope nat_scope.

Section Spec.
  Context (S : scalar_ops) (E : energy_ops S).

  (** entry (i,j) of a table of matrices: None if there is no such place, Some None if the place is empty *)
  Definition entry (t : table S) (i j : nat) : option (option (mat S)) :=
    match nth_error t i with Some row => nth_error row j | None => None end.
  (** n rows of m places each *)
  Definition rectangular (n m : nat) (t : table S) : Prop := length t = n /\ Forall (fun row => length row = m) t.
  (** a place holds no matrix or one with elements *)
  Definition no_hollow (t : table S) : Prop := forall i j m, entry t i j = Some (Some m) -> 0 < m_rows m /\ 0 < m_cols m.
  (** a subspace is made by adding distinct Fock states to an empty one *)
  Definition built (s : sub_hs) : Prop := exists fs, NoDup fs /\ s = sub_adds (sub_new (sub_index s)) fs.

  (** the parts of the object fit together: one row per operator, one place per subspace in both
      tables of matrices and in both tables of connections *)
  Definition regular (nb : nat) (a : atom S E) : Prop :=
    let n := length (a_fops S E a) in
    length (a_cdconn S E a) = n /\ Forall (fun r => length r = nb) (a_cdconn S E a) /\
    length (a_cconn S E a) = n /\ Forall (fun r => length r = nb) (a_cconn S E a) /\
    rectangular n nb (a_cdmats S E a) /\ rectangular n nb (a_cmats S E a) /\
    no_hollow (a_cdmats S E a) /\ no_hollow (a_cmats S E a) /\
    Forall built (a_subs S E a) /\
    a_first S E a = fill_first S E (a_eigs S E a).

  (** what the archive has room for: a Hamiltonian of at most four operators per monomial, labels made
      of 32-bit integers and of strings without NUL, tables that [int] can index *)
  Definition fits (nb : nat) (a : atom S E) : Prop :=
    is_map (a_h S E a) /\ short (a_h S E a) /\ labels_ok (a_h S E a) /\ few (a_h S E a) /\
    Forall (Forall lbl_ok) (a_fops S E a) /\
    (Z.of_nat (length (a_fops S E a)) < 2 ^ 31)%Z /\ (Z.of_nat nb < 2 ^ 31)%Z.

  Definition storable (a : atom S E) : Prop :=
    is_map (a_h S E a) /\ short (a_h S E a) /\ labels_ok (a_h S E a) /\ few (a_h S E a) /\
    Forall (Forall lbl_ok) (a_fops S E a) /\
    (Z.of_nat (length (a_fops S E a)) < 2 ^ 31)%Z /\ Forall (fun r => (Z.of_nat (length r) < 2 ^ 31)%Z) (a_cdconn S E a).

  (** every element of the coefficients' type survives the conversion to and from the stored form *)
  Definition faithful (to_roc : S -> roc) (of_roc : roc -> res S) : Prop :=
    forall x, of_roc (let r := to_roc x in if is_real r then roc_of_d (re (val r)) else roc_of_c (val r)) = Ok x.

  (** all fields but the two tables of matrices *)
  Definition same_but_matrices (a b : atom S E) : Prop :=
    a_h S E a = a_h S E b /\ a_fops S E a = a_fops S E b /\ a_dim S E a = a_dim S E b /\ a_subs S E a = a_subs S E b /\ a_eigs S E a = a_eigs S E b /\
    a_cdconn S E a = a_cdconn S E b /\ a_cconn S E a = a_cconn S E b /\ a_gs S E a = a_gs S E b /\ a_qn S E a = a_qn S E b /\
    a_first S E a = a_first S E b /\ a_vac_index S E a = a_vac_index S E b /\ a_vac S E a = a_vac S E b.
  (** the first n rows of a table have at least m places *)
  Definition wide (n m : nat) (t : table S) : Prop := forall i row, i < n -> nth_error t i = Some row -> m <= length row.
End Spec.
