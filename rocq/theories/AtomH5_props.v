(** Properties of the HDF5 archives of atom_diag (C84). *)
From Coq Require Import String ZArith NArith QArith Qcanon List Bool Arith Lia Permutation Sorted.
From Verif Require Import Base Indices Scalar Fock OpModel OpExpr Hilbert Hilbert_proofs RealOrComplex OpH5 OpH5Spec Partition AtomDiag AtomDiag_ex AtomQn AtomQn_ex
  AtomH5 AtomH5Spec AtomH5_proofs AtomH5_thms.
Import ListNotations.
Local Open Scope nat_scope.

Lemma storable_fits S E nb a : regular S E nb a -> storable S E a -> exists nb', regular S E nb' a /\ fits S E nb' a.
Proof.
  intros (R1 & R2 & R3 & R4 & R5 & R6 & R) (F1 & F2 & F3 & F4 & F5 & F6 & F7). destruct (a_fops S E a) as [|o l] eqn:El.
  - exists 0. unfold regular, fits. rewrite El. cbn [length] in *. destruct (a_cdconn S E a); [|discriminate R1]. destruct (a_cconn S E a); [|discriminate R3].
    destruct (a_cdmats S E a); [|destruct R5; discriminate]. destruct (a_cmats S E a); [|destruct R6; discriminate].
    split; [|repeat (split; [assumption|]); lia]. split; [reflexivity|]. split; [constructor|]. split; [reflexivity|]. split; [constructor|].
    split; [split; [reflexivity|constructor]|]. split; [split; [reflexivity|constructor]|]. exact R.
  - exists nb. unfold regular, fits. rewrite El. split; [repeat (split; [assumption|]); exact R|]. repeat (split; [assumption|]).
    destruct (a_cdconn S E a) as [|r c]; [discriminate R1|]. inversion_clear R2. inversion_clear F7. congruence.
Qed.

(** C84.  Every object made by one of the constructors, written to a file and read into a new
    object, comes back the same, in whatever order the file lists its datasets. *)
Theorem C84_round_trip : forall (S : scalar_ops) (E : energy_ops S) (to_roc : S -> roc) (of_roc : roc -> res S) (pad : nat -> nat) (listing : group S -> group S)
    (eigen : mat S -> list E * mat S) ch nm q_real q_complex q_lt (h hyb : omap S) (l : fops) (n_min n_max : Z) (qns : list (omap S)) (a : atom S E),
  (forall g, Permutation (listing g) g) -> faithful S to_roc of_roc ->
  (forall m, m_cols (snd (eigen m)) = length (fst (eigen m))) ->
  atom_diag_auto S E eigen ch nm h l = Ok a \/ atom_diag_hyb S E eigen ch nm h hyb l = Ok a \/
  atom_diag_filter S E eigen ch nm h l n_min n_max = Ok a \/ atom_diag_qn S E eigen q_real q_complex q_lt h l qns = Ok a ->
  storable S E a ->
  exists f, atom_h5_write S E to_roc a = Ok f /\ atom_h5_read S E of_roc pad listing f (atom_default S E) = Ok a.
Proof.
  intros S E to_roc of_roc pad listing eg ch nm qr qc ql h hyb l n1 n2 qns a Hp Hf He Hc Hs.
  assert (R : exists nb, regular S E nb a).
  { destruct Hc as [H|[H|[H|H]]].
    - destruct (auto_regular S E eg He ch nm _ _ _ _ _ _ H) as (nb & R & _). eauto.
    - destruct (auto_regular S E eg He ch nm _ _ _ _ _ _ H) as (nb & R & _). eauto.
    - destruct (auto_regular S E eg He ch nm _ _ _ _ _ _ H) as (nb & R & _). eauto.
    - destruct (qn_regular S E eg He qr qc ql _ _ _ _ H) as (nb & R & _). eauto. }
  destruct R as (nb0 & R0). destruct (storable_fits S E nb0 a R0 Hs) as (nb & R & F).
  destruct (thm_into S E to_roc of_roc pad listing Hp Hf nb a (atom_default S E) R F) as (f & b & W & Rd & _ & Eq & _).
  - intros i row _ H. destruct i; discriminate H.
  - intros i row _ H. destruct i; discriminate H.
  - exists f. split; [exact W|]. rewrite Rd, (Eq eq_refl eq_refl). reflexivity.
Qed.
Print Assumptions C84_round_trip.

(** Reading into an object that is in use, whose tables of matrices have room: everything is
    replaced but the matrices at the places that are empty in the file, which stay. *)
Theorem C84_read_into_object_partial : forall (S : scalar_ops) (E : energy_ops S) (to_roc : S -> roc) (of_roc : roc -> res S) (pad : nat -> nat) (listing : group S -> group S)
    (nb : nat) (a old : atom S E),
  (forall g, Permutation (listing g) g) -> faithful S to_roc of_roc -> regular S E nb a -> fits S E nb a ->
  wide S (length (a_fops S E a)) nb (a_cmats S E old) -> wide S (length (a_fops S E a)) nb (a_cdmats S E old) ->
  exists f b, atom_h5_write S E to_roc a = Ok f /\ atom_h5_read S E of_roc pad listing f old = Ok b /\ same_but_matrices S E b a /\
    forall i j, i < length (a_fops S E a) -> j < nb ->
      entry S (a_cmats S E b) i j = match entry S (a_cmats S E a) i j with
                                    | Some (Some m) => Some (Some m)
                                    | _ => if i <? length (a_cmats S E old) then entry S (a_cmats S E old) i j else Some None
                                    end /\
      entry S (a_cdmats S E b) i j = match entry S (a_cdmats S E a) i j with
                                     | Some (Some m) => Some (Some m)
                                     | _ => if i <? length (a_cdmats S E old) then entry S (a_cdmats S E old) i j else Some None
                                     end.
Proof.
  intros S E to_roc of_roc pad listing nb a old Hp Hf R F W1 W2. destruct (thm_into S E to_roc of_roc pad listing Hp Hf nb a old R F W1 W2) as (f & b & H1 & H2 & H3 & _ & H4).
  exists f, b. auto.
Qed.
Print Assumptions C84_read_into_object_partial.

(** Every constructed object is regular, so that the theorems here apply to it. *)
Theorem C84_constructed_regular : forall (S : scalar_ops) (E : energy_ops S) (eigen : mat S -> list E * mat S) ch nm q_real q_complex q_lt
    (h hyb : omap S) (l : fops) (n_min n_max : Z) (qns : list (omap S)) (a : atom S E),
  (forall m, m_cols (snd (eigen m)) = length (fst (eigen m))) ->
  atom_diag_auto S E eigen ch nm h l = Ok a \/ atom_diag_hyb S E eigen ch nm h hyb l = Ok a \/
  atom_diag_filter S E eigen ch nm h l n_min n_max = Ok a \/ atom_diag_qn S E eigen q_real q_complex q_lt h l qns = Ok a ->
  exists nb, regular S E nb a /\ a_h S E a = h /\ a_fops S E a = l.
Proof.
  intros S E eg ch nm qr qc ql h hyb l n1 n2 qns a He [H|[H|[H|H]]]; [apply (auto_regular S E eg He ch nm _ _ _ _ _ _ H)..|exact (qn_regular S E eg He qr qc ql _ _ _ _ H)].
Qed.
Print Assumptions C84_constructed_regular.

(** If a row of the old table is too short for a matrix of the file, the behaviour is undefined. *)
Theorem C84_short_rows_undefined : forall (S : scalar_ops) (E : energy_ops S) (to_roc : S -> roc) (of_roc : roc -> res S) (pad : nat -> nat) (listing : group S -> group S)
    (nb : nat) (a old : atom S E) i j m row,
  (forall g, Permutation (listing g) g) -> faithful S to_roc of_roc -> regular S E nb a -> fits S E nb a ->
  (entry S (a_cmats S E a) i j = Some (Some m) /\ nth_error (a_cmats S E old) i = Some row) \/
  (entry S (a_cdmats S E a) i j = Some (Some m) /\ nth_error (a_cdmats S E old) i = Some row) -> length row <= j ->
  exists f, atom_h5_write S E to_roc a = Ok f /\ atom_h5_read S E of_roc pad listing f old = UB.
Proof. intros S E to_roc of_roc pad listing nb a old i j m row Hp Hf. exact (thm_out S E to_roc of_roc pad listing Hp Hf nb a old i j m row). Qed.
Print Assumptions C84_short_rows_undefined.

(** A Hamiltonian with more than four operators in a monomial cannot be stored: the write throws. *)
Theorem C84_long_hamiltonian_refused : forall (S : scalar_ops) (E : energy_ops S) (to_roc : S -> roc) (a : atom S E),
  is_map (a_h S E a) -> ~ short (a_h S E a) -> atom_h5_write S E to_roc a = Throw.
Proof. exact thm_long_h. Qed.
Print Assumptions C84_long_hamiltonian_refused.

(** A file without the Hamiltonian and the quantum numbers leaves those of the object as they were. *)
Theorem C84_missing_datasets : forall (S : scalar_ops) (E : energy_ops S) (of_roc : roc -> res S) (pad : nat -> nat) (listing : group S -> group S) (f : atom_file S E) (old b : atom S E),
  f_h S E f = None -> f_qn S E f = None -> atom_h5_read S E of_roc pad listing f old = Ok b -> a_h S E b = a_h S E old /\ a_qn S E b = a_qn S E old.
Proof. exact thm_old_file. Qed.
Print Assumptions C84_missing_datasets.

(** "Reading makes the object the one in the file" is false: with H = - n_0 on one orbital, the
    object of the automatic constructor (two subspaces) is stored and read into the object that the
    constructor with n_min = n_max = 0 makes (one subspace). *)
Definition all_true (_ : labels) (_ _ : nat) : bool := true.
Definition same_labels (l : labels) : labels := l.
Definition full1 : res (atom QS QE) := atom_diag_auto QS QE eigen1 all_true same_labels (op_of ham1) orb1.
Definition part1 : res (atom QS QE) := atom_diag_filter QS QE eigen1 all_true same_labels (op_of ham1) orb1 0 0.
Definition dims (t : table QS) : list (list (option (nat * nat))) := map (map (option_map (fun m => (m_rows m, m_cols m)))) t.
Definition looks (r : res (atom QS QE)) : option (list (list (option (nat * nat))) * list (list Z) * list (list N)) :=
  match r with Ok a => Some (dims (a_cdmats QS QE a), a_cdconn QS QE a, map sub_states (a_subs QS QE a)) | _ => None end.
Lemma full1_looks : looks full1 = Some ([[None; Some (1, 1)]], [[-1; 0]]%Z, [[1]; [0]]%N).
Proof. vm_compute. reflexivity. Qed.
Lemma part1_looks : looks part1 = Some ([[None]], [[-1]]%Z, [[0]]%N).
Proof. vm_compute. reflexivity. Qed.
Lemma eigen1_columns m : m_cols (snd (eigen1 m)) = length (fst (eigen1 m)).
Proof. unfold eigen1. destruct (m_rows m) as [|[|n]]; reflexivity. Qed.
Lemma faithful_Q : faithful QS roc_of_d to_double.
Proof. intros x. reflexivity. Qed.
Lemma full1_storable a : full1 = Ok a -> storable QS QE a.
Proof.
  intros H. destruct (auto_regular QS QE eigen1 eigen1_columns all_true same_labels _ _ _ _ _ _ H) as (nb & R & Hh & Hl).
  pose proof full1_looks as X. rewrite H in X. cbn [looks] in X. injection X as _ X _.
  unfold storable. rewrite Hh, Hl, X.
  split; [repeat constructor|]. split; [repeat constructor|]. split; [repeat constructor; cbn; lia|]. split; [vm_compute; reflexivity|].
  split; [repeat constructor; cbn; lia|]. split; [cbn; lia|]. constructor; [cbn; lia|constructor].
Qed.
Theorem C84_read_replaces_refuted : exists a old : atom QS QE, full1 = Ok a /\ part1 = Ok old /\ storable QS QE a /\
  forall pad listing, (forall g, Permutation (listing g) g) ->
  exists f, atom_h5_write QS QE roc_of_d a = Ok f /\ atom_h5_read QS QE to_double pad listing f old = UB.
Proof.
  pose proof full1_looks as X. pose proof part1_looks as Y. pose proof full1_storable as Z. unfold looks in X, Y.
  destruct full1 as [a| |] eqn:Ea; [|discriminate X|discriminate X]. destruct part1 as [old| |] eqn:Eo; [|discriminate Y|discriminate Y].
  injection X as X1 X2 X3. injection Y as Y1 Y2 Y3. exists a, old. split; [reflexivity|]. split; [reflexivity|]. split; [exact (Z a eq_refl)|].
  intros pad listing Hp. destruct (auto_regular QS QE eigen1 eigen1_columns all_true same_labels _ _ _ _ _ _ Ea) as (nb0 & R0 & _).
  destruct (storable_fits QS QE nb0 a R0 (Z a eq_refl)) as (nb & R & F).
  destruct (a_cdmats QS QE a) as [|[|[|] [|[m|] [|]]] [|]] eqn:M; try discriminate X1. destruct (a_cdmats QS QE old) as [|[|[|] [|]] [|]] eqn:M'; try discriminate Y1.
  apply (thm_out QS QE roc_of_d to_double pad listing Hp faithful_Q nb a old 0 1 m [None] R F).
  - right. rewrite M, M'. split; reflexivity.
  - cbn. lia.
Qed.
Print Assumptions C84_read_replaces_refuted.

(** the hypotheses of C84_round_trip hold for this object; the matrices are stored under the names
    "0 0" and "0 1" *)
Example C84_example : (exists a, full1 = Ok a /\ storable QS QE a) /\ faithful QS roc_of_d to_double /\
  (forall m, m_cols (snd (eigen1 m)) = length (fst (eigen1 m))) /\
  match full1 with
  | Ok a => (map fst (write_sparse QS (a_cmats QS QE a)), map fst (write_sparse QS (a_cdmats QS QE a))) = (["0 0"], ["0 1"])%string
  | _ => False
  end.
Proof.
  split; [|split; [exact faithful_Q|split; [exact eigen1_columns|vm_compute; reflexivity]]].
  pose proof full1_looks as X. pose proof full1_storable as Z. unfold looks in X. destruct full1 as [a| |]; [|discriminate X|discriminate X]. exists a. split; [reflexivity|exact (Z a eq_refl)].
Qed.
