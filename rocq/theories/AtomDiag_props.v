(** Properties of the exact diagonalization atom_diag (C23, C24, C63, C64, C65). *)
From Coq Require Import ZArith NArith List Arith Bool Lia Sorted QArith Qcanon.
From Verif Require Import Base Indices Scalar Fock OpModel OpExpr OpNormal Op_proofs Hilbert StateSpec State ImpOp ImpOp_run ImpOp_thms
  Partition PartitionSpec Partition_thms Partition_imp AtomDiag AtomDiagSpec AtomDiag_lists AtomDiag_thms AtomDiag_final AtomDiag_ex.
Import ListNotations.
Local Open Scope nat_scope.

(** C63.  For every Hamiltonian e over up to 17 orbitals and every eigensolver that diagonalizes
    matrices, the constructor succeeds, and the object represents the problem (AtomDiagSpec.v):
    the blocks hold every Fock state once; in each block H = U diag(energies + gs_energy) U^dagger
    with U unitary and energies ascending; no element of H connects different blocks; energies
    start at 0; the matrices of c and c^dagger are U^dagger <.|op|.> U. *)
Theorem C63_auto_constructor :
  forall (S : scalar_ops) (E : energy_ops S) choose norm eigen (l : fops) (e : expr S) (op : omap S),
  scalar_laws S -> energy_laws S E -> norm_ok norm -> length l <= 17 -> NoDup l ->
  (forall i, uses e i -> In i l) -> eval e = Some op -> solves S E l e eigen ->
  exists a, atom_diag_auto S E eigen choose norm op l = Ok a /\ represents S E l e (fun _ => true) a.
Proof.
  intros S E ch nm eg l e op L EL N Hl Hn Hu He Sv. destruct (dim_small l Hl) as [d Hd].
  destruct (ctor_all S L E EL l d Hl Hn Hd ch nm N eg e (EScal k0) op [] Hu He (fun j F => match F with end) (scal0 S L) Sv (or_introl eq_refl)) as (a & C & R & _).
  exists a. split; [exact C|exact R].
Qed.
Print Assumptions C63_auto_constructor.

(** the constructor with a hybridization operator *)
Theorem C63_hybridization_constructor :
  forall (S : scalar_ops) (E : energy_ops S) choose norm eigen (l : fops) (e eh : expr S) (op hop : omap S),
  scalar_laws S -> energy_laws S E -> norm_ok norm -> length l <= 17 -> NoDup l ->
  (forall i, uses e i -> In i l) -> eval e = Some op -> (forall i, uses eh i -> In i l) -> eval eh = Some hop -> solves S E l e eigen ->
  exists a, atom_diag_hyb S E eigen choose norm op hop l = Ok a /\ represents S E l e (fun _ => true) a.
Proof.
  intros S E ch nm eg l e eh op hop L EL N Hl Hn Hu He Huh Heh Sv. destruct (dim_small l Hl) as [d Hd].
  destruct (ctor_all S L E EL l d Hl Hn Hd ch nm N eg e eh op hop Hu He Huh Heh Sv (or_intror Logic.I)) as (a & C & R & _).
  exists a. split; [exact C|exact R].
Qed.
Print Assumptions C63_hybridization_constructor.

(** the constructor restricted to states of n_min to n_max electrons *)
Theorem C63_filter_constructor :
  forall (S : scalar_ops) (E : energy_ops S) choose norm eigen (l : fops) (e : expr S) (op : omap S) (n_min n_max : Z),
  scalar_laws S -> energy_laws S E -> norm_ok norm -> length l <= 17 -> NoDup l ->
  (forall i, uses e i -> In i l) -> eval e = Some op -> solves S E l e eigen ->
  conserves_number S l e -> (0 <= n_min < 2 ^ 31)%Z -> (0 <= n_max < 2 ^ 31)%Z ->
  exists a, atom_diag_filter S E eigen choose norm op l n_min n_max = Ok a /\ represents S E l e (in_range (length l) n_min n_max) a.
Proof.
  intros S E ch nm eg l e op n_min n_max L EL N Hl Hn Hu He Sv Hc H1 H2. destruct (dim_small l Hl) as [d Hd].
  destruct (ctor_range S L E EL l d Hl Hn Hd ch nm N eg e (EScal k0) op [] Hu He (fun j F => match F with end) (scal0 S L) Sv n_min n_max Hc eq_refl H1 H2) as (a & C & R & _).
  exists a. split; [exact C|exact R].
Qed.
Print Assumptions C63_filter_constructor.

(** False of a negative bound: with n_min < 0 no state at all is kept (the number is compared
    as an unsigned one). *)
Theorem C63_negative_minimum_refuted :
  forall (S : scalar_ops) (E : energy_ops S) choose norm eigen (l : fops) (e : expr S) (op : omap S) (n_min n_max : Z),
  scalar_laws S -> energy_laws S E -> norm_ok norm -> length l <= 17 -> NoDup l ->
  (forall i, uses e i -> In i l) -> eval e = Some op -> solves S E l e eigen -> (- 2 ^ 31 <= n_min < 0)%Z ->
  exists a, atom_diag_filter S E eigen choose norm op l n_min n_max = Ok a /\ n_blocks S E a = 0.
Proof.
  intros S E ch nm eg l e op n_min n_max L EL N Hl Hn Hu He Sv H1. destruct (dim_small l Hl) as [d Hd].
  exact (ctor_negative S L E EL l d Hl Hn Hd ch nm N eg e (EScal k0) op [] Hu He (fun j F => match F with end) (scal0 S L) Sv n_min n_max eq_refl H1).
Qed.
Print Assumptions C63_negative_minimum_refuted.

(** The hypotheses hold of H = 9 n_0 + 16 n_1 + 12 (c+_0 c_1 + c+_1 c_0) over the rationals,
    whose blocks {1,2} and {3} have energies 0, 25 and 25. *)
Example C63_ex :
  scalar_laws QS /\ energy_laws QS QE /\ length orbs2 <= 17 /\ NoDup orbs2 /\ (forall i, uses ham2 i -> In i orbs2) /\ eval ham2 = Some ham2_op /\
  solves QS QE orbs2 ham2 eigen2 /\ conserves_number QS orbs2 ham2.
Proof.
  split; [exact QS_laws|]. split; [exact QE_laws|]. split; [cbn; lia|]. split; [repeat constructor; cbn; intuition discriminate|].
  split; [exact ham2_uses|]. split; [exact ham2_eval|]. split; [exact solves2|]. exact ham2_conserves.
Qed.
Example C63_ex_run :
  match atom_diag_filter QS QE eigen2 (fun _ _ _ => true) (fun l => l) ham2_op orbs2 1 2 with
  | Ok a => map (fun x => map this (evals QS QE x)) (a_eigs QS QE a) = [[0; 25]; [25]]%Q /\ map sub_states (a_subs QS QE a) = [[1; 2]; [3]]%N /\
            a_cdconn QS QE a = [[1; -1]; [1; -1]]%Z /\
            match op_mat QS (a_cdmats QS QE a) 0 0 with Some m => (this (m_at m 0 0), this (m_at m 0 1)) = (-3 # 5, 4 # 5)%Q | None => False end
  | _ => False
  end.
Proof. vm_compute. repeat split; reflexivity. Qed.

(** the number of Fock states kept *)
Definition kept_states (l : fops) (keep : N -> bool) : nat := length (filter (fun i => keep (N.of_nat i)) (seq 0 (2 ^ length l))).

(** The objects the automatic constructors return. *)
Inductive constructed (S : scalar_ops) (E : energy_ops S) choose norm eigen (l : fops) (e : expr S) : (N -> bool) -> atom S E -> Prop :=
| by_hyb op eh hop a : eval e = Some op -> (forall i, uses eh i -> In i l) -> eval eh = Some hop ->
    atom_diag_hyb S E eigen choose norm op hop l = Ok a -> constructed S E choose norm eigen l e (fun _ => true) a
| by_auto op a : eval e = Some op -> atom_diag_auto S E eigen choose norm op l = Ok a -> constructed S E choose norm eigen l e (fun _ => true) a
| by_filter op n_min n_max a : eval e = Some op -> conserves_number S l e -> (0 <= n_min < 2 ^ 31)%Z -> (0 <= n_max < 2 ^ 31)%Z ->
    atom_diag_filter S E eigen choose norm op l n_min n_max = Ok a ->
    constructed S E choose norm eigen l e (in_range (length l) n_min n_max) a.

Lemma constructed_facts S E ch nm eg l e keep a : scalar_laws S -> energy_laws S E -> norm_ok nm -> length l <= 17 -> NoDup l ->
  (forall i, uses e i -> In i l) -> solves S E l e eg -> constructed S E ch nm eg l e keep a ->
  exists op d, hs_dim (length l) = Ok d /\ eval e = Some op /\ represents S E l e keep a /\ aligned S E l d op a.
Proof.
  intros L EL N Hl Hn Hu Sv C. destruct (dim_small l Hl) as [d Hd]. destruct C as [op eh hop a He Huh Heh C|op a He C|op n_min n_max a He Hc H1 H2 C].
  - destruct (ctor_all S L E EL l d Hl Hn Hd ch nm N eg e eh op hop Hu He Huh Heh Sv (or_intror Logic.I)) as (a' & C' & R).
    rewrite C in C'. injection C' as <-. exists op, d. auto.
  - destruct (ctor_all S L E EL l d Hl Hn Hd ch nm N eg e (EScal k0) op [] Hu He (fun j F => match F with end) (scal0 S L) Sv (or_introl eq_refl)) as (a' & C' & R).
    change (atom_diag_auto S E eg ch nm op l = Ok a') in C'. rewrite C in C'. injection C' as <-. exists op, d. auto.
  - destruct (ctor_range S L E EL l d Hl Hn Hd ch nm N eg e (EScal k0) op [] Hu He (fun j F => match F with end) (scal0 S L) Sv n_min n_max Hc eq_refl H1 H2) as (a' & C' & R).
    rewrite C in C'. injection C' as <-. exists op, d. auto.
Qed.

Section Made.
  Variables (S : scalar_ops) (E : energy_ops S) (choose : labels -> nat -> nat -> bool) (norm : labels -> labels) (eigen : mat S -> list E * mat S)
            (l : fops) (e : expr S) (keep : N -> bool) (a : atom S E).
  Hypothesis L : scalar_laws S.
  Hypothesis EL : energy_laws S E.
  Hypothesis Nok : norm_ok norm.
  Hypothesis Hl : length l <= 17.
  Hypothesis Hn : NoDup l.
  Hypothesis Hu : forall i, uses e i -> In i l.
  Hypothesis Sv : solves S E l e eigen.
  Hypothesis C : constructed S E choose norm eigen l e keep a.

  Lemma made_flat_numbering :
    (forall b n i, dim_of S E a b = Ok n -> i < n -> exists p, flatten_subspace_index S E a b i = Ok p /\ p < kept_states l keep /\
       exists r, index_range_of_subspace S E a b = Ok r /\ fst r <= p < snd r) /\
    (forall b b' n n' i i' p, dim_of S E a b = Ok n -> dim_of S E a b' = Ok n' -> i < n -> i' < n' ->
       flatten_subspace_index S E a b i = Ok p -> flatten_subspace_index S E a b' i' = Ok p -> b = b' /\ i = i') /\
    (forall p, p < kept_states l keep -> exists b n i, dim_of S E a b = Ok n /\ i < n /\ flatten_subspace_index S E a b i = Ok p) /\
    (forall b n r, dim_of S E a b = Ok n -> index_range_of_subspace S E a b = Ok r -> snd r - fst r = n).
  Proof.
    destruct (constructed_facts S E choose norm eigen l e keep a L EL Nok Hl Hn Hu Sv C) as (op & d & Hd & He & R & (A1 & _)).
    unfold kept_states. rewrite <- (dim_pow l d Hl Hd). rewrite <- (represents_total S E l d Hl Hd e keep a R). apply flatten_bijection. exact A1.
  Qed.

  Lemma made_blocks_aligned_and_sorted :
    (forall b sp, nth_error (a_subs S E a) b = Some sp -> sub_index sp = Z.of_nat b) /\
    (forall b B ev u, block S E a b B ev u -> dim_of S E a b = Ok (length B) /\ length ev = length B /\ m_rows u = length B /\ m_cols u = length B) /\
    length (a_subs S E a) = n_blocks S E a /\
    sorted_by_energy S E a /\ energies_from_gs S E a.
  Proof.
    destruct (constructed_facts S E choose norm eigen l e keep a L EL Nok Hl Hn Hu Sv C) as (op & d & Hd & He & (R1 & R2 & R3 & _) & (A1 & _ & _ & _ & _ & A6 & A7)).
    split; [intros b sp H; apply (A6 b sp H)|]. split; [|split; [symmetry; apply R1|split; assumption]].
    intros b B ev u HB. destruct (proj1 R2 b B ev u HB) as (g & _ & D1 & D2 & D3 & _). split; [|auto].
    destruct HB as (sp & x & _ & X2 & _ & X4 & _). unfold dim_of. rewrite X2, X4, D1. reflexivity.
  Qed.

  Lemma made_no_element_lost_iff :
    forall n o, nth_error l n = Some o ->
    (no_element_lost S E l a (a_cdconn S E a) n (ECdag o) <-> single_target S E l a (ECdag o)) /\
    (no_element_lost S E l a (a_cconn S E a) n (EC o) <-> single_target S E l a (EC o)).
  Proof.
    destruct (constructed_facts S E choose norm eigen l e keep a L EL Nok Hl Hn Hu Sv C) as (op & d & Hd & He & (R1 & R2 & R3 & R4 & R5) & _).
    intros n o Ho. split; [exact (lost_iff S E l a _ _ ECdag n o R4 Ho)|exact (lost_iff S E l a _ _ EC n o R5 Ho)].
  Qed.

  Lemma made_vacuum :
    (forall b, a_vac_index S E a = Some b <-> exists B ev u, block S E a b B ev u /\ In 0%N B) /\
    (forall b i p B ev u q, block S E a b B ev u -> i < length ev -> flatten_subspace_index S E a b i = Ok p ->
       nth_error B q = Some 0%N -> nth_error (a_vac S E a) p = Some (kconj (m_at u q i))) /\
    (forall b i p B ev u, block S E a b B ev u -> i < length ev -> flatten_subspace_index S E a b i = Ok p ->
       ~ In 0%N B -> nth_error (a_vac S E a) p = Some k0).
  Proof.
    destruct (constructed_facts S E choose norm eigen l e keep a L EL Nok Hl Hn Hu Sv C) as (op & d & Hd & He & R & (A1 & _ & _ & _ & A5 & A6 & _)).
    assert (R' := R). destruct R' as ((B1 & B2 & B3 & B4) & _).
    assert (Bl : forall b sp, nth_error (a_subs S E a) b = Some sp -> exists ev u, block S E a b (sub_states sp) ev u).
    { intros b sp Hsp. destruct (nth_error_lt (a_eigs S E a) b) as [x Hx]; [rewrite B4; eapply nth_error_Some_lt; exact Hsp|]. exists (evals S E x), (umat S E x), sp, x. auto. }
    apply (vacuum_spec S E a d A1 A5).
    - intros b sp Hsp. split; [apply (A6 b sp Hsp)|]. destruct (Bl b sp Hsp) as (ev & u & HB). apply (B2 _ _ _ _ HB).
    - exact B4.
    - intros b b' sp sp' H H' I I'. destruct (Bl b sp H) as (ev & u & HB). destruct (Bl b' sp' H') as (ev' & u' & HB'). exact (B3 _ _ _ _ _ _ _ _ _ HB HB' I I').
    - rewrite (represents_total S E l d Hl Hd e keep a R). rewrite filter_length_le', seq_length. reflexivity.
  Qed.
End Made.

(** C23.  flatten_subspace_index is a bijection between the pairs (block, inner index) and
    0..N-1, where N is the number of states kept; index_range_of_subspace is the image of a
    block. *)
Theorem C23_flat_numbering :
  forall (S : scalar_ops) (E : energy_ops S) choose norm eigen (l : fops) (e : expr S) (keep : N -> bool) (a : atom S E),
  scalar_laws S -> energy_laws S E -> norm_ok norm -> length l <= 17 -> NoDup l -> (forall i, uses e i -> In i l) -> solves S E l e eigen ->
  constructed S E choose norm eigen l e keep a ->
  (forall b n i, dim_of S E a b = Ok n -> i < n -> exists p, flatten_subspace_index S E a b i = Ok p /\ p < kept_states l keep /\
     exists r, index_range_of_subspace S E a b = Ok r /\ fst r <= p < snd r) /\
  (forall b b' n n' i i' p, dim_of S E a b = Ok n -> dim_of S E a b' = Ok n' -> i < n -> i' < n' ->
     flatten_subspace_index S E a b i = Ok p -> flatten_subspace_index S E a b' i' = Ok p -> b = b' /\ i = i') /\
  (forall p, p < kept_states l keep -> exists b n i, dim_of S E a b = Ok n /\ i < n /\ flatten_subspace_index S E a b i = Ok p) /\
  (forall b n r, dim_of S E a b = Ok n -> index_range_of_subspace S E a b = Ok r -> snd r - fst r = n).
Proof. exact made_flat_numbering. Qed.
Print Assumptions C23_flat_numbering.

(** C24.  The data of a block all describe the same block (see also C63): the stored number of
    each block is its position, get_fock_states, get_energies and the eigenvectors agree on the
    dimension, blocks are sorted by their lowest energy up to the splitting of degenerate ones,
    and the lowest energy is shifted to 0. *)
Theorem C24_blocks_aligned_and_sorted :
  forall (S : scalar_ops) (E : energy_ops S) choose norm eigen (l : fops) (e : expr S) (keep : N -> bool) (a : atom S E),
  scalar_laws S -> energy_laws S E -> norm_ok norm -> length l <= 17 -> NoDup l -> (forall i, uses e i -> In i l) -> solves S E l e eigen ->
  constructed S E choose norm eigen l e keep a ->
  (forall b sp, nth_error (a_subs S E a) b = Some sp -> sub_index sp = Z.of_nat b) /\
  (forall b B ev u, block S E a b B ev u -> dim_of S E a b = Ok (length B) /\ length ev = length B /\ m_rows u = length B /\ m_cols u = length B) /\
  length (a_subs S E a) = n_blocks S E a /\
  sorted_by_energy S E a /\ energies_from_gs S E a.
Proof. exact made_blocks_aligned_and_sorted. Qed.
Print Assumptions C24_blocks_aligned_and_sorted.

(** C64.  The stored matrices of c^dagger (or c) of an orbital hold all its elements exactly
    when the operator maps each block into one block.  C22_one_to_one_refuted shows that the
    automatic partition does not guarantee this. *)
Theorem C64_no_element_lost_iff :
  forall (S : scalar_ops) (E : energy_ops S) choose norm eigen (l : fops) (e : expr S) (keep : N -> bool) (a : atom S E),
  scalar_laws S -> energy_laws S E -> norm_ok norm -> length l <= 17 -> NoDup l -> (forall i, uses e i -> In i l) -> solves S E l e eigen ->
  constructed S E choose norm eigen l e keep a ->
  forall n o, nth_error l n = Some o ->
  (no_element_lost S E l a (a_cdconn S E a) n (ECdag o) <-> single_target S E l a (ECdag o)) /\
  (no_element_lost S E l a (a_cconn S E a) n (EC o) <-> single_target S E l a (EC o)).
Proof. exact made_no_element_lost_iff. Qed.
Print Assumptions C64_no_element_lost_iff.

(** C65.  get_vacuum_subspace_index is the block that holds the vacuum Fock state, and
    get_vacuum_state is this state written in the eigenbasis: component (b, i) is the
    conjugate of the amplitude of the vacuum in eigenvector i of its block, and 0 elsewhere. *)
Theorem C65_vacuum :
  forall (S : scalar_ops) (E : energy_ops S) choose norm eigen (l : fops) (e : expr S) (keep : N -> bool) (a : atom S E),
  scalar_laws S -> energy_laws S E -> norm_ok norm -> length l <= 17 -> NoDup l -> (forall i, uses e i -> In i l) -> solves S E l e eigen ->
  constructed S E choose norm eigen l e keep a ->
  (forall b, a_vac_index S E a = Some b <-> exists B ev u, block S E a b B ev u /\ In 0%N B) /\
  (forall b i p B ev u q, block S E a b B ev u -> i < length ev -> flatten_subspace_index S E a b i = Ok p ->
     nth_error B q = Some 0%N -> nth_error (a_vac S E a) p = Some (kconj (m_at u q i))) /\
  (forall b i p B ev u, block S E a b B ev u -> i < length ev -> flatten_subspace_index S E a b i = Ok p ->
     ~ In 0%N B -> nth_error (a_vac S E a) p = Some k0).
Proof. exact made_vacuum. Qed.
Print Assumptions C65_vacuum.

Example C23_ex : exists a, constructed QS QE (fun _ _ _ => true) (fun l => l) eigen2 orbs2 ham2 (in_range 2 0 2) a /\ n_blocks QS QE a = 3 /\
  flatten_subspace_index QS QE a 2 0 = Ok 3 /\ a_vac_index QS QE a = Some 0.
Proof.
  assert (Q : match atom_diag_filter QS QE eigen2 (fun _ _ _ => true) (fun l => l) ham2_op orbs2 0 2 with
    | Ok a => n_blocks QS QE a = 3 /\ flatten_subspace_index QS QE a 2 0 = Ok 3 /\ a_vac_index QS QE a = Some 0 | _ => False end)
    by (vm_compute; auto).
  pose proof (by_filter QS QE (fun _ _ _ => true) (fun l => l) eigen2 orbs2 ham2 ham2_op 0 2) as H.
  revert Q H. generalize (atom_diag_filter QS QE eigen2 (fun _ _ _ => true) (fun l => l) ham2_op orbs2 0 2). intros r Q H.
  destruct r as [a| |]; [|destruct Q..]. exists a. split; [|exact Q].
  apply (H a ham2_eval ham2_conserves); [split; [discriminate|reflexivity]|split; [discriminate|reflexivity]|reflexivity].
Qed.
