(** Properties C20, C21, C22 : automatic partition of the Hilbert space.
    Everywhere [choose] and [norm] are the choices of representatives made by
    boost::disjoint_sets (any, see Partition.v); [connected], [zmerged], [nonzero] are defined in
    PartitionSpec.v, [element] (the matrix element of an operator expression) in Partition_imp.v. *)
From Coq Require Import ZArith NArith List Arith Bool Lia Relations.
From Verif Require Import Base Indices Scalar Fock OpModel OpExpr Hilbert State ImpOp ImpOp_run ImpOp_thms ScalarInst
  Partition PartitionSpec Partition_proofs Partition_merge Partition_imp Partition_thms.
Import ListNotations.
Local Open Scope nat_scope.

(** C20.  Two states are in one subspace iff a chain of nonzero elements of H (or of the
    optional hybridization operator) connects them. *)
Theorem C20_same_subspace_iff_connected :
  forall (A : Type) (is_zero : A -> bool) choose norm (n : nat) (h : cols A) (hyb : option (cols A)) (store : bool),
  norm_ok norm -> in_space A n h -> match hyb with Some hy => in_space A n hy | None => True end ->
  let s := sp_new A is_zero choose norm n h store hyb in
  forall i j, i < n -> j < n -> (lookup_basis_state s i = lookup_basis_state s j <-> connected A is_zero n h hyb i j).
Proof.
  intros A z ch nm n h hyb st N H1 H2 s i j Hi Hj.
  destruct (new_indexed A z ch nm N n h hyb st H1 H2) as [I K]. rewrite (lookup_same A n) by assumption. apply K; assumption.
Qed.
Print Assumptions C20_same_subspace_iff_connected.

(** C20.  Subspaces are numbered 0 .. n_subspaces-1, all numbers are used, and a smaller number
    means a smaller first state. *)
Theorem C20_numbering :
  forall (A : Type) (is_zero : A -> bool) choose norm (n : nat) (h : cols A) (hyb : option (cols A)) (store : bool),
  norm_ok norm -> in_space A n h -> match hyb with Some hy => in_space A n hy | None => True end ->
  let s := sp_new A is_zero choose norm n h store hyb in
  (forall i, i < n -> lookup_basis_state s i < n_subspaces s) /\
  (forall k, k < n_subspaces s -> exists i, i < n /\ lookup_basis_state s i = k) /\
  (forall k k', k < k' -> k' < n_subspaces s -> exists i, i < n /\ lookup_basis_state s i = k /\
     forall j, j < n -> lookup_basis_state s j = k' -> i < j).
Proof.
  intros A z ch nm n h hyb st N H1 H2 s.
  destruct (new_indexed A z ch nm N n h hyb st H1 H2) as [I _]. split; [|split].
  - intros i Hi. eapply lookup_lt; eassumption.
  - intros k Hk. eapply lookup_onto; eassumption.
  - intros k k' Hk Hk'. eapply lookup_order; eassumption.
Qed.
Print Assumptions C20_numbering.

(** C20.  The same for an operator expression on the full space of up to 17 orbitals (beyond,
    see C17), with exact arithmetic: connection by nonzero matrix elements <f|H|i>. *)
Theorem C20_of_operator :
  forall (S : scalar_ops) (L : scalar_laws S) choose norm (l : fops) (d : Z) (e : expr S) (op : omap S) (store : bool),
  norm_ok norm -> length l <= 17 -> hs_dim (length l) = Ok d -> (forall i, uses e i -> In i l) -> eval e = Some op ->
  let s := sp_new S kisz choose norm (Z.to_nat d) (imp_cols S l op d) store None in
  forall i j, i < Z.to_nat d -> j < Z.to_nat d ->
    (lookup_basis_state s i = lookup_basis_state s j <->
     clos_refl_sym_trans nat (fun i f => i < Z.to_nat d /\ f < Z.to_nat d /\ element S l e i f <> k0) i j).
Proof.
  intros S L ch nm l d e op st N Hl Hd Hu He s i j Hi Hj.
  destruct (cols_spec S L l d Hl Hd e op Hu He) as (H1 & _ & _).
  unfold s. rewrite (C20_same_subspace_iff_connected S kisz ch nm (Z.to_nat d) (imp_cols S l op d) None st N H1 Logic.I i j Hi Hj).
  assert (Q : forall i f, h_step S kisz (Z.to_nat d) (imp_cols S l op d) None i f <-> i < Z.to_nat d /\ f < Z.to_nat d /\ element S l e i f <> k0).
  { intros a b. unfold h_step. split.
    - intros [Ha [H|[]]]. split; [exact Ha|]. apply (cols_nonzero S L l d Hl Hd e op Hu He a b Ha). exact H.
    - intros [Ha H]. split; [exact Ha|]. left. apply (cols_nonzero S L l d Hl Hd e op Hu He a b Ha). exact H. }
  clear Hi Hj. split; (induction 1 as [x y H|x|x y _ IH|x y z _ IH1 _ IH2];
    [apply rst_step, Q, H|apply rst_refl|apply rst_sym, IH|eapply rst_trans; eassumption]).
Qed.
Print Assumptions C20_of_operator.

(** C20.  get_matrix_elements holds exactly the nonzero elements of H when they are stored and no
    hybridization operator is given. *)
Theorem C20_stored_elements :
  forall (A : Type) (is_zero : A -> bool) choose norm (n : nat) (h : cols A),
  once A n h ->
  forall i f a, i < n ->
    (e_get (get_matrix_elements (sp_new A is_zero choose norm n h true None)) (i, f) = Some a <-> In (f, a) (h i) /\ is_zero a = false).
Proof.
  intros A z ch nm n h Ho i f a Hi. unfold get_matrix_elements. rewrite new_elems.
  rewrite put_cols_spec; [|apply seq_NoDup|apply Ho; exact Hi]. split; [tauto|]. intros H. split; [apply in_seq; lia|exact H].
Qed.
Print Assumptions C20_stored_elements.

(** With a hybridization operator its elements replace those of H. *)
Definition one_elem (a : Z) : cols Z := fun i => match i with 0 => [(1, a)] | 1 => [(0, a)] | _ => [] end.
Theorem C20_elements_with_hybridization_refuted :
  forall choose norm, exists (h hy : cols Z) n, in_space Z n h /\ in_space Z n hy /\
    In (1, 2%Z) (h 0) /\ e_get (get_matrix_elements (sp_new Z (Z.eqb 0) choose norm n h true (Some hy))) (0, 1) = Some 7%Z.
Proof.
  intros ch nm. exists (one_elem 2), (one_elem 7), 2.
  assert (P : forall a, in_space Z 2 (one_elem a)).
  { intros a i f x Hi H. destruct i as [|[|i]]; cbn in H; [| |lia]; destruct H as [H|[]]; injection H as <- <-; lia. }
  split; [apply P|]. split; [apply P|]. split; [left; reflexivity|].
  unfold sp_new, get_matrix_elements.
  assert (G : forall l, exists l', fold_left (phase1_step Z (Z.eqb 0) ch true (one_elem 2) (Some (one_elem 7))) [0; 1] (l, []) =
     (l', [((0, 1), 7%Z); ((1, 0), 7%Z)])) by (intros l; eexists; cbv -[link rep Nat.eqb negb]; reflexivity).
  destruct (G (singletons 2)) as [l' E]. change (seq 0 2) with [0; 1]. rewrite E. reflexivity.
Qed.
Print Assumptions C20_elements_with_hybridization_refuted.

(** two electrons hopping between two orbitals, and a third orbital: components {0} {1,2} {3} ... *)
Definition hop3 : expr ZS := EAdd (EMul (ECdag (orb 0)) (EC (orb 1))) (EMul (ECdag (orb 1)) (EC (orb 0))).
Example C20_ex : let l := map orb (seq 0 3) in
  norm_ok (fun x => x) /\ length l <= 17 /\ hs_dim (length l) = Ok 8%Z /\ (forall i, uses hop3 i -> In i l) /\
  exists op, eval hop3 = Some op /\
  map (lookup_basis_state (sp_new ZS kisz (fun _ _ _ => true) (fun x => x) 8 (imp_cols ZS l op 8) true None)) (seq 0 8)
  = [0; 1; 1; 2; 3; 4; 4; 5].
Proof.
  split; [exact norm_id_ok|]. split; [apply Nat.leb_le; reflexivity|]. split; [reflexivity|]. split.
  { assert (M : forall k, (k = 0 \/ k = 1) -> In (orb k) (map orb (seq 0 3))) by (intros k [->| ->]; vm_compute; auto).
    intros i H. unfold hop3 in H. cbn [uses] in H. intuition (subst; apply M; auto). }
  eexists. split; [vm_compute; reflexivity|]. vm_compute; reflexivity.
Qed.

(** C21.  After the constructor and any number of merges, one more merge ends, only joins
    subspaces, keeps every nonzero element of H inside a subspace, renumbers as in C20, and
    returns exactly the nonzero elements of the two operators. *)
Theorem C21_merge :
  forall (A : Type) (is_zero : A -> bool) choose norm (n : nat) (h : cols A) (hyb : option (cols A)) (store : bool)
         (ops : list (cols A * cols A)) (cd c : cols A),
  norm_ok norm -> in_space A n h -> match hyb with Some hy => in_space A n hy | None => True end ->
  op_pairs_ok A is_zero n ((cd, c) :: ops) -> once A n cd -> once A n c ->
  exists s s' m_cd m_c,
    merges A is_zero choose norm (sp_new A is_zero choose norm n h store hyb) ops = Some s /\
    merge_subspaces A is_zero choose norm s cd c true = Some (s', (m_cd, m_c)) /\
    (forall i j, i < n -> j < n -> lookup_basis_state s i = lookup_basis_state s j -> lookup_basis_state s' i = lookup_basis_state s' j) /\
    (forall i f, h_step A is_zero n h hyb i f -> lookup_basis_state s' i = lookup_basis_state s' f) /\
    (forall i, i < n -> lookup_basis_state s' i < n_subspaces s') /\
    (forall k, k < n_subspaces s' -> exists i, i < n /\ lookup_basis_state s' i = k) /\
    (forall k k', k < k' -> k' < n_subspaces s' -> exists i, i < n /\ lookup_basis_state s' i = k /\
       forall j, j < n -> lookup_basis_state s' j = k' -> i < j) /\
    (forall i f a, i < n -> (e_get m_cd (i, f) = Some a <-> In (f, a) (cd i) /\ is_zero a = false)) /\
    (forall i f a, i < n -> (e_get m_c (i, f) = Some a <-> In (f, a) (c i) /\ is_zero a = false)) /\
    get_matrix_elements s' = get_matrix_elements (sp_new A is_zero choose norm n h store hyb).
Proof.
  intros A z ch nm n h hyb st ops cd c N H1 H2 Ho O1 O2.
  destruct (new_indexed A z ch nm N n h hyb st H1 H2) as [I K].
  destruct (merges_indexed A z n ch nm N ops (sp_new A z ch nm n h st hyb)) as (s & E & Is & Ms & Ks).
  { intros a b Hab. apply Ho. right; exact Hab. } { exact I. }
  destruct (Ho cd c) as (P1 & P2 & P3); [left; reflexivity|].
  destruct (merge_ok A z ch nm N n s cd c true Is P1 P2 P3) as (s' & m & m' & E' & I' & M' & -> & -> & K').
  eexists s, s', _, _. split; [exact E|]. split; [exact E'|].
  assert (Co : forall i j, i < n -> j < n -> lookup_basis_state s i = lookup_basis_state s j -> lookup_basis_state s' i = lookup_basis_state s' j).
  { intros i j Hi Hj H. apply K'; auto. apply rst_step. exists false. apply rst_step. constructor; auto. }
  split; [exact Co|]. split.
  { intros i f H. destruct (h_step_bound A z n h hyb H1 H2 i f H) as [Hi Hf]. apply Co; auto. apply Ks; auto.
    apply (lookup_same A n _ i f I Hi Hf). apply K; auto. apply rst_step. exact H. }
  split; [intros; eapply lookup_lt; eassumption|]. split; [intros; eapply lookup_onto; eassumption|].
  split; [intros; eapply lookup_order; eassumption|].
  assert (El : forall op, once A n op -> forall i f a, i < n ->
    (e_get (put_cols A z op (seq 0 n) []) (i, f) = Some a <-> In (f, a) (op i) /\ z a = false)).
  { intros op Oo i f a Hi. rewrite put_cols_spec; [|apply seq_NoDup|apply Oo; exact Hi]. split; [tauto|]. intros H. split; [apply in_seq; lia|exact H]. }
  split; [apply El, O1|]. split; [apply El, O2|]. unfold get_matrix_elements. congruence.
Qed.
Print Assumptions C21_merge.

Lemma orbs4_len : length orbs4 <= 17.
Proof. apply Nat.leb_le. reflexivity. Qed.
Lemma ham4_in : in_space ZS 16 (imp_cols ZS orbs4 ham4_op 16).
Proof. exact (proj1 (cols_spec ZS ZS_laws orbs4 16 orbs4_len eq_refl ham4 ham4_op ham4_uses ham4_eval)). Qed.
Example C21_ex :
  in_space ZS 16 (imp_cols ZS orbs4 ham4_op 16) /\
  op_pairs_ok ZS kisz 16 ((imp_cols ZS orbs4 (op_c_dag ZS (orb 0)) 16, imp_cols ZS orbs4 (op_c ZS (orb 0)) 16) :: auto_ops ZS orbs4 16) /\
  once ZS 16 (imp_cols ZS orbs4 (op_c_dag ZS (orb 0)) 16).
Proof.
  pose proof orbs4_len as Hl.
  assert (Hd : hs_dim (length orbs4) = Ok 16%Z) by reflexivity.
  split; [exact ham4_in|].
  assert (I0 : In (orb 0) orbs4) by (vm_compute; auto). split.
  - intros cd c [E|H]; [|exact (auto_ops_ok ZS ZS_laws orbs4 16 Hl Hd cd c H)].
    apply (auto_ops_ok ZS ZS_laws orbs4 16 Hl Hd). rewrite <- E. left; reflexivity.
  - destruct (cols_spec ZS ZS_laws orbs4 16 Hl Hd (ECdag (orb 0)) (op_c_dag ZS (orb 0))) as (_ & H & _); [cbn [uses]; intros j <-; exact I0|reflexivity|exact H].
Qed.

(** C22.  The exact result of a merge: two states end in one subspace iff they are linked by
    zigzag products of the two operators (PartitionSpec.v). *)
Theorem C22_merge_exact :
  forall (A : Type) (is_zero : A -> bool) choose norm (n : nat) (h : cols A) (hyb : option (cols A)) (store store' : bool)
         (ops : list (cols A * cols A)) (cd c : cols A),
  norm_ok norm -> in_space A n h -> match hyb with Some hy => in_space A n hy | None => True end ->
  op_pairs_ok A is_zero n ((cd, c) :: ops) ->
  exists s s' ms,
    merges A is_zero choose norm (sp_new A is_zero choose norm n h store hyb) ops = Some s /\
    merge_subspaces A is_zero choose norm s cd c store' = Some (s', ms) /\
    forall i j, i < n -> j < n ->
      (lookup_basis_state s' i = lookup_basis_state s' j <->
       zmerged A is_zero n (fun a b => lookup_basis_state s a = lookup_basis_state s b) cd c i j).
Proof.
  intros A z ch nm n h hyb st st' ops cd c N H1 H2 Ho.
  destruct (new_indexed A z ch nm N n h hyb st H1 H2) as [I K].
  destruct (merges_indexed A z n ch nm N ops (sp_new A z ch nm n h st hyb)) as (s & E & Is & Ms & Ks).
  { intros a b Hab. apply Ho. right; exact Hab. } { exact I. }
  destruct (Ho cd c) as (P1 & P2 & P3); [left; reflexivity|].
  destruct (merge_ok A z ch nm N n s cd c st' Is P1 P2 P3) as (s' & m & m' & E' & _ & _ & _ & _ & K').
  exists s, s', (m, m'). auto.
Qed.
Print Assumptions C22_merge_exact.

(** C22.  After the merge each operator maps every subspace of the partition before it into one
    subspace; and if no subspace before it held both a state the first operator acts on and a
    state it produces, then each operator maps every subspace of the new partition into one. *)
Theorem C22_one_to_one_partial :
  forall (A : Type) (is_zero : A -> bool) choose norm (n : nat) (h : cols A) (hyb : option (cols A)) (store : bool)
         (ops : list (cols A * cols A)) (cd c : cols A) s s' ms,
  norm_ok norm -> in_space A n h -> match hyb with Some hy => in_space A n hy | None => True end ->
  op_pairs_ok A is_zero n ((cd, c) :: ops) ->
  merges A is_zero choose norm (sp_new A is_zero choose norm n h store hyb) ops = Some s ->
  merge_subspaces A is_zero choose norm s cd c true = Some (s', ms) ->
  (forall op i j f f', op = cd \/ op = c -> i < n -> j < n -> lookup_basis_state s i = lookup_basis_state s j ->
     nonzero A is_zero op i f -> nonzero A is_zero op j f' -> lookup_basis_state s' f = lookup_basis_state s' f') /\
  ((forall i j f g, i < n -> j < n -> g < n -> lookup_basis_state s i = lookup_basis_state s j ->
      nonzero A is_zero cd i f -> nonzero A is_zero cd g j -> False) ->
   forall op a b b', op = cd \/ op = c ->
     In (a, b) (find_mappings A is_zero s' op false) -> In (a, b') (find_mappings A is_zero s' op false) -> b = b').
Proof.
  intros A z ch nm n h hyb st ops cd c s s' ms N H1 H2 Ho Es Es'.
  destruct (new_indexed A z ch nm N n h hyb st H1 H2) as [I K].
  destruct (merges_indexed A z n ch nm N ops (sp_new A z ch nm n h st hyb)) as (s0 & E & Is & Ms & Ks).
  { intros a b Hab. apply Ho. right; exact Hab. } { exact I. }
  rewrite Es in E. injection E as <-.
  destruct (Ho cd c) as (P1 & P2 & P3); [left; reflexivity|].
  destruct (merge_ok A z ch nm N n s cd c true Is P1 P2 P3) as (s0 & m & m' & E' & I' & _ & _ & _ & K').
  rewrite Es' in E'. injection E' as -> ->. rename s0 into s'.
  assert (B : forall op i f, op = cd \/ op = c -> i < n -> nonzero A z op i f -> f < n).
  { intros op i f [->| ->] Hi (x & Hx & _); [exact (P1 i f x Hi Hx)|exact (P2 i f x Hi Hx)]. }
  split.
  - intros op i j f f' Hop Hi Hj Hs Hf Hf'. pose proof (B op i f Hop Hi Hf). pose proof (B op j f' Hop Hj Hf'). apply K'; auto.
    destruct Hop as [->| ->]; [apply images_merge with i j|apply preimages_merge with i j]; assumption.
  - intros Sep op a b b' Hop Ha Hb.
    assert (Io : in_space A n op) by (destruct Hop as [->| ->]; assumption).
    apply (find_mappings_spec A z n s' op false a b I' Io) in Ha. apply (find_mappings_spec A z n s' op false a b' I' Io) in Hb.
    destruct Ha as (i & f & Hi & Hf & <- & <- & _), Hb as (j & f' & Hj & Hf' & Hij & <- & _).
    pose proof (B op i f Hop Hi Hf). pose proof (B op j f' Hop Hj Hf'). apply K'; auto.
    symmetry in Hij. apply (K' i j Hi Hj) in Hij.
    destruct Hop as [->| ->].
    + eapply one_to_one_cd with (i := i) (j := j); eauto; try (intros; congruence).
    + eapply one_to_one_c with (i := i) (j := j); eauto; try (intros; congruence).
Qed.
Print Assumptions C22_one_to_one_partial.

(** the hypotheses hold e.g. for the Hubbard-like H of C20_ex and the third orbital *)
Example C22_ex : let l := map orb (seq 0 3) in
  let cd := imp_cols ZS l (op_c_dag ZS (orb 2)) 8 in
  let s := sp_new ZS kisz (fun _ _ _ => true) (fun x => x) 8 (imp_cols ZS l (match eval hop3 with Some op => op | None => [] end) 8) false None in
  (forall i j f g, i < 8 -> j < 8 -> g < 8 -> lookup_basis_state s i = lookup_basis_state s j ->
      nonzero ZS kisz cd i f -> nonzero ZS kisz cd g j -> False) /\
  nonzero ZS kisz cd 1 5.
Proof.
  intros l cd s. split.
  2:{ exists (-1)%Z. split; [vm_compute; left; reflexivity|reflexivity]. }
  assert (T : forallb (fun i => forallb (fun j => negb (lookup_basis_state s i =? lookup_basis_state s j) ||
     forallb (fun g => negb (negb (length (cd i) =? 0) && existsb (fun fa => fst fa =? j) (cd g))) (seq 0 8)) (seq 0 8)) (seq 0 8) = true) by (vm_compute; reflexivity).
  intros i j f g Hi Hj Hg Hs (x & Hx & _) (y & Hy & _).
  rewrite forallb_forall in T. specialize (T i ltac:(apply in_seq; lia)). rewrite forallb_forall in T.
  specialize (T j ltac:(apply in_seq; lia)). rewrite Hs, Nat.eqb_refl in T. apply orb_true_iff in T.
  clearbody s cd. destruct T as [T|T]; [discriminate T|]. rewrite forallb_forall in T. specialize (T g ltac:(apply in_seq; lia)). apply negb_true_iff in T.
  rewrite andb_false_iff in T. destruct T as [T|T].
  - apply negb_false_iff, Nat.eqb_eq in T. destruct (cd i); [destruct Hx|discriminate].
  - rewrite <- not_true_iff_false in T. apply T. apply existsb_exists. exists (j, y). split; [exact Hy|apply Nat.eqb_refl].
Qed.

(** C22 in full is false.  For this hermitian, particle-number conserving Hamiltonian of four
    orbitals, the partition made by atom_diag's constructor (merging with the creation and
    annihilation operators of all orbitals in turn) has a subspace which c+_0 maps into two
    different subspaces -- whatever representatives the union-find library chooses. *)
Theorem C22_one_to_one_refuted :
  forall choose norm, norm_ok norm ->
  eval (EDag ham4) = eval ham4 /\ (forall i, uses ham4 i -> In i orbs4) /\ eval ham4 = Some ham4_op /\
  exists s a b b', auto_partition ZS choose norm orbs4 ham4_op 16 = Some s /\ b <> b' /\
    In (a, b) (find_mappings ZS kisz s (imp_cols ZS orbs4 (op_c_dag ZS (orb 0)) 16) false) /\
    In (a, b') (find_mappings ZS kisz s (imp_cols ZS orbs4 (op_c_dag ZS (orb 0)) 16) false).
Proof.
  intros ch nm N. split; [vm_compute; reflexivity|]. split; [exact ham4_uses|]. split; [exact ham4_eval|].
  pose proof orbs4_len as Hl.
  assert (Hd : hs_dim (length orbs4) = Ok 16%Z) by reflexivity.
  pose proof ham4_in as H1.
  destruct (new_indexed ZS kisz ch nm N 16 _ None false H1 Logic.I) as [I1 K1].
  destruct (new_indexed ZS kisz (fun _ _ _ => true) (fun l => l) norm_id_ok 16 _ None false H1 Logic.I) as [I2 K2].
  destruct (merges_determined ZS kisz 16 ch nm (fun _ _ _ => true) (fun l => l) N norm_id_ok (auto_ops ZS orbs4 16) _ _
     (auto_ops_ok ZS ZS_laws orbs4 16 Hl Hd) I1 I2) as (t & t' & Et & Et' & It & It' & K).
  { intros i j Hi Hj. rewrite (lookup_same ZS 16 _ i j I1 Hi Hj), (lookup_same ZS 16 _ i j I2 Hi Hj), K1, K2 by assumption. tauto. }
  pose proof auto4_computed as C. unfold auto_partition in *. change (Z.to_nat 16) with 16 in *. rewrite Et' in C.
  exists t, (lookup_basis_state t 6), (lookup_basis_state t 7), (lookup_basis_state t 11).
  split; [exact Et|].
  assert (Lk : forall i, i < 16 -> nth i [0; 1; 1; 2; 3; 4; 4; 5; 6; 4; 4; 7; 8; 9; 9; 10] 0 = lookup_basis_state t' i).
  { intros i Hi. rewrite <- C. rewrite (nth_indep _ 0 (lookup_basis_state t' 0)) by (rewrite map_length, seq_length; exact Hi).
    rewrite map_nth, seq_nth by exact Hi. reflexivity. }
  assert (Io : in_space ZS 16 (imp_cols ZS orbs4 (op_c_dag ZS (orb 0)) 16)).
  { destruct (cols_spec ZS ZS_laws orbs4 16 Hl Hd (ECdag (orb 0)) (op_c_dag ZS (orb 0))) as (H & _ & _); [cbn [uses]; intros j <-; vm_compute; auto|reflexivity|exact H]. }
  split.
  - intros e. apply K in e; [|lia|lia]. rewrite <- !Lk in e by lia. discriminate.
  - split; apply (find_mappings_spec ZS kisz 16 t _ false _ _ It Io).
    + exists 6, 7. split; [lia|]. split; [|split; [reflexivity|split; [reflexivity|discriminate]]].
      exists 1%Z. split; [vm_compute; left; reflexivity|reflexivity].
    + exists 10, 11. split; [lia|]. split; [|split; [|split; [reflexivity|discriminate]]].
      * exists 1%Z. split; [vm_compute; left; reflexivity|reflexivity].
      * apply K; [lia|lia|]. rewrite <- !Lk by lia. reflexivity.
Qed.
Print Assumptions C22_one_to_one_refuted.

(** C22.  find_mappings returns exactly the pairs of subspaces connected by a nonzero element. *)
Theorem C22_find_mappings_exact :
  forall (A : Type) (is_zero : A -> bool) choose norm (n : nat) (h : cols A) (hyb : option (cols A)) (store diag : bool)
         (ops : list (cols A * cols A)) (op : cols A) s,
  norm_ok norm -> in_space A n h -> match hyb with Some hy => in_space A n hy | None => True end ->
  op_pairs_ok A is_zero n ops -> in_space A n op ->
  merges A is_zero choose norm (sp_new A is_zero choose norm n h store hyb) ops = Some s ->
  forall a b, In (a, b) (find_mappings A is_zero s op diag) <->
    exists i f, i < n /\ nonzero A is_zero op i f /\ lookup_basis_state s i = a /\ lookup_basis_state s f = b /\ (diag = true -> a = b).
Proof.
  intros A z ch nm n h hyb st dg ops op s N H1 H2 Ho Hop Es a b.
  destruct (new_indexed A z ch nm N n h hyb st H1 H2) as [I K].
  destruct (merges_indexed A z n ch nm N ops (sp_new A z ch nm n h st hyb) Ho I) as (s0 & E & Is & Ms & Ks).
  rewrite Es in E. injection E as <-. apply find_mappings_spec; assumption.
Qed.
Print Assumptions C22_find_mappings_exact.
