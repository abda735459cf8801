(** C67: matrices of many-body operators in the eigenbasis of atom_diag, and what is computed
    from them (get_matrix_element_of_monomial, get_op_mat, act, trace_rho_op,
    quantum_number_eigenvalues). *)
From Coq Require Import ZArith NArith List Arith Bool Lia Sorted QArith Qcanon.
From Verif Require Import Base Indices Scalar Fock OpModel OpExpr OpNormal Op_proofs Hilbert StateSpec State ImpOp ImpOp_run ImpOp_thms
  Partition PartitionSpec Partition_thms Partition_imp AtomDiag AtomDiagSpec AtomDiag_lists AtomDiag_thms AtomDiag_final AtomDiag_ex AtomDiag_props
  AtomDiagOps AtomDiagOpsSpec AtomDiagOps_mono AtomDiagOps_loop AtomDiagOps_proofs AtomDiagOps_act AtomDiagOps_trace.
Import ListNotations.
Local Open Scope nat_scope.

Lemma constructed_atom S E ch nm eg l e keep a : scalar_laws S -> energy_laws S E -> norm_ok nm -> length l <= 17 -> NoDup l ->
  (forall i, uses e i -> In i l) -> solves S E l e eg -> constructed S E ch nm eg l e keep a ->
  exists op d, hs_dim (length l) = Ok d /\ eval e = Some op /\ a_h S E a = op /\ represents S E l e keep a /\ atom_facts S E l d keep a.
Proof.
  intros L EL N Hl Hn Hu Sv C. destruct (constructed_facts S E ch nm eg l e keep a L EL N Hl Hn Hu Sv C) as (op & d & Hd & He & R & (A1 & A2 & A3 & A4 & _ & A6 & _)).
  exists op, d. split; [exact Hd|]. split; [exact He|]. split; [exact A2|]. split; [exact R|]. destruct R as (R1 & (R2 & _) & _).
  constructor; auto. intros b B ev u HB. destruct (R2 b B ev u HB) as (g & _ & D1 & D2 & D3 & _). auto.
Qed.

(** C67.  get_matrix_element_of_monomial(m, b), for a product m of c and c^dagger in normal
    order which maps each block into at most one block, returns that block and the matrix of m
    between the eigenstates, or -1 when m has no element from block b. *)
Theorem C67_matrix_element_of_monomial :
  forall (S : scalar_ops) (E : energy_ops S) choose norm eigen (l : fops) (e : expr S) (keep : N -> bool) (a : atom S E),
  scalar_laws S -> energy_laws S E -> norm_ok norm -> length l <= 17 -> NoDup l -> (forall i, uses e i -> In i l) -> solves S E l e eigen ->
  constructed S E choose norm eigen l e keep a ->
  forall (m : monomial) (b : nat), normal m -> mono_on (fun i => In i l) m -> single_target S E l a (word S m) -> b < n_blocks S E a ->
  exists c om, get_matrix_element_of_monomial S E a m b = Ok (c, om) /\ describes S E l a (word S m) b c om.
Proof.
  intros S E ch nm eg l e keep a L EL N Hl Hn Hu Sv C m b Hm Ho Hs Hb.
  destruct (constructed_atom S E ch nm eg l e keep a L EL N Hl Hn Hu Sv C) as (op & d & Hd & _ & _ & _ & F).
  destruct (monomial_ok S L E l d Hl Hd keep a F m Hm Ho Hs b _ _ _ (block_get S E l d keep a F b Hb)) as (c & om & Eg & H). exists c, om. split; [exact Eg|].
  intros B ev u HB. destruct (block_states S E a b B ev u HB) as (Q1 & Q2 & _). rewrite Q1, Q2 in H.
  destruct H as [(-> & -> & Hz)|(b' & B' & ev' & u' & M & -> & -> & HB' & R & C' & (f & g & Hf & Hg & Hx) & Hm')].
  - left. split; [reflexivity|]. split; [reflexivity|]. intros b' B' ev' u' HB' (f & g & Hf & Hg & Hx). apply Hx. rewrite (word_bracket S L l). exact (Hz b' B' ev' u' f g HB' Hf Hg).
  - right. exists b', B', ev', u', M. repeat (split; [reflexivity || assumption|]). intros b2 B2 ev2 u2 HB2 (f2 & g2 & Hf2 & Hg2 & Hx2).
    apply (Hs b b2 b' B B2 B' ev ev2 ev' u u2 u' f2 f g2 g HB HB2 HB' Hf2 Hf Hg2 Hg Hx2). rewrite (word_bracket S L l). exact Hx.
Qed.
Print Assumptions C67_matrix_element_of_monomial.

(** When no state is filtered out, it is enough that every c and c^dagger maps each block into
    one block: then every product of them does. *)
Theorem C67_products_have_single_targets :
  forall (S : scalar_ops) (E : energy_ops S) choose norm eigen (l : fops) (e : expr S) (a : atom S E),
  scalar_laws S -> energy_laws S E -> norm_ok norm -> length l <= 17 -> NoDup l -> (forall i, uses e i -> In i l) -> solves S E l e eigen ->
  constructed S E choose norm eigen l e (fun _ => true) a ->
  (forall o, In o l -> single_target S E l a (EC o) /\ single_target S E l a (ECdag o)) ->
  forall m : list cop, (forall x, In x m -> In (ind x) l) -> single_target S E l a (word S m).
Proof.
  intros S E ch nm eg l e a L EL N Hl Hn Hu Sv C H1 m Hm.
  destruct (constructed_atom S E ch nm eg l e _ a L EL N Hl Hn Hu Sv C) as (op & d & Hd & _ & _ & _ & F).
  assert (G : forall m, (forall x, In x m -> In (ind x) l) -> forall b B ev u f f' s s' g g' b1 b2 B1 B2 ev1 ev2 u1 u2,
    block S E a b B ev u -> In f B -> In f' B -> act (mode l) m f = Some (s, g) -> act (mode l) m f' = Some (s', g') ->
    block S E a b1 B1 ev1 u1 -> block S E a b2 B2 ev2 u2 -> In g B1 -> In g' B2 -> b1 = b2).
  { clear m Hm. induction m as [|o m IH]; intros Hm b B ev u f f' s s' g g' b1 b2 B1 B2 ev1 ev2 u1 u2 HB Hf Hf' A A' HB1 HB2 Hg Hg'.
    - cbn [act] in A, A'. injection A as _ <-. injection A' as _ <-. transitivity b.
      + symmetry. exact (block_same S E l d _ a F _ _ _ _ _ _ _ _ _ HB HB1 Hf Hg).
      + exact (block_same S E l d _ a F _ _ _ _ _ _ _ _ _ HB HB2 Hf' Hg').
    - cbn [act] in A, A'. destruct (act (mode l) m f) as [[s1 h]|] eqn:E1; [|discriminate A]. destruct (act (mode l) m f') as [[s1' h']|] eqn:E1'; [|discriminate A'].
      destruct (act_cop (mode l) o h) as [[s2 h2]|] eqn:E2; [|discriminate A]. destruct (act_cop (mode l) o h') as [[s2' h2']|] eqn:E2'; [|discriminate A'].
      injection A as _ <-. injection A' as _ <-.
      assert (Hm' : forall x, In x m -> In (ind x) l) by (intros x Hx; apply Hm; right; exact Hx).
      assert (Hmo : mono_on (fun i => In i l) m) by (apply Forall_forall; exact Hm').
      assert (Bh : (h < 2 ^ N.of_nat (length l))%N) by (eapply (act_bound l m f s1 h); [exact Hmo|apply le_n|exact (block_bound S E l d _ a F _ _ _ _ _ HB Hf)|exact E1]).
      assert (Bh' : (h' < 2 ^ N.of_nat (length l))%N) by (eapply (act_bound l m f' s1' h'); [exact Hmo|apply le_n|exact (block_bound S E l d _ a F _ _ _ _ _ HB Hf')|exact E1']).
      destruct (af_cover _ _ _ _ _ _ F) as (Cv & _). destruct (proj2 (Cv h) (conj Bh eq_refl)) as (c & BC & evc & uc & HC & Hh). destruct (proj2 (Cv h') (conj Bh' eq_refl)) as (c' & BC' & evc' & uc' & HC' & Hh').
      assert (Q := IH Hm' b B ev u f f' s1 s1' h h' c c' _ _ _ _ _ _ HB Hf Hf' E1 E1' HC HC' Hh Hh'). subst c'.
      destruct (block_fun S E a _ _ _ _ _ _ _ HC HC') as (<- & <- & <-).
      assert (Lt : forall f0 sg g0, act_cop (mode l) o f0 = Some (sg, g0) -> bracket S l (if dag o then ECdag (ind o) else EC (ind o)) g0 f0 <> k0).
      { intros f0 sg g0 A0. assert (W : bracket S l (word S [o]) g0 f0 <> k0).
        { rewrite (word_bracket S L l). unfold mel_mono. cbn [act]. rewrite A0, N.eqb_refl. apply (sgn_nonzero S L). }
        intros Q. apply W. rewrite <- Q. unfold bracket, word, meaning. cbn [fold_right den]. unfold scale, cj. cbn [map fst snd].
        f_equal. f_equal. f_equal. f_equal. pose proof (sl_ring S L) as R. rewrite (Rmul_1_l R). reflexivity. }
      destruct (H1 (ind o) (Hm o (or_introl eq_refl))) as [Hc Hcd].
      assert (St : single_target S E l a (if dag o then ECdag (ind o) else EC (ind o))) by (destruct (dag o); assumption).
      exact (St c b1 b2 BC B1 B2 evc ev1 ev2 uc u1 u2 h h' h2 h2' HC HB1 HB2 Hh Hh' Hg Hg' (Lt _ _ _ E2) (Lt _ _ _ E2')). }
  intros b b1 b2 B B1 B2 ev ev1 ev2 u u1 u2 f f' g1 g2 HB HB1 HB2 Hf Hf' Hg1 Hg2 X1 X2. rewrite (word_bracket S L l) in X1, X2. unfold mel_mono in X1, X2.
  destruct (act (mode l) m f) as [[s h]|] eqn:A1; [|congruence]. destruct (act (mode l) m f') as [[s' h']|] eqn:A2; [|congruence].
  destruct (N.eqb_spec h g1) as [->|]; [|congruence]. destruct (N.eqb_spec h' g2) as [->|]; [|congruence].
  exact (G m Hm b B ev u f f' s s' g1 g2 b1 b2 B1 B2 ev1 ev2 u1 u2 HB Hf Hf' A1 A2 HB1 HB2 Hg1 Hg2).
Qed.
Print Assumptions C67_products_have_single_targets.

(** two monomials of the operator lead from block b to different blocks *)
Definition splits (S : scalar_ops) (E : energy_ops S) (l : fops) (a : atom S E) (op : omap S) (b : nat) : Prop :=
  exists m1 x1 m2 x2 b1 b2, In (m1, x1) op /\ In (m2, x2) op /\ b1 < n_blocks S E a /\ b2 < n_blocks S E a /\ b1 <> b2 /\
    reaches S l (word S m1) (states_of S E a b) (states_of S E a b1) /\ reaches S l (word S m2) (states_of S E a b) (states_of S E a b2).

(** C67.  get_op_mat(op): throws exactly when two monomials of op lead from one block to
    different blocks; otherwise it returns, for each block, the connected block and the matrix of
    op in the eigenbasis, and no element is left out. *)
Theorem C67_get_op_mat :
  forall (S : scalar_ops) (E : energy_ops S) choose norm eigen (l : fops) (e : expr S) (keep : N -> bool) (a : atom S E),
  scalar_laws S -> energy_laws S E -> norm_ok norm -> length l <= 17 -> NoDup l -> (forall i, uses e i -> In i l) -> solves S E l e eigen ->
  constructed S E choose norm eigen l e keep a ->
  forall (x : expr S) (op : omap S), (forall i, uses x i -> In i l) -> eval x = Some op -> terms_single S E l a op ->
  (exists r, get_op_mat S E a op = Ok r /\ length r = n_blocks S E a /\
     (forall b c om, nth_error r b = Some (c, om) -> describes S E l a x b c om) /\ forall b, b < n_blocks S E a -> ~ splits S E l a op b) \/
  (get_op_mat S E a op = Throw /\ exists b, b < n_blocks S E a /\ splits S E l a op b).
Proof.
  intros S E ch nm eg l e keep a L EL N Hl Hn Hu Sv C x op Hux Hex Hts.
  destruct (constructed_atom S E ch nm eg l e keep a L EL N Hl Hn Hu Sv C) as (oph & d & Hd & _ & _ & _ & F).
  assert (T : forall b, two_targets S E l a op b <-> splits S E l a op b).
  { intros b. split.
    - intros ([m1 x1] & [m2 x2] & b1 & b2 & H). exists m1, x1, m2, x2, b1, b2. exact H.
    - intros (m1 & x1 & m2 & x2 & b1 & b2 & H). exists (m1, x1), (m2, x2), b1, b2. exact H. }
  destruct (get_op_mat_ok S L E l d Hl Hd keep a F op x Hux Hex (eval_op_ok S L l x op Hux Hex) Hts) as [(r & H1 & H2 & H3 & H4)|(H1 & b & H2 & H3)].
  - left. exists r. split; [exact H1|]. split; [exact H2|]. split; [exact H3|]. intros b Hb Hs. apply (H4 b Hb), T, Hs.
  - right. split; [exact H1|]. exists b. split; [exact H2|]. apply T, H3.
Qed.
Print Assumptions C67_get_op_mat.

(** C67.  act(op, st): the component (b', j) of the result is the sum over all (b, i) of
    <b', j| op |b, i> times the component (b, i) of st.  Component (b, i) is number
    (states of the blocks before b) + i, as flatten_subspace_index says (C23). *)
Theorem C67_act :
  forall (S : scalar_ops) (E : energy_ops S) choose norm eigen (l : fops) (e : expr S) (keep : N -> bool) (a : atom S E),
  scalar_laws S -> energy_laws S E -> norm_ok norm -> length l <= 17 -> NoDup l -> (forall i, uses e i -> In i l) -> solves S E l e eigen ->
  constructed S E choose norm eigen l e keep a ->
  forall (x : expr S) (op : omap S) (st : list S), (forall i, uses x i -> In i l) -> eval x = Some op -> terms_single S E l a op ->
  before S E a (n_blocks S E a) <= length st ->
  exists v, act_op S E a op st = Ok v /\ length v = length st /\
    (forall b' j, b' < n_blocks S E a -> j < size_of S E a b' ->
       nth (before S E a b' + j) v k0 =
       msum S (n_blocks S E a) (fun b => msum S (size_of S E a b) (fun i => kmul (elem S E l a x b' j b i) (nth (before S E a b + i) st k0)))) /\
    forall p, before S E a (n_blocks S E a) <= p -> nth p v k0 = k0.
Proof.
  intros S E ch nm eg l e keep a L EL N Hl Hn Hu Sv C x op st Hux Hex Hts Hst.
  destruct (constructed_atom S E ch nm eg l e keep a L EL N Hl Hn Hu Sv C) as (oph & d & Hd & _ & _ & _ & F).
  exact (act_ok S L E l d Hl Hd keep a F op x Hux Hex (eval_op_ok S L l x op Hux Hex) Hts st Hst).
Qed.
Print Assumptions C67_act.

(** flatten_subspace_index numbers the components that way *)
Theorem C67_component_numbers :
  forall (S : scalar_ops) (E : energy_ops S) choose norm eigen (l : fops) (e : expr S) (keep : N -> bool) (a : atom S E),
  scalar_laws S -> energy_laws S E -> norm_ok norm -> length l <= 17 -> NoDup l -> (forall i, uses e i -> In i l) -> solves S E l e eigen ->
  constructed S E choose norm eigen l e keep a ->
  forall b i, b < n_blocks S E a -> i < size_of S E a b -> flatten_subspace_index S E a b i = Ok (before S E a b + i).
Proof.
  intros S E ch nm eg l e keep a L EL N Hl Hn Hu Sv C b i Hb Hi.
  destruct (constructed_atom S E ch nm eg l e keep a L EL N Hl Hn Hu Sv C) as (oph & d & Hd & _ & _ & _ & F).
  pose proof (range_ok S E l d Hl keep a F b Hb) as R. unfold index_range_of_subspace in R. unfold flatten_subspace_index.
  destruct (nth_error (a_first S E a) b) as [f|]; [|discriminate R]. destruct (nth_error (a_eigs S E a) b); [|discriminate R]. injection R as -> _. reflexivity.
Qed.
Print Assumptions C67_component_numbers.

(** C67.  trace_rho_op(rho, op) is the sum over the blocks of Tr(op rho) in the eigenbasis, for
    every list of square matrices of the sizes of the blocks.  [re] is std::real; it is applied
    when op and rho are hermitian, and changes nothing because the trace is then real. *)
Theorem C67_trace_rho_op :
  forall (S : scalar_ops) (E : energy_ops S) choose norm eigen (l : fops) (e : expr S) (keep : N -> bool) (a : atom S E) (re : S -> S),
  scalar_laws S -> energy_laws S E -> norm_ok norm -> length l <= 17 -> NoDup l -> (forall i, uses e i -> In i l) -> solves S E l e eigen ->
  constructed S E choose norm eigen l e keep a -> (forall z, kconj z = z -> re z = z) ->
  forall (x : expr S) (op : omap S) (dm : list (mat S)), (forall i, uses x i -> In i l) -> eval x = Some op -> terms_single S E l a op ->
  length dm = n_blocks S E a ->
  (forall b rho, nth_error dm b = Some rho -> m_rows rho = size_of S E a b /\ m_cols rho = size_of S E a b) ->
  trace_rho_op S E re a dm op =
    Ok (msum S (n_blocks S E a) (fun b => msum S (size_of S E a b) (fun i => msum S (size_of S E a b) (fun k =>
          kmul (elem S E l a x b i b k) (m_at (nth b dm (mkMat 0 0 (fun _ _ => k0))) k i))))).
Proof.
  intros S E ch nm eg l e keep a re L EL N Hl Hn Hu Sv C Hre x op dm Hux Hex Hts Hdm Hsq.
  destruct (constructed_atom S E ch nm eg l e keep a L EL N Hl Hn Hu Sv C) as (oph & d & Hd & _ & _ & _ & F).
  apply (trace_rho_op_ok S L E l d Hl Hd keep a F op x Hux Hex (eval_op_ok S L l x op Hux Hex) Hts dm Hdm); [|exact Hre].
  intros b Hb. rewrite <- Hdm in Hb. unfold dm_at. apply Hsq. apply nth_error_nth'. exact Hb.
Qed.
Print Assumptions C67_trace_rho_op.

(** A density matrix with another number of blocks, or a block of another size, is refused. *)
Theorem C67_trace_rho_op_size_mismatch :
  forall (S : scalar_ops) (E : energy_ops S) choose norm eigen (l : fops) (e : expr S) (keep : N -> bool) (a : atom S E) (re : S -> S),
  scalar_laws S -> energy_laws S E -> norm_ok norm -> length l <= 17 -> NoDup l -> (forall i, uses e i -> In i l) -> solves S E l e eigen ->
  constructed S E choose norm eigen l e keep a ->
  forall (x : expr S) (op : omap S) (dm : list (mat S)), (forall i, uses x i -> In i l) -> eval x = Some op -> terms_single S E l a op ->
  (forall b rho, nth_error dm b = Some rho -> m_rows rho = m_cols rho) ->
  length dm <> n_blocks S E a \/ (exists b rho, nth_error dm b = Some rho /\ m_rows rho <> size_of S E a b) ->
  trace_rho_op S E re a dm op = Throw.
Proof.
  intros S E ch nm eg l e keep a re L EL N Hl Hn Hu Sv C x op dm Hux Hex Hts Hsq H.
  destruct (constructed_atom S E ch nm eg l e keep a L EL N Hl Hn Hu Sv C) as (oph & d & Hd & _ & _ & _ & F).
  destruct (Nat.eq_dec (length dm) (n_blocks S E a)) as [Hdm|Hdm]; [|apply trace_throws_count; exact Hdm].
  destruct H as [H|(b & rho & Hb & Hne)]; [contradiction|].
  apply (trace_throws_size S L E l d Hl Hd keep a F op (eval_op_ok S L l x op Hux Hex) Hts dm re Hdm).
  - intros b' Hb'. rewrite <- Hdm in Hb'. unfold dm_at. apply (Hsq b'). apply nth_error_nth'. exact Hb'.
  - exists b. split; [rewrite <- Hdm; eapply nth_error_Some_lt; exact Hb|]. unfold dm_at. rewrite (nth_of_error _ _ _ _ Hb). exact Hne.
Qed.
Print Assumptions C67_trace_rho_op_size_mismatch.

(** C67.  quantum_number_eigenvalues(op): throws when a coefficient of op H - H op is not small;
    otherwise the value (b, i) is the real part of <b, i| op |b, i>. *)
Theorem C67_quantum_number_eigenvalues :
  forall (S : scalar_ops) (E : energy_ops S) choose norm eigen (l : fops) (e : expr S) (keep : N -> bool) (a : atom S E) (re : S -> S) (small : S -> bool),
  scalar_laws S -> energy_laws S E -> norm_ok norm -> length l <= 17 -> NoDup l -> (forall i, uses e i -> In i l) -> solves S E l e eigen ->
  constructed S E choose norm eigen l e keep a -> re k0 = k0 -> (forall y z, re (kadd y z) = kadd (re y) (re z)) ->
  forall (x : expr S) (op c : omap S), (forall i, uses x i -> In i l) -> eval x = Some op -> terms_single S E l a op ->
  eval (ESub (EMul x e) (EMul e x)) = Some c ->
  if forallb (fun t => small (snd t)) c
  then exists r, quantum_number_eigenvalues S E re small a op = Ok r /\ length r = n_blocks S E a /\
       forall b v, nth_error r b = Some v -> length v = size_of S E a b /\ forall i, i < size_of S E a b -> nth i v k0 = re (elem S E l a x b i b i)
  else quantum_number_eigenvalues S E re small a op = Throw.
Proof.
  intros S E ch nm eg l e keep a re small L EL N Hl Hn Hu Sv C Hre0 Hre x op c Hux Hex Hts Hc.
  destruct (constructed_atom S E ch nm eg l e keep a L EL N Hl Hn Hu Sv C) as (oph & d & Hd & He & Ha & _ & F).
  assert (Q : commutes_with_h S E small a op = Ok (forallb (fun t => small (snd t)) c)).
  { unfold commutes_with_h. rewrite Ha. cbn [eval] in Hc. rewrite Hex, He in Hc. destruct (op_mul op oph) as [p|]; [|discriminate Hc]. destruct (op_mul oph op) as [q|]; [|discriminate Hc].
    injection Hc as <-. reflexivity. }
  pose proof (qn_values S L E l d Hl Hd keep a F op x Hux Hex (eval_op_ok S L l x op Hux Hex) Hts re Hre0 Hre small (ex_intro _ _ Q)) as H. rewrite Q in H.
  destruct (forallb (fun t => small (snd t)) c); exact H.
Qed.
Print Assumptions C67_quantum_number_eigenvalues.

(** A case where all the hypotheses hold: two orbitals, blocks {0}, {1,2} and {3}, the operator
    c+_0 c_1 + 2 n_1, whose matrix mixes the states of the middle block. *)
Definition blocks2 : list (list N) := [[0]; [1; 2]; [3]]%N.
Definition targets_ok (e : expr QS) : bool :=
  forallb (fun b => forallb (fun b1 => forallb (fun b2 => forallb (fun f => forallb (fun f' => forallb (fun g1 => forallb (fun g2 =>
    qeqb (bracket QS orbs2 e g1 f) 0 || qeqb (bracket QS orbs2 e g2 f') 0 || (b1 =? b2)%nat)
    (nth b2 blocks2 [])) (nth b1 blocks2 [])) (nth b blocks2 [])) (nth b blocks2 [])) (seq 0 3)) (seq 0 3)) (seq 0 3).
Lemma targets_ok_spec a e : map sub_states (a_subs QS QE a) = blocks2 -> targets_ok e = true -> single_target QS QE orbs2 a e.
Proof.
  intros Hs H b b1 b2 B B1 B2 ev ev1 ev2 u u1 u2 f f' g1 g2 HB HB1 HB2 Hf Hf' Hg1 Hg2 X1 X2.
  assert (T : forall c C v w, block QS QE a c C v w -> c < 3 /\ nth c blocks2 [] = C).
  { intros c C v w (sp & es & K1 & _ & K3 & _). rewrite <- K3.
    assert (Q : nth_error blocks2 c = Some (sub_states sp)) by (rewrite <- Hs, nth_error_map, K1; reflexivity).
    split; [exact (nth_error_Some_lt _ _ _ Q)|exact (nth_of_error _ _ _ _ Q)]. }
  destruct (T _ _ _ _ HB) as [L0 <-]. destruct (T _ _ _ _ HB1) as [L1 <-]. destruct (T _ _ _ _ HB2) as [L2 <-].
  unfold targets_ok in H.
  assert (S0 : In b (seq 0 3)) by (apply in_seq; lia). assert (S1 : In b1 (seq 0 3)) by (apply in_seq; lia). assert (S2 : In b2 (seq 0 3)) by (apply in_seq; lia).
  pose proof (proj1 (forallb_forall _ _) H b S0) as H0.
  pose proof (proj1 (forallb_forall _ _) H0 b1 S1) as H1. pose proof (proj1 (forallb_forall _ _) H1 b2 S2) as H2.
  pose proof (proj1 (forallb_forall _ _) H2 f Hf) as H3. pose proof (proj1 (forallb_forall _ _) H3 f' Hf') as H4.
  pose proof (proj1 (forallb_forall _ _) H4 g1 Hg1) as H5. pose proof (proj1 (forallb_forall _ _) H5 g2 Hg2) as H6. cbv beta in H6.
  apply orb_true_iff in H6. destruct H6 as [H6|H6]; [|apply Nat.eqb_eq; exact H6]. apply orb_true_iff in H6.
  destruct H6 as [H6|H6]; apply qeqb_eq in H6; exfalso; [apply X1|apply X2]; exact H6.
Qed.
Definition op2 : expr QS := EAdd hop2 (EMulS (EN o1) (q 2 : QS)).
Example C67_ex : exists a, constructed QS QE (fun _ _ _ => true) (fun l => l) eigen2 orbs2 ham2 (fun _ => true) a /\
  (forall o, In o orbs2 -> single_target QS QE orbs2 a (EC o) /\ single_target QS QE orbs2 a (ECdag o)) /\
  match eval op2 with
  | Some op => terms_single QS QE orbs2 a op /\
    match get_op_mat QS QE a op with
    | Ok [(c0, None); (c1, Some m); (c2, Some m2)] => (c0, c1, c2) = (-1, 1, 2)%Z /\ map this [m_at m 0 0; m_at m 0 1; m_at m 1 0; m_at m 1 1] = [6 # 25; -8 # 25; -33 # 25; 44 # 25]%Q /\ this (m_at m2 0 0) = (2 # 1)%Q
    | _ => False
    end
  | None => False
  end.
Proof.
  assert (Q : match atom_diag_auto QS QE eigen2 (fun _ _ _ => true) (fun l => l) ham2_op orbs2 with
    | Ok a => map sub_states (a_subs QS QE a) = blocks2 /\
       match eval op2 with Some op => match get_op_mat QS QE a op with
         | Ok [(c0, None); (c1, Some m); (c2, Some m2)] => (c0, c1, c2) = (-1, 1, 2)%Z /\ map this [m_at m 0 0; m_at m 0 1; m_at m 1 0; m_at m 1 1] = [6 # 25; -8 # 25; -33 # 25; 44 # 25]%Q /\ this (m_at m2 0 0) = (2 # 1)%Q | _ => False end
         | None => False end | _ => False end)
    by (vm_compute; repeat split; reflexivity).
  pose proof (by_auto QS QE (fun _ _ _ => true) (fun l => l) eigen2 orbs2 ham2 ham2_op) as H.
  revert Q H. generalize (atom_diag_auto QS QE eigen2 (fun _ _ _ => true) (fun l => l) ham2_op orbs2). intros r Q H.
  destruct r as [a| |]; [|destruct Q..]. exists a. destruct Q as [Qs Q]. pose proof (H a ham2_eval eq_refl) as C. split; [exact C|].
  assert (St : forall o, In o orbs2 -> single_target QS QE orbs2 a (EC o) /\ single_target QS QE orbs2 a (ECdag o)).
  { intros o' [<-|[<-|[]]]; split; apply (targets_ok_spec a _ Qs); vm_compute; reflexivity. }
  split; [exact St|]. destruct (eval op2) as [op|] eqn:Eo; [|destruct Q]. split; [|exact Q].
  destruct C63_ex as (E1 & E2 & E3 & E4 & E5 & _ & E7 & _).
  intros m x Hin. apply (C67_products_have_single_targets QS QE _ _ _ _ _ a E1 E2 norm_id_ok E3 E4 E5 E7 C St).
  destruct (eval_wf QS QS_laws op2) as (op' & Eo' & _ & Hon). rewrite Eo in Eo'. injection Eo' as <-.
  intros y Hy. assert (U := proj1 (Forall_forall _ _) (proj1 (Forall_forall _ _) Hon _ Hin) _ Hy). cbn in U.
  cbn. tauto.
Qed.
