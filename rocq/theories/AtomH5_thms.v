(** The archives of atom_diag: whole objects, and the objects made by the constructors. *)
From Coq Require Import String ZArith NArith List Bool Arith Lia Permutation Sorted.
From Verif Require Import Base Indices Scalar Fock OpModel Hilbert Hilbert_proofs RealOrComplex OpH5 OpH5_proofs State ImpOp Partition Partition_imp
  AtomDiag AtomDiag_lists AtomDiag_auto AtomDiag_final AtomQn OpH5Spec AtomH5 AtomH5Spec AtomH5_proofs.
Import ListNotations.
Local Open Scope nat_scope.

Lemma bind_inv {A B} (x : res A) (f : A -> res B) y : bind x f = Ok y -> exists z, x = Ok z /\ f z = Ok y.
Proof. destruct x as [z| |]; cbn [bind]; intros H; [exists z; auto|discriminate H|discriminate H]. Qed.

Section Whole.
  Context (S : scalar_ops) (E : energy_ops S).
  Variable to_roc : S -> roc.
  Variable of_roc : roc -> res S.
  Variable pad : nat -> nat.
  Variable listing : group S -> group S.
  Hypothesis Hlist : forall g, Permutation (listing g) g.
  Hypothesis Hf : faithful S to_roc of_roc.

  Lemma h_round (op : omap S) : is_map op -> short op -> labels_ok op -> few op -> exists ds, h5_write to_roc op = Ok ds /\ h5_read of_roc pad ds = Ok op.
  Proof.
    intros H1 H2 H3 H4. destruct (thm_round to_roc of_roc (fun _ => True) (fun x => x)) with (pad := pad) (op := op : tmap S) as (ds & W & R); auto.
    - intros x _. specialize (Hf x). unfold stored. cbv zeta in Hf. destruct (is_real (to_roc x)); [exact Hf|]. destruct (val (to_roc x)); exact Hf.
    - apply Forall_forall. intros mc _. exact I.
    - exists ds. split; [exact W|]. rewrite R. f_equal. clear. induction op as [|[m c] op IH]; [reflexivity|]. cbn [map fst snd]. etransitivity; [apply (f_equal (cons (m, c)) IH)|reflexivity].
  Qed.
  Lemma built_round s : built s -> sub_h5_read (sub_h5_write s) = s.
  Proof. intros (fs & Hd & ->). apply (thm_sub_bijection (sub_index s) fs Hd). Qed.
  Lemma subs_round ss : Forall built ss -> map sub_h5_read (map sub_h5_write ss) = ss.
  Proof. induction 1 as [|s ss H _ IH]; [reflexivity|]. cbn [map]. rewrite (built_round s H), IH. reflexivity. Qed.

  Lemma thm_into nb (a old : atom S E) : regular S E nb a -> fits S E nb a ->
    wide S (length (a_fops S E a)) nb (a_cmats S E old) -> wide S (length (a_fops S E a)) nb (a_cdmats S E old) ->
    exists f b, atom_h5_write S E to_roc a = Ok f /\ atom_h5_read S E of_roc pad listing f old = Ok b /\ same_but_matrices S E b a /\
      (a_cmats S E old = [] -> a_cdmats S E old = [] -> b = a) /\
      forall i j, i < length (a_fops S E a) -> j < nb ->
        entry S (a_cmats S E b) i j = match entry S (a_cmats S E a) i j with
                                      | Some (Some m) => Some (Some m)
                                      | _ => if i <? length (a_cmats S E old) then entry S (a_cmats S E old) i j else Some None
                                      end /\
        entry S (a_cdmats S E b) i j = match entry S (a_cdmats S E a) i j with
                                       | Some (Some m) => Some (Some m)
                                       | _ => if i <? length (a_cdmats S E old) then entry S (a_cdmats S E old) i j else Some None
                                       end.
  Proof.
    intros (R1 & R2 & R3 & R4 & R5 & R6 & R7 & R8 & R9 & R10) (F1 & F2 & F3 & F4 & F5 & F6 & F7) W1 W2.
    destruct (h_round (a_h S E a) F1 F2 F3 F4) as (ds & W & R).
    destruct (read_sparse_ok S listing Hlist (length (a_fops S E a)) nb (a_cdconn S E a) (a_cmats S E a) (a_cmats S E old) R1 R2 F6 F7 R6 R8 W1) as (cm & C1 & C2 & C3 & C4).
    destruct (read_sparse_ok S listing Hlist (length (a_fops S E a)) nb (a_cdconn S E a) (a_cdmats S E a) (a_cdmats S E old) R1 R2 F6 F7 R5 R7 W2) as (cdm & D1 & D2 & D3 & D4).
    eexists _, _. split; [unfold atom_h5_write; rewrite W; cbn [bind]; reflexivity|].
    split.
    { unfold atom_h5_read. cbn [f_fops f_h f_dim f_subs f_eigs f_cdconn f_cconn f_c f_cd f_gs f_vac_index f_vac f_qn].
      rewrite (thm_fops_h5 pad _ F5). cbn [bind]. rewrite R. cbn [bind]. rewrite C1. cbn [bind]. rewrite D1. cbn [bind]. reflexivity. }
    split.
    { unfold same_but_matrices. cbn [a_h a_fops a_dim a_subs a_eigs a_cdconn a_cconn a_gs a_qn a_first a_vac_index a_vac].
      rewrite (subs_round _ R9), R10. repeat split; reflexivity. }
    split.
    { intros O1 O2. rewrite (C3 O1), (D3 O2), (subs_round _ R9). rewrite <- R10. destruct a; reflexivity. }
    intros i j Hi Hj. cbn [a_cmats a_cdmats]. split; [apply C4|apply D4]; assumption.
  Qed.
  Lemma thm_out nb (a old : atom S E) i j m row : regular S E nb a -> fits S E nb a ->
    (entry S (a_cmats S E a) i j = Some (Some m) /\ nth_error (a_cmats S E old) i = Some row) \/
    (entry S (a_cdmats S E a) i j = Some (Some m) /\ nth_error (a_cdmats S E old) i = Some row) -> length row <= j ->
    exists f, atom_h5_write S E to_roc a = Ok f /\ atom_h5_read S E of_roc pad listing f old = UB.
  Proof.
    intros (R1 & R2 & R3 & R4 & R5 & R6 & R7 & R8 & R9 & R10) (F1 & F2 & F3 & F4 & F5 & F6 & F7) He Hl.
    destruct (h_round (a_h S E a) F1 F2 F3 F4) as (ds & W & R).
    eexists. split; [unfold atom_h5_write; rewrite W; cbn [bind]; reflexivity|].
    unfold atom_h5_read. cbn [f_fops f_h f_dim f_subs f_eigs f_cdconn f_cconn f_c f_cd f_gs f_vac_index f_vac f_qn].
    rewrite (thm_fops_h5 pad _ F5). cbn [bind]. rewrite R. cbn [bind]. destruct He as [[He Ho]|[He Ho]].
    - rewrite (read_sparse_out S listing Hlist (length (a_fops S E a)) nb (a_cdconn S E a) (a_cmats S E a) (a_cmats S E old) i j m row R1 F6 F7 R6 R8 He Ho Hl). reflexivity.
    - destruct (read_sparse_nt S listing Hlist (length (a_fops S E a)) nb (a_cdconn S E a) (a_cmats S E a) (a_cmats S E old) F6 F7 R6) as [-> |(t' & ->)]; [reflexivity|]. cbn [bind].
      rewrite (read_sparse_out S listing Hlist (length (a_fops S E a)) nb (a_cdconn S E a) (a_cdmats S E a) (a_cdmats S E old) i j m row R1 F6 F7 R5 R7 He Ho Hl). reflexivity.
  Qed.
  Lemma thm_long_h (a : atom S E) : is_map (a_h S E a) -> ~ short (a_h S E a) -> atom_h5_write S E to_roc a = Throw.
  Proof. intros H1 H2. unfold atom_h5_write. rewrite (thm_long to_roc (a_h S E a) H1 H2). reflexivity. Qed.
  (** a file without the Hamiltonian and the quantum numbers *)
  Lemma thm_old_file (f : atom_file S E) (old b : atom S E) : f_h S E f = None -> f_qn S E f = None -> atom_h5_read S E of_roc pad listing f old = Ok b ->
    a_h S E b = a_h S E old /\ a_qn S E b = a_qn S E old.
  Proof.
    intros H1 H2 H. unfold atom_h5_read in H. rewrite H1, H2 in H. apply bind_inv in H. destruct H as (l & _ & H). cbn [bind] in H.
    apply bind_inv in H. destruct H as (cm & _ & H). apply bind_inv in H. destruct H as (cdm & _ & H). injection H as <-. split; reflexivity.
  Qed.
End Whole.

(** ---- the constructors ---- *)
Lemma set_index_adds k fs : forall s, set_index k (sub_adds s fs) = sub_adds (set_index k s) fs.
Proof. induction fs as [|f fs IH]; intros s; [reflexivity|]. unfold sub_adds in *. cbn [fold_left]. rewrite IH. reflexivity. Qed.
Lemma built_set_index k s : built s -> built (set_index k s).
Proof. intros (fs & Hd & Es). exists fs. split; [exact Hd|]. rewrite Es at 1. rewrite set_index_adds. reflexivity. Qed.
Lemma built_adds i fs : NoDup fs -> built (sub_adds (sub_new i) fs).
Proof. intros H. exists fs. split; [exact H|]. destruct (sub_adds_fields i fs) as [_ ->]. reflexivity. Qed.
Lemma built_new i : built (sub_new i).
Proof. apply (built_adds i []). constructor. Qed.

Section Made.
  Context (S : scalar_ops) (E : energy_ops S).
  Variable eigen : mat S -> list E * mat S.
  (** one eigenvector (column) per eigenvalue *)
  Hypothesis Heig : forall m, m_cols (snd (eigen m)) = length (fst (eigen m)).

  Lemma em_insert_In x y (m : list (em_key S E * eigsys S E)) : In y (em_insert S E x m) -> y = x \/ In y m.
  Proof.
    induction m as [|z m IH]; cbn [em_insert]; [intros [H|[]]; auto|]. destruct (em_lt S E (fst x) (fst z)); [cbn; intuition|].
    destruct (em_lt S E (fst z) (fst x)); [|auto]. intros [H|H]; [right; left; exact H|]. apply IH in H. cbn. tauto.
  Qed.
  Lemma em_all_In y bs : forall m, In y (fold_left (fun m b => em_insert S E b m) bs m) -> In y m \/ In y bs.
  Proof.
    induction bs as [|b bs IH]; intros m H; [left; exact H|]. cbn [fold_left] in H. apply IH in H. destruct H as [H|H]; [|right; right; exact H].
    apply em_insert_In in H. destruct H as [->|H]; [right; left; reflexivity|left; exact H].
  Qed.
  Lemma remap_length ord row : length (remap_row ord row) = length row.
  Proof.
    unfold remap_row. assert (G : forall (xs : list (nat * Z)) r, length (fold_left (fun r (ic : nat * Z) => upd (index_of ord (fst ic))
                     (fun _ => if (snd ic =? -1)%Z then (-1)%Z else Z.of_nat (index_of ord (Z.to_nat (snd ic)))) r) xs r) = length r).
    { induction xs as [|x xs IH]; intros r; [reflexivity|]. cbn [fold_left]. rewrite IH. apply upd_length. }
    apply G.
  Qed.

  Definition nonvoid (e : eigsys S E) : Prop := 0 < m_cols (umat S E e).
  Lemma make_c_mat_shape l d subs es op row ms : Forall nonvoid es -> make_c_mat S E l d subs es op row = Ok ms ->
    length ms = length row /\ forall j m, nth_error ms j = Some (Some m) -> 0 < m_rows m /\ 0 < m_cols m.
  Proof.
    intros He H. unfold make_c_mat in H. apply mapM_inv in H. split; [rewrite <- (Forall2_len _ _ _ H); apply enum_length|].
    intros j m Hj. destruct (Forall2_nth' _ _ _ _ _ H Hj) as ([b c] & _ & Hx). cbn [fst snd] in Hx. destruct (c =? -1)%Z; [injection Hx as Hx; discriminate Hx|].
    apply bind_inv in Hx. destruct Hx as (m' & Hm & Hx). injection Hx as ->. unfold make_op_matrix in Hm.
    destruct (nth_error subs b) as [sf|]; [|discriminate Hm]. destruct (nth_error subs (Z.to_nat c)) as [st|]; [|discriminate Hm].
    destruct (nth_error es b) as [ef|] eqn:E1; [|discriminate Hm]. destruct (nth_error es (Z.to_nat c)) as [et|] eqn:E2; [|discriminate Hm].
    apply bind_inv in Hm. destruct Hm as (cs & _ & Hm). injection Hm as <-. cbn [m_mul m_dag m_rows m_cols].
    rewrite Forall_forall in He. split; [exact (He et (nth_error_In _ _ E2))|exact (He ef (nth_error_In _ _ E1))].
  Qed.

  Lemma table_shape (l : fops) d subs es (mk : indices -> omap S) (conn : list (list Z)) nb (cm : table S) :
    Forall nonvoid es -> length conn = length l -> Forall (fun r => length r = nb) conn ->
    mapM (fun nx : nat * indices => make_c_mat S E l d subs es (mk (snd nx)) (nth (fst nx) conn [])) (enum l) = Ok cm ->
    rectangular S (length l) nb cm /\ no_hollow S cm.
  Proof.
    intros He Hc Hr H. apply mapM_inv in H. assert (Hl : length cm = length l) by (rewrite <- (Forall2_len _ _ _ H); apply enum_length). split.
    - split; [exact Hl|]. apply Forall_forall. intros row Hrow. apply In_nth_error in Hrow. destruct Hrow as (i & Hi).
      destruct (Forall2_nth' _ _ _ _ _ H Hi) as ([n x] & Hn & Hx). apply enum_nth in Hn. destruct Hn as (y & Hn & [= -> ->]). cbn [fst snd] in Hx.
      destruct (make_c_mat_shape _ _ _ _ _ _ _ He Hx) as [Hlen _]. rewrite Hlen. rewrite Forall_forall in Hr. apply Hr, nth_In.
      rewrite Hc. apply nth_error_Some. cbn in Hn. congruence.
    - intros i j m Hm. unfold entry in Hm. destruct (nth_error cm i) as [row|] eqn:Hi; [|discriminate Hm].
      destruct (Forall2_nth' _ _ _ _ _ H Hi) as ([n x] & _ & Hx). cbn [fst snd] in Hx. exact (proj2 (make_c_mat_shape _ _ _ _ _ _ _ He Hx) j m Hm).
  Qed.

  Lemma complete_regular nb l h d subs cd c qn a : Forall built subs -> length cd = length l -> length c = length l ->
    Forall (fun r => length r = nb) cd -> Forall (fun r => length r = nb) c ->
    complete S E eigen l h d subs cd c qn = Ok a -> regular S E nb a /\ a_h S E a = h /\ a_fops S E a = l.
  Proof.
    intros Hs L1 L2 W1 W2 H. unfold complete in H. apply bind_inv in H. destruct H as (tm & _ & H). apply bind_inv in H. destruct H as (bs & Hbs & H). cbv zeta in H.
    set (gs := fold_left (gs_step S E) bs None) in H. set (em := fold_left (fun m b => em_insert S E b m) bs []) in H.
    set (ord := map (fun x => snd (fst x)) em) in H.
    set (es := map (fun x => mkEig S E (map (fun x0 : E => match gs with Some g => e_sub x0 g | None => x0 end) (evals S E (snd x))) (umat S E (snd x))) em) in H.
    apply bind_inv in H. destruct H as (cm & Hcm & H). apply bind_inv in H. destruct H as (cdm & Hcdm & H).
    destruct (compute_vacuum S E d _ es (fill_first S E es)) as [vi v]. injection H as <-.
    assert (He : Forall nonvoid es).
    { apply Forall_forall. intros e Hin. apply in_map_iff in Hin. destruct Hin as (x & <- & Hx). apply em_all_In in Hx. destruct Hx as [[]|Hx].
      apply mapM_inv in Hbs. apply In_nth_error in Hx. destruct Hx as (k & Hx). destruct (Forall2_nth' _ _ _ _ _ Hbs Hx) as (ks & _ & Hd).
      unfold diag_block in Hd. apply bind_inv in Hd. destruct Hd as (m & _ & Hd). destruct (eigen m) as [ev u] eqn:Ee.
      specialize (Heig m). rewrite Ee in Heig. cbn [fst snd] in Heig. destruct ev as [|e0 ev]; [discriminate Hd|]. injection Hd as <-.
      unfold nonvoid. cbn [umat snd]. rewrite Heig. cbn. lia. }
    assert (W1' : Forall (fun r => length r = nb) (map (remap_row ord) cd)).
    { apply Forall_map. revert W1. apply Forall_impl. intros r <-. apply remap_length. }
    assert (W2' : Forall (fun r => length r = nb) (map (remap_row ord) c)).
    { apply Forall_map. revert W2. apply Forall_impl. intros r <-. apply remap_length. }
    split; [|split; reflexivity]. unfold regular. cbn [a_fops a_cdconn a_cconn a_cdmats a_cmats a_subs a_first a_eigs].
    destruct (table_shape l d _ es (op_c S) _ nb cm He (eq_trans (map_length _ _) L2) W2' Hcm) as [T1 T2].
    destruct (table_shape l d _ es (op_c_dag S) _ nb cdm He (eq_trans (map_length _ _) L1) W1' Hcdm) as [T3 T4].
    rewrite !map_length. repeat (split; [first [assumption|apply T1|apply T2|apply T3|apply T4]|]).
    split; [|reflexivity]. apply Forall_map, Forall_forall. intros [k o] _. cbn [fst snd]. apply built_set_index.
    destruct (nth_in_or_default o subs (sub_new 0)) as [Hin| ->]; [|apply built_new]. rewrite Forall_forall in Hs. exact (Hs _ Hin).
  Qed.

  Variable ch : labels -> nat -> nat -> bool.
  Variable nm : labels -> labels.
  Lemma conn_row_length s kept m : length (conn_row S s kept m) = length kept.
  Proof.
    unfold conn_row. assert (G : forall xs r, length (fold_left (fun row (x : (nat * nat) * S) =>
                 match pos_of kept (lookup_basis_state s (fst (fst x))), pos_of kept (lookup_basis_state s (snd (fst x))) with
                 | Some bi, Some bf => upd bi (fun _ => Z.of_nat bf) row
                 | _, _ => row
                 end) xs r) = length r).
    { induction xs as [|x xs IH]; intros r; [reflexivity|]. cbn [fold_left]. rewrite IH. destruct (pos_of _ _); [|reflexivity]. destruct (pos_of _ _); [apply upd_length|reflexivity]. }
    rewrite G. apply repeat_length.
  Qed.
  Lemma fill_built s n_min n_max : Forall built (fill_spaces S s n_min n_max).
  Proof.
    apply Forall_forall. intros h Hh. apply In_nth_error in Hh. destruct Hh as (k & Hk). unfold fill_spaces in Hk.
    rewrite (fill_gen (lookup_basis_state s) (fock_filter n_min n_max) (seq 0 (sp_dim s)) [] (map (fun k : nat => sub_new (Z.of_nat k)) (seq 0 (n_subspaces s)))) with (k := k) (h := h); [| |exact Hk].
    - apply built_adds. apply sorted_nodup. apply cls_sorted.
    - intros k' h' Hk'. rewrite nth_error_map in Hk'. destruct (nth_error (seq 0 (n_subspaces s)) k') as [x|] eqn:Ex; [|discriminate Hk']. injection Hk' as <-.
      assert (Hx := Ex). apply nth_error_nth with (d := 0) in Ex. assert (k' < length (seq 0 (n_subspaces s))) by (apply nth_error_Some; congruence).
      rewrite seq_length in H. rewrite seq_nth in Ex by exact H. cbn in Ex. subst x. reflexivity.
  Qed.
  Lemma auto_regular l h hyb n_min n_max a : autopartition S E eigen ch nm l h hyb n_min n_max = Ok a ->
    exists nb, regular S E nb a /\ a_h S E a = h /\ a_fops S E a = l.
  Proof.
    unfold autopartition. intros H. apply bind_inv in H. destruct H as (d & _ & H). apply bind_inv in H. destruct H as (? & _ & H). apply bind_inv in H. destruct H as (? & _ & H). cbv zeta in H.
    match type of H with context [merges_melem S ch nm ?s0 ?ops] => pose proof (merges_melem_merges S ch nm ops s0) as M; destruct (merges_melem S ch nm s0 ops) as [[s mes]|]; [|discriminate H] end.
    destruct M as [_ M]. rewrite map_length in M.
    exists (length (filter (fun h => negb (sub_size h =? 0)) (fill_spaces S s n_min n_max))).
    refine (complete_regular _ l h d _ _ _ [] a _ _ _ _ _ H).
    - apply Forall_map, Forall_forall. intros [k o] Hin. cbn [fst snd]. apply built_set_index. apply enum_In in Hin. apply nth_error_In in Hin. apply filter_In in Hin.
      pose proof (fill_built s n_min n_max) as B. rewrite Forall_forall in B. apply B, Hin.
    - rewrite map_length. exact M.
    - rewrite map_length. exact M.
    - apply Forall_map, Forall_forall. intros me _. rewrite conn_row_length, map_length. reflexivity.
    - apply Forall_map, Forall_forall. intros me _. rewrite conn_row_length, map_length. reflexivity.
  Qed.

  Variable q_real : S -> E.
  Variable q_complex : S -> bool.
  Variable q_lt : E -> E -> bool.
  Definition below (r : nat) (s : sub_hs) : Prop := exists fs, NoDup fs /\ Forall (fun f => (f < N.of_nat r)%N) fs /\ s = sub_adds (sub_new (sub_index s)) fs.
  Lemma fold_not_ok {A B} (f : res A -> B -> res A) : (forall b, f Throw b = Throw) -> (forall b, f UB b = UB) -> forall xs r y, fold_left f xs r = Ok y -> exists z, r = Ok z.
  Proof.
    intros H1 H2. induction xs as [|x xs IH]; intros r y H; cbn [fold_left] in H; [eauto|]. apply IH in H. destruct H as (z & H). destruct r as [w| |]; [eauto|rewrite H1 in H; discriminate H|rewrite H2 in H; discriminate H].
  Qed.
  Lemma split_built l qns d n : forall r ks ks', Forall (below r) (snd ks) ->
    fold_left (split_step S E q_real q_complex q_lt l qns d) (seq r n) (Ok ks) = Ok ks' -> Forall (below (r + n)) (snd ks').
  Proof.
    induction n as [|n IH]; intros r ks ks' Hb H; cbn [seq fold_left] in H; [injection H as <-; rewrite Nat.add_0_r; exact Hb|].
    destruct (fold_not_ok (split_step S E q_real q_complex q_lt l qns d) (fun _ => eq_refl) (fun _ => eq_refl) _ _ _ H) as (ks1 & E1). rewrite E1 in H. replace (r + Datatypes.S n) with (Datatypes.S r + n) by lia.
    apply (IH (Datatypes.S r) ks1 ks'); [|exact H]. clear H IH.
    unfold split_step in E1. cbn [bind] in E1. apply bind_inv in E1. destruct E1 as (st & _ & E1). apply bind_inv in E1. destruct E1 as (q & _ & E1).
    set (ks2 := match qn_find S E q_lt q (fst ks) with Some _ => ks | None => (fst ks ++ [q], snd ks ++ [sub_new (Z.of_nat (length (snd ks)))]) end) in E1.
    assert (B2 : Forall (below r) (snd ks2)).
    { unfold ks2. destruct (qn_find S E q_lt q (fst ks)); [exact Hb|]. cbn [snd]. apply Forall_app. split; [exact Hb|]. constructor; [|constructor]. exists []. split; [constructor|]. split; [constructor|reflexivity]. }
    destruct ks2 as [keys subs]. cbn [snd] in B2. destruct (nth_error subs _) as [s0|]; [|discriminate E1]. injection E1 as <-. cbn [snd].
    apply Forall_forall. intros s Hs. apply In_nth_error in Hs. destruct Hs as (k & Hs). rewrite upd_nth in Hs. rewrite Forall_forall in B2.
    destruct (nth_error subs k) as [s1|] eqn:E1; [|destruct (_ =? _); discriminate Hs]. destruct (B2 s1 (nth_error_In _ _ E1)) as (fs & F1 & F2 & F3).
    assert (F2' : Forall (fun f => (f < N.of_nat (Datatypes.S r))%N) fs) by (revert F2; apply Forall_impl; intros f Hf; lia).
    destruct (_ =? k); cbn [option_map] in Hs; injection Hs as <-; [|exists fs; auto].
    exists (fs ++ [N.of_nat r]). split; [|split].
    - apply NoDup_app'; [exact F1|constructor; [intros []|constructor]|]. intros x Hx [<-|[]]. rewrite Forall_forall in F2. specialize (F2 _ Hx). lia.
    - apply Forall_app. split; [exact F2'|]. constructor; [lia|constructor].
    - unfold sub_adds. rewrite fold_left_app. cbn [fold_left]. rewrite F3 at 1. reflexivity.
  Qed.
  Lemma conn_step_length l qns keys op before st row row' : conn_step S E q_real q_complex q_lt l qns keys op before st row = Ok row' -> length row' = length row.
  Proof.
    unfold conn_step. intros H. apply bind_inv in H. destruct H as (t & _ & H). apply bind_inv in H. destruct H as (after & _ & H). apply bind_inv in H. destruct H as (n2 & _ & H).
    destruct (kisz n2); [injection H as <-; reflexivity|]. cbv zeta in H. destruct (nth_error row _); [|discriminate H].
    destruct (_ =? -1)%Z; [injection H as <-; apply upd_length|]. destruct (_ =? _)%Z; [injection H as <-; reflexivity|discriminate H].
  Qed.
  Lemma conn_rows_length l qns d keys nb o rows : conn_rows S E q_real q_complex q_lt l qns d keys nb o = Ok rows -> length (fst rows) = nb /\ length (snd rows) = nb.
  Proof.
    unfold conn_rows. assert (G : forall xs r0 r1, fold_left (conn_state S E q_real q_complex q_lt l qns d keys o) xs (Ok r0) = Ok r1 -> length (fst r1) = length (fst r0) /\ length (snd r1) = length (snd r0)).
    { induction xs as [|x xs IH]; intros r0 r1 H; cbn [fold_left] in H; [injection H as <-; auto|].
      destruct (fold_not_ok (conn_state S E q_real q_complex q_lt l qns d keys o) (fun _ => eq_refl) (fun _ => eq_refl) _ _ _ H) as (r & E1). rewrite E1 in H. destruct (IH r r1 H) as [-> ->]. clear H IH.
      unfold conn_state in E1. cbn [bind] in E1. apply bind_inv in E1. destruct E1 as (st & _ & E1). apply bind_inv in E1. destruct E1 as (bf & _ & E1).
      apply bind_inv in E1. destruct E1 as (cd & E2 & E1). apply bind_inv in E1. destruct E1 as (c & E3 & E1). injection E1 as <-. cbn [fst snd].
      split; [exact (conn_step_length _ _ _ _ _ _ _ _ E2)|exact (conn_step_length _ _ _ _ _ _ _ _ E3)]. }
    intros H. destruct (G _ _ _ H) as [-> ->]. cbn [fst snd]. rewrite repeat_length. auto.
  Qed.
  Lemma qn_regular l h qns a : atom_diag_qn S E eigen q_real q_complex q_lt h l qns = Ok a ->
    exists nb, regular S E nb a /\ a_h S E a = h /\ a_fops S E a = l.
  Proof.
    unfold atom_diag_qn, partition_with_qn. intros H. apply bind_inv in H. destruct H as (d & _ & H). apply bind_inv in H. destruct H as (ks & Hks & H). apply bind_inv in H. destruct H as (rows & Hr & H).
    exists (length (snd ks)). apply mapM_inv in Hr.
    assert (Hall : forall r, In r rows -> length (fst r) = length (snd ks) /\ length (snd r) = length (snd ks)).
    { intros r Hin. apply In_nth_error in Hin. destruct Hin as (k & Hin). destruct (Forall2_nth' _ _ _ _ _ Hr Hin) as (o & _ & Ho). exact (conn_rows_length _ _ _ _ _ _ _ Ho). }
    refine (complete_regular _ l h d _ _ _ _ a _ _ _ _ _ H).
    - pose proof (split_built l qns d (Z.to_nat d) 0 ([], []) ks (Forall_nil _) Hks) as B. revert B. apply Forall_impl. intros s (fs & B1 & _ & B2). exists fs. auto.
    - rewrite map_length. symmetry. exact (Forall2_len _ _ _ Hr).
    - rewrite map_length. symmetry. exact (Forall2_len _ _ _ Hr).
    - apply Forall_map, Forall_forall. intros r Hin. apply (Hall r Hin).
    - apply Forall_map, Forall_forall. intros r Hin. apply (Hall r Hin).
  Qed.
End Made.
