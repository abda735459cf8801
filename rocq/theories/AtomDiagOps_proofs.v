(** get_op_mat, act, trace_rho_op and quantum_number_eigenvalues. *)
From Coq Require Import ZArith NArith List Arith Bool Lia Sorted.
From Verif Require Import Base Indices Scalar Fock FockFacts OpModel OpExpr OpNormal Op_proofs Hilbert Hilbert_proofs
  State StateSpec State_proofs ImpOp ImpOp_proofs ImpOp_run ImpOp_thms Partition Partition_imp AtomDiag AtomDiagSpec AtomDiag_lists AtomDiag_terms
  AtomDiag_mats AtomDiag_final AtomDiagOps AtomDiagOpsSpec AtomDiagOps_mono AtomDiagOps_loop AtomDiagOps_sums.
Import ListNotations.
Local Open Scope nat_scope.

Section Ops.
  Context (S : scalar_ops) (L : scalar_laws S) (E : energy_ops S).
  Local Open Scope K_scope.
  Add Ring Kring8 : (sl_ring S L).
  Variable l : fops.
  Variable d : Z.
  Hypothesis Hl : (length l <= 17)%nat.
  Hypothesis Hd : hs_dim (length l) = Ok d.
  Notation pos := (mode l).
  Variable keep : N -> bool.
  Variable a : atom S E.
  Hypothesis F : atom_facts S E l d keep a.
  Notation block := (block S E a).
  Notation elem := (elem S E l a).
  Notation get := (get_matrix_element_of_monomial S E a).
  Notation nb := (n_blocks S E a).
  Notation size := (size_of S E a).
  Notation before := (before S E a).

  Lemma block_get b : b < nb -> block b (states_of S E a b) (match nth_error (a_eigs S E a) b with Some x => evals S E x | None => [] end) (vectors_of S E a b).
  Proof.
    intros H. destruct (block_ex _ _ _ _ _ _ F b H) as (B & ev & u & sp & es & H1 & H2 & _). exists sp, es. unfold states_of, vectors_of. rewrite H1, H2. auto.
  Qed.
  Lemma block_states b B ev u : block b B ev u -> states_of S E a b = B /\ vectors_of S E a b = u /\ size b = length B.
  Proof. intros (sp & es & H1 & H2 & <- & <- & <-). unfold size_of, states_of, vectors_of. rewrite H1, H2. auto. Qed.

  Lemma element_terms e op B' u' B u j i : (forall x, uses e x -> In x l) -> eval e = Some op ->
    element S l e B' u' B u j i = ksum (map (fun t : monomial * S => snd t * element S l (word S (fst t)) B' u' B u j i) op).
  Proof.
    intros Hu He. unfold element.
    transitivity (msum S (length B) (fun k => ksum (map (fun t : monomial * S => snd t * (msum S (length B') (fun q => kconj (m_at u' q j) * bracket S l (word S (fst t)) (nth q B' 0%N) (nth k B 0%N)) * m_at u k i)) op))).
    - apply (ms_ext S). intros k Hk.
      transitivity (msum S (length B') (fun q => ksum (map (fun t : monomial * S => kconj (m_at u' q j) * (snd t * bracket S l (word S (fst t)) (nth q B' 0%N) (nth k B 0%N))) op)) * m_at u k i).
      { f_equal. apply (ms_ext S). intros q Hq. rewrite (bracket_terms S L l e op _ _ Hu He), (ks_l S L). reflexivity. }
      rewrite (ms_ks S L), <- (ks_r S L). apply ks_ext. intros t Ht. rewrite <- (ms_r S L), <- (ms_r S L), <- (ms_l S L).
      apply (ms_ext S). intros q Hq. ring.
    - rewrite (ms_ks S L). apply ks_ext. intros t Ht. rewrite (ms_l S L). reflexivity.
  Qed.
  Lemma element_zero e B' u' B u j i : (forall f g, In f B -> In g B' -> bracket S l e g f = k0) -> element S l e B' u' B u j i = k0.
  Proof.
    intros H. unfold element. apply (ms_zero S L). intros k Hk. rewrite (ms_zero S L); [ring|]. intros q Hq. rewrite H; [ring|apply nth_In; exact Hk|apply nth_In; exact Hq].
  Qed.

  Variable op : omap S.
  Variable e : expr S.
  Hypothesis Hue : forall x, uses e x -> In x l.
  Hypothesis Hev : eval e = Some op.
  Hypothesis Hop : op_ok S l op.
  Hypothesis Hts : terms_single S E l a op.

  (** the result for one term, in terms of the elements *)
  Lemma term_ok t b : In t op -> b < nb ->
    exists c om, get (fst t) b = Ok (c, om) /\
    ((c = (-1)%Z /\ om = None /\ forall b', b' < nb -> ~ reaches S l (word S (fst t)) (states_of S E a b) (states_of S E a b')) \/
     (exists b' M, c = Z.of_nat b' /\ om = Some M /\ b' < nb /\ m_rows M = size b' /\ m_cols M = size b /\
        reaches S l (word S (fst t)) (states_of S E a b) (states_of S E a b') /\
        (forall b2, b2 < nb -> reaches S l (word S (fst t)) (states_of S E a b) (states_of S E a b2) -> b2 = b') /\
        forall j i, j < size b' -> i < size b -> m_at M j i = elem (word S (fst t)) b' j b i)).
  Proof.
    intros Ht Hb. destruct t as [m c]. cbn [fst]. assert (HB := block_get b Hb).
    unfold op_ok in Hop. rewrite Forall_forall in Hop. destruct (Hop _ Ht) as [Hn Ho]. cbn [fst] in Hn, Ho. assert (Hs := Hts m c Ht).
    destruct (monomial_ok S L E l d Hl Hd keep a F m Hn Ho Hs b _ _ _ HB) as (z & om & Eg & H). exists z, om. split; [exact Eg|].
    destruct H as [(-> & -> & Hz)|(b' & B' & ev' & u' & M & -> & -> & HB' & R & C & (f & g & Hf & Hg & Hx) & Hm)].
    - left. split; [reflexivity|]. split; [reflexivity|]. intros b' Hb' (f & f' & H1 & H2 & H3). apply H3. rewrite (word_bracket S L l). apply (Hz b' _ _ _ f f' (block_get b' Hb') H1 H2).
    - right. destruct (block_states _ _ _ _ HB') as (<- & <- & Sz). assert (Hb' := block_lt _ _ _ _ _ _ _ HB').
      assert (Hr : reaches S l (word S m) (states_of S E a b) (states_of S E a b')) by (exists f, g; rewrite (word_bracket S L l); auto).
      exists b', M. split; [reflexivity|]. split; [reflexivity|]. split; [exact Hb'|]. split; [exact R|]. split; [exact C|]. split; [exact Hr|]. split; [|exact Hm].
      intros b2 Hb2 (f2 & g2 & H1 & H2 & H3). rewrite (word_bracket S L l) in H3.
      apply (Hs b b2 b' _ _ _ _ _ _ _ _ _ f2 f g2 g HB (block_get b2 Hb2) HB' H1 Hf H2 Hg); rewrite (word_bracket S L l); assumption.
  Qed.
  (** the contribution of one term to each element *)
  Definition part (r : Z * option (mat S)) (b' j i : nat) : S :=
    match snd r with Some M => if (fst r =? Z.of_nat b')%Z then m_at M j i else k0 | None => k0 end.
  Lemma term_part t b : In t op -> b < nb -> exists r, get (fst t) b = Ok r /\
    (forall M, snd r = Some M -> exists b', fst r = Z.of_nat b' /\ b' < nb /\ m_rows M = size b' /\ m_cols M = size b) /\
    forall b' j i, b' < nb -> j < size b' -> i < size b -> part r b' j i = elem (word S (fst t)) b' j b i.
  Proof.
    intros Ht Hb. destruct (term_ok t b Ht Hb) as (z & om & Eg & H). exists (z, om). split; [exact Eg|]. unfold part. cbn [fst snd].
    destruct H as [(-> & -> & Hz)|(b1 & M & -> & -> & Hb1 & R & C & _ & Hu & Hm)].
    - split; [discriminate|]. intros b' j i Hb' _ _. symmetry. apply element_zero. intros f g Hf Hg. destruct (kisz (bracket S l (word S (fst t)) g f)) eqn:Ez; [apply (sl_isz S L), Ez|].
      destruct (Hz b' Hb'). exists f, g. split; [exact Hf|]. split; [exact Hg|]. intros Q. apply (sl_isz S L) in Q. congruence.
    - split; [intros M' HM; injection HM as <-; exists b1; auto|]. intros b' j i Hb' Hj Hi. destruct (Z.eqb_spec (Z.of_nat b1) (Z.of_nat b')) as [Q|Q].
      + apply Nat2Z.inj in Q. subst b'. apply Hm; assumption.
      + symmetry. apply element_zero. intros f g Hf Hg. destruct (kisz (bracket S l (word S (fst t)) g f)) eqn:Ez; [apply (sl_isz S L), Ez|].
        destruct Q. f_equal. symmetry. apply (Hu b' Hb'). exists f, g. split; [exact Hf|]. split; [exact Hg|]. intros Q. apply (sl_isz S L) in Q. congruence.
  Qed.
  Lemma elem_terms b' j b i : elem e b' j b i = ksum (map (fun t : monomial * S => snd t * elem (word S (fst t)) b' j b i) op).
  Proof. apply element_terms; assumption. Qed.
  Lemma reach_term B B' : reaches S l e B B' -> exists t, In t op /\ reaches S l (word S (fst t)) B B'.
  Proof.
    intros (f & f' & H1 & H2 & H3). rewrite (bracket_terms S L l e op f f' Hue Hev) in H3.
    assert (G : exists t, In t op /\ bracket S l (word S (fst t)) f' f <> k0).
    { clear - H3 L. induction op as [|t o IH]; [destruct H3; reflexivity|]. cbn [map ksum] in H3.
      destruct (kisz (bracket S l (word S (fst t)) f' f)) eqn:Ez.
      - destruct IH as (t' & Ht' & Hx). { intros Q. apply H3. apply (sl_isz S L) in Ez. transitivity (snd t * k0 + k0); [f_equal; [f_equal; exact Ez|exact Q]|ring]. }
        exists t'. split; [right; exact Ht'|exact Hx].
      - exists t. split; [left; reflexivity|]. intros Q. apply (sl_isz S L) in Q. congruence. }
    destruct G as (t & Ht & Hx). exists t. split; [exact Ht|]. exists f, f'. auto.
  Qed.

  (** ---- get_op_mat ---- *)
  Definition two_targets (b : nat) : Prop := exists t1 t2 b1 b2, In t1 op /\ In t2 op /\ b1 < nb /\ b2 < nb /\ b1 <> b2 /\
    reaches S l (word S (fst t1)) (states_of S E a b) (states_of S E a b1) /\ reaches S l (word S (fst t2)) (states_of S E a b) (states_of S E a b2).
  Definition om_inv (b : nat) (done : omap S) (r : Z * option (mat S)) : Prop :=
    (r = ((-1)%Z, None) /\ forall t b', In t done -> b' < nb -> ~ reaches S l (word S (fst t)) (states_of S E a b) (states_of S E a b')) \/
    (exists b' M, r = (Z.of_nat b', Some M) /\ b' < nb /\ m_rows M = size b' /\ m_cols M = size b /\
       (exists t, In t done /\ reaches S l (word S (fst t)) (states_of S E a b) (states_of S E a b')) /\
       (forall t b2, In t done -> b2 < nb -> reaches S l (word S (fst t)) (states_of S E a b) (states_of S E a b2) -> b2 = b') /\
       forall j i, j < size b' -> i < size b -> m_at M j i = ksum (map (fun t : monomial * S => snd t * elem (word S (fst t)) b' j b i) done)).
  Lemma om_loop b : b < nb -> forall rest done r, op = done ++ rest -> om_inv b done r ->
    (exists r', fold_left (op_mat_step S E a b) rest (Ok r) = Ok r' /\ om_inv b op r') \/
    (fold_left (op_mat_step S E a b) rest (Ok r) = Throw /\ two_targets b).
  Proof.
    intros Hb. induction rest as [|t rest IH]; intros done r Eop I.
    - left. exists r. split; [reflexivity|]. rewrite app_nil_r in Eop. rewrite Eop. exact I.
    - cbn [fold_left]. assert (Ht : In t op) by (rewrite Eop; apply in_or_app; right; left; reflexivity).
      destruct (term_ok t b Ht Hb) as (z & om & Eg & H). remember (op_mat_step S E a b (Ok r) t) as x eqn:Ex. unfold op_mat_step in Ex. cbn [bind] in Ex. rewrite Eg in Ex. cbn [bind fst snd] in Ex.
      assert (Eop' : op = (done ++ [t]) ++ rest) by (rewrite <- app_assoc; exact Eop).
      assert (Hth : forall rs, fold_left (op_mat_step S E a b) rs Throw = Throw) by (induction rs; auto).
      destruct H as [(-> & -> & Hz)|(b1 & M & -> & -> & Hb1 & R & C & Hr & Hu & Hm)].
      + subst x. apply (IH (done ++ [t]) r Eop'). destruct I as [[-> Hi]|(b' & M & -> & Hb' & R & C & Hx & Hu & Hm)].
        * left. split; [reflexivity|]. intros t' b' Ht' Hb'. apply in_app_or in Ht'. destruct Ht' as [Ht'|[<-|[]]]; auto.
        * right. exists b', M. split; [reflexivity|]. split; [exact Hb'|]. split; [exact R|]. split; [exact C|]. split; [destruct Hx as (t0 & H1 & H2); exists t0; split; [apply in_or_app; left; exact H1|exact H2]|]. split.
          { intros t' b2 Ht' Hb2 Hr2. apply in_app_or in Ht'. destruct Ht' as [Ht'|[<-|[]]]; [eapply Hu; eauto|destruct (Hz b2 Hb2 Hr2)]. }
          intros j i Hj Hi. rewrite map_app, (ksum_app S L), Hm by assumption. cbn [map ksum].
          assert (Q : elem (word S (fst t)) b' j b i = k0).
          { apply element_zero. intros f g Hf Hg. destruct (kisz (bracket S l (word S (fst t)) g f)) eqn:Ez; [apply (sl_isz S L), Ez|].
            destruct (Hz b' Hb'). exists f, g. split; [exact Hf|]. split; [exact Hg|]. intros Q. apply (sl_isz S L) in Q. congruence. }
          rewrite Q. ring.
      + destruct I as [[-> Hi]|(b' & M0 & -> & Hb' & R0 & C0 & Hx & Hu0 & Hm0)]; cbn [fst snd] in Ex.
        * change ((-1 =? -1)%Z) with true in Ex. cbv iota in Ex. subst x. apply (IH (done ++ [t]) _ Eop'). right. exists b1. eexists. split; [reflexivity|]. cbn [m_rows m_cols m_scale m_at].
          split; [exact Hb1|]. split; [exact R|]. split; [exact C|]. split; [exists t; split; [apply in_or_app; right; left; reflexivity|exact Hr]|]. split.
          { intros t' b2 Ht' Hb2 Hr2. apply in_app_or in Ht'. destruct Ht' as [Ht'|[<-|[]]]; [destruct (Hi t' b2 Ht' Hb2 Hr2)|apply Hu; assumption]. }
          intros j i Hj Hi'. rewrite map_app, (ksum_app S L). cbn [map ksum]. rewrite Hm by assumption. rewrite (ks_zero S L); [ring|].
          intros t' Ht'. assert (Q : elem (word S (fst t')) b1 j b i = k0).
          { apply element_zero. intros f g Hf Hg. destruct (kisz (bracket S l (word S (fst t')) g f)) eqn:Ez; [apply (sl_isz S L), Ez|].
            destruct (Hi t' b1 Ht' Hb1). exists f, g. split; [exact Hf|]. split; [exact Hg|]. intros Q. apply (sl_isz S L) in Q. congruence. }
          rewrite Q. ring.
        * assert (Ez : (Z.of_nat b' =? -1)%Z = false) by (apply Z.eqb_neq; lia). rewrite Ez in Ex. destruct (Z.eqb_spec (Z.of_nat b') (Z.of_nat b1)) as [Q|Q]; cbn [negb] in Ex.
          -- apply Nat2Z.inj in Q. subst b1. unfold m_plus in Ex. cbn [m_scale m_rows m_cols] in Ex. rewrite R0, C0, R, C, !Nat.eqb_refl in Ex. cbn [andb bind] in Ex. subst x.
             apply (IH (done ++ [t]) _ Eop'). right. exists b'. eexists. split; [reflexivity|]. cbn [m_rows m_cols m_at]. split; [exact Hb'|]. split; [reflexivity|]. split; [reflexivity|].
             split; [exists t; split; [apply in_or_app; right; left; reflexivity|exact Hr]|]. split.
             { intros t' b2 Ht' Hb2 Hr2. apply in_app_or in Ht'. destruct Ht' as [Ht'|[<-|[]]]; [eapply Hu0; eauto|apply Hu; assumption]. }
             intros j i Hj Hi'. rewrite map_app, (ksum_app S L). cbn [map ksum]. cbn [m_scale m_at]. unfold m_scale. cbn [m_at]. rewrite Hm, Hm0 by assumption. ring.
          -- right. subst x. rewrite Hth. split; [reflexivity|]. destruct Hx as (t0 & Ht0 & Hr0). exists t0, t, b', b1. split; [rewrite Eop; apply in_or_app; left; exact Ht0|].
             split; [exact Ht|]. split; [exact Hb'|]. split; [exact Hb1|]. split; [congruence|]. auto.
  Qed.
  Lemma op_mat_block_ok b : b < nb ->
    (exists c om, op_mat_block S E a op b = Ok (c, om) /\ describes S E l a e b c om /\ ~ two_targets b) \/
    (op_mat_block S E a op b = Throw /\ two_targets b).
  Proof.
    intros Hb. unfold op_mat_block. destruct (om_loop b Hb op [] ((-1)%Z, None) eq_refl) as [(r & Er & I)|H]; [|left|right; exact H].
    { left. split; [reflexivity|]. intros t b' []. }
    assert (St : forall b' B' ev' u', block b' B' ev' u' -> B' = states_of S E a b' /\ u' = vectors_of S E a b' /\ b' < nb).
    { intros b' B' ev' u' Hb'. destruct (block_states _ _ _ _ Hb') as (<- & <- & _). split; [reflexivity|]. split; [reflexivity|]. exact (block_lt _ _ _ _ _ _ _ Hb'). }
    destruct I as [[-> Hi]|(b' & M & -> & Hb' & R & C & Hx & Hu & Hm)]; (eexists; eexists; split; [exact Er|]; split).
    - intros B ev u HB. left. split; [reflexivity|]. split; [reflexivity|]. destruct (St _ _ _ _ HB) as (-> & -> & _). intros b' B' ev' u' HB' Hr.
      destruct (St _ _ _ _ HB') as (-> & -> & Hb'). destruct (reach_term _ _ Hr) as (t & Ht & Hrt). exact (Hi t b' Ht Hb' Hrt).
    - intros (t1 & _ & b1 & _ & H1 & _ & H2 & _ & _ & H3 & _). exact (Hi t1 b1 H1 H2 H3).
    - intros B ev u HB. right. destruct (St _ _ _ _ HB) as (-> & -> & _). exists b', (states_of S E a b'). eexists. exists (vectors_of S E a b'), M. split; [reflexivity|]. split; [reflexivity|].
      split; [exact (block_get b' Hb')|]. split; [exact R|]. split; [exact C|]. split.
      + intros j i Hj Hi. rewrite (Hm j i Hj Hi). symmetry. apply elem_terms.
      + intros b2 B2 ev2 u2 HB2 Hr. destruct (St _ _ _ _ HB2) as (-> & -> & Hb2). destruct (reach_term _ _ Hr) as (t & Ht & Hrt). exact (Hu t b2 Ht Hb2 Hrt).
    - intros (t1 & t2 & b1 & b2 & H1 & H2 & H3 & H4 & H5 & H6 & H7). apply H5. rewrite (Hu t1 b1 H1 H3 H6), (Hu t2 b2 H2 H4 H7). reflexivity.
  Qed.
  Lemma get_op_mat_ok :
    (exists r, get_op_mat S E a op = Ok r /\ length r = nb /\ (forall b c om, nth_error r b = Some (c, om) -> describes S E l a e b c om) /\ forall b, b < nb -> ~ two_targets b) \/
    (get_op_mat S E a op = Throw /\ exists b, b < nb /\ two_targets b).
  Proof.
    unfold get_op_mat.
    assert (G : forall n k, (k + n)%nat = nb ->
      (exists r, mapM (op_mat_block S E a op) (seq k n) = Ok r /\ length r = n /\ (forall b c om, nth_error r b = Some (c, om) -> describes S E l a e (k + b)%nat c om) /\ forall b, k <= b < nb -> ~ two_targets b) \/
      (mapM (op_mat_block S E a op) (seq k n) = Throw /\ exists b, b < nb /\ two_targets b)).
    { induction n as [|n IH]; intros k Hk.
      - left. exists []. split; [reflexivity|]. split; [reflexivity|]. split; [intros [|b] c om H; discriminate H|]. intros b Hb. lia.
      - cbn [seq mapM]. destruct (op_mat_block_ok k) as [(c & om & -> & D & T)|[-> T]]; [lia| |right; split; [reflexivity|exists k; split; [lia|exact T]]].
        cbn [bind]. destruct (IH (Datatypes.S k)) as [(r & -> & Lr & Dr & Tr)|[-> Q]]; [lia| |right; split; [reflexivity|exact Q]].
        left. exists ((c, om) :: r). split; [reflexivity|]. split; [cbn; lia|]. split.
        + intros [|b] c' om' H; cbn in H; [injection H as <- <-; rewrite Nat.add_0_r; exact D|]. rewrite Nat.add_succ_r. apply (Dr b c' om' H).
        + intros b Hb. destruct (Nat.eq_dec b k) as [->|]; [exact T|apply Tr; lia]. }
    destruct (G nb 0 eq_refl) as [(r & H1 & H2 & H3 & H4)|H]; [left|right; exact H]. exists r. split; [exact H1|]. split; [exact H2|]. split; [exact H3|]. intros b Hb. apply H4. lia.
  Qed.
End Ops.
