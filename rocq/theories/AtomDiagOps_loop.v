(** The loop of get_matrix_element_of_monomial over the states of a block. *)
From Coq Require Import ZArith NArith List Arith Bool Lia Sorted.
From Verif Require Import Base Indices Scalar Fock FockFacts OpModel OpExpr OpNormal Op_proofs Hilbert Hilbert_proofs
  State StateSpec State_proofs ImpOp ImpOp_proofs ImpOp_run ImpOp_thms Partition Partition_imp AtomDiag AtomDiagSpec AtomDiag_lists AtomDiag_terms
  AtomDiag_mats AtomDiagOps AtomDiagOpsSpec AtomDiagOps_mono.
Import ListNotations.
Local Open Scope nat_scope.

(** what is used of a constructed object *)
Record atom_facts (S : scalar_ops) (E : energy_ops S) (l : fops) (d : Z) (keep : N -> bool) (a : atom S E) : Prop := {
  af_fops : a_fops S E a = l;
  af_dim : a_dim S E a = d;
  af_first : a_first S E a = fill_first S E (a_eigs S E a);
  af_subs : forall b sp, nth_error (a_subs S E a) b = Some sp -> space_ok (Sub sp) /\ sub_index sp = Z.of_nat b;
  af_cover : blocks_cover S E (length l) keep a;
  af_shape : forall b B ev u, block S E a b B ev u -> length ev = length B /\ m_rows u = length B /\ m_cols u = length B }.

Section Loop.
  Context (S : scalar_ops) (L : scalar_laws S) (E : energy_ops S).
  Local Open Scope K_scope.
  Add Ring Kring6 : (sl_ring S L).
  Variable l : fops.
  Variable d : Z.
  Hypothesis Hl : (length l <= 17)%nat.
  Hypothesis Hd : hs_dim (length l) = Ok d.
  Notation pos := (mode l).
  Variable keep : N -> bool.
  Variable a : atom S E.
  Hypothesis F : atom_facts S E l d keep a.
  Notation block := (block S E a).

  Lemma block_of_sub b sp : nth_error (a_subs S E a) b = Some sp -> exists ev u, block b (sub_states sp) ev u.
  Proof.
    intros Hsp. destruct (af_cover _ _ _ _ _ _ F) as (_ & _ & _ & B4). destruct (nth_error_lt (a_eigs S E a) b) as [x Hx].
    - rewrite B4. eapply nth_error_Some_lt. exact Hsp.
    - exists (evals S E x), (umat S E x), sp, x. auto.
  Qed.
  Lemma block_fun b B B' ev ev' u u' : block b B ev u -> block b B' ev' u' -> B = B' /\ ev = ev' /\ u = u'.
  Proof. intros (sp & es & H1 & H2 & <- & <- & <-) (sp' & es' & H1' & H2' & <- & <- & <-). rewrite H1 in H1'. rewrite H2 in H2'. injection H1' as <-. injection H2' as <-. auto. Qed.
  Lemma block_dim b B ev u : block b B ev u -> dim_of S E a b = Ok (length B).
  Proof. intros H. destruct (af_shape _ _ _ _ _ _ F _ _ _ _ H) as (H1 & _). destruct H as (sp & es & _ & H2 & _ & H4 & _). unfold dim_of. rewrite H2, H4, H1. reflexivity. Qed.
  Lemma block_unitary b B ev u : block b B ev u -> unitary_of S E a b = Ok u.
  Proof. intros (sp & es & _ & H2 & _ & _ & H5). unfold unitary_of. rewrite H2, H5. reflexivity. Qed.
  Lemma block_lt b B ev u : block b B ev u -> b < n_blocks S E a.
  Proof. intros (sp & es & _ & H2 & _). unfold n_blocks. eapply nth_error_Some_lt. exact H2. Qed.
  Lemma block_ex b : b < n_blocks S E a -> exists B ev u, block b B ev u.
  Proof.
    intros H. destruct (af_cover _ _ _ _ _ _ F) as (_ & _ & _ & B4). unfold n_blocks in H. rewrite B4 in H.
    destruct (nth_error_lt _ _ H) as [sp Hsp]. destruct (block_of_sub b sp Hsp) as (ev & u & Hb). eauto.
  Qed.
  Lemma block_bound b B ev u f : block b B ev u -> In f B -> (f < 2 ^ N.of_nat (length l))%N.
  Proof. intros H Hf. destruct (af_cover _ _ _ _ _ _ F) as (B1 & _). apply (B1 f). eauto 6. Qed.
  Lemma block_NoDup b B ev u : block b B ev u -> NoDup B.
  Proof. intros (sp & es & H1 & _ & <- & _). apply (basis_NoDup (Sub sp)). apply (af_subs _ _ _ _ _ _ F _ _ H1). Qed.
  Lemma block_same b b' B B' ev ev' u u' f : block b B ev u -> block b' B' ev' u' -> In f B -> In f B' -> b = b'.
  Proof. intros. destruct (af_cover _ _ _ _ _ _ F) as (_ & _ & B3 & _). eapply B3; eauto. Qed.

  Lemma find_block g :
    (find (fun sp => sub_has sp g) (a_subs S E a) = None /\ forall b B ev u, block b B ev u -> ~ In g B) \/
    (exists b sp ev u k, find (fun sp => sub_has sp g) (a_subs S E a) = Some sp /\ block b (sub_states sp) ev u /\
       nth_error (sub_states sp) k = Some g /\ sub_at sp g = Ok k /\ sub_index sp = Z.of_nat b).
  Proof.
    destruct (find (fun sp => sub_has sp g) (a_subs S E a)) as [sp|] eqn:Ef.
    - right. apply find_some in Ef. destruct Ef as [Hin Hh]. destruct (In_nth_error _ _ Hin) as [b Hb].
      destruct (af_subs _ _ _ _ _ _ F b sp Hb) as [Hok Hidx]. destruct (block_of_sub b sp Hb) as (ev & u & HB).
      change (sp_has (Sub sp) g = true) in Hh. apply (sp_has_spec _ Hok) in Hh. destruct (sp_index_In _ Hok g Hh) as (k & Ek & _ & Hk).
      exists b, sp, ev, u, k. auto.
    - left. split; [reflexivity|]. intros b B ev u (sp & es & H1 & _ & <- & _) Hin.
      pose proof (find_none _ _ Ef sp (nth_error_In _ _ H1)) as Hn. cbv beta in Hn.
      destruct (af_subs _ _ _ _ _ _ F b sp H1) as [Hok _]. apply (sp_has_spec (Sub sp) Hok) in Hin. cbn [sp_has] in Hin. congruence.
  Qed.

  Variable m : monomial.
  Hypothesis Hnorm : normal m.
  Hypothesis Hon : mono_on (fun i => In i l) m.
  Hypothesis Hst : single_target S E l a (word S m).
  Variables (b : nat) (B : list N) (ev : list E) (u : mat S).
  Hypothesis HB : block b B ev u.
  Notation melm := (@mel_mono pos S m).

  Definition inv (n : nat) (mb : option (mat S) * Z) : Prop :=
    (mb = (None, (-1)%Z) /\ forall k f b' B' ev' u' g, k < n -> nth_error B k = Some f -> block b' B' ev' u' -> In g B' -> melm f g = k0) \/
    (exists b' B' ev' u' M, mb = (Some M, Z.of_nat b') /\ block b' B' ev' u' /\ m_rows M = length B' /\ m_cols M = length B /\
       (exists f g, In f B /\ In g B' /\ melm f g <> k0) /\
       forall q k f g, nth_error B' q = Some g -> nth_error B k = Some f -> m_at M q k = if k <? n then melm f g else k0).

  Lemma inv_step n mb f : inv n mb -> nth_error B n = Some f ->
    exists mb', me_state S E a (op_raw (k1 : S) m) b (Ok mb) (n, f) = Ok mb' /\ inv (n + 1) mb'.
  Proof.
    intros I Hf. assert (HfB : In f B) by (eapply nth_error_In; exact Hf).
    destruct (run_mono S L l d Hl Hd m f Hnorm Hon (block_bound _ _ _ _ _ HB HfB)) as (st & t & E1 & E2 & Ht).
    unfold me_state. cbn [bind fst snd]. rewrite (af_dim _ _ _ _ _ _ F), (af_fops _ _ _ _ _ _ F), E1. cbn [bind]. rewrite E2. cbn [bind].
    (* nothing from this state *)
    assert (Skip : (forall b' B' ev' u' g, block b' B' ev' u' -> In g B' -> melm f g = k0) -> inv (n + 1) mb).
    { intros Hz. destruct I as [[-> Hi]|(b' & B' & ev' & u' & M & -> & Hb' & R & C & Hx & He)].
      - left. split; [reflexivity|]. intros k f1 b' B' ev' u' g Hk Hk1 Hb' Hg. destruct (Nat.eq_dec k n) as [->|Hne].
        + rewrite Hf in Hk1. injection Hk1 as <-. eauto.
        + apply (Hi k f1 b' B' ev' u' g); auto. lia.
      - right. exists b', B', ev', u', M. split; [reflexivity|]. split; [exact Hb'|]. split; [exact R|]. split; [exact C|]. split; [exact Hx|].
        intros q k f1 g Hq Hk. rewrite (He q k f1 g Hq Hk). destruct (Nat.ltb_spec k n), (Nat.ltb_spec k (n + 1)); try lia; try reflexivity.
        assert (k = n) by lia. subst k. rewrite Hf in Hk. injection Hk as <-. symmetry. apply (Hz b' B' ev' u' g Hb'). eapply nth_error_In. exact Hq. }
    destruct (act pos m f) as [[s g]|] eqn:Ea.
    2:{ rewrite Ht. cbn [fold_left]. exists mb. split; [reflexivity|]. apply Skip. intros. unfold mel_mono. rewrite Ea. reflexivity. }
    destruct Ht as [-> Hg]. cbn [fold_left]. unfold me_visit. cbn [bind fst snd]. rewrite N2Nat.id.
    assert (Hm : forall g', melm f g' = if N.eqb g g' then sgn s else k0) by (intros g'; unfold mel_mono; rewrite Ea; reflexivity).
    destruct (find_block g) as [[-> Hno]|(b2 & sp & ev2 & u2 & k & -> & Hb2 & Hk & Eat & Hidx)].
    { exists mb. split; [reflexivity|]. apply Skip. intros b' B' ev' u' g' Hb' Hg'. rewrite Hm. destruct (N.eqb_spec g g') as [->|]; [|reflexivity].
      destruct (Hno _ _ _ _ Hb' Hg'). }
    rewrite Hidx. assert (Ez : (Z.of_nat b2 <? 0)%Z = false) by (apply Z.ltb_ge; lia). rewrite Ez, Nat2Z.id, (block_dim _ _ _ _ Hb2), (block_dim _ _ _ _ HB). cbn [bind].
    assert (Hkl : k < length (sub_states sp)) by (eapply nth_error_Some_lt; exact Hk).
    assert (Hnl : n < length B) by (eapply nth_error_Some_lt; exact Hf).
    assert (Hmg : melm f g <> k0) by (rewrite Hm, N.eqb_refl; apply (sgn_nonzero S L)).
    assert (Fin : forall M, m_rows M = length (sub_states sp) -> m_cols M = length B ->
      (forall q k' f1 g1, nth_error (sub_states sp) q = Some g1 -> nth_error B k' = Some f1 -> m_at M q k' = if k' <? n then melm f1 g1 else k0) ->
      exists mb', (do m0 <- m_set S M k n (sgn s) ; Ok (Some m0, Z.of_nat b2)) = Ok mb' /\ inv (n + 1) mb').
    { intros M R C He. unfold m_set. rewrite R, C. assert (E3 : (k <? length (sub_states sp)) && (n <? length B) = true) by (apply andb_true_iff; split; apply Nat.ltb_lt; assumption).
      rewrite E3. cbn [bind]. eexists. split; [reflexivity|]. right. exists b2, (sub_states sp), ev2, u2. eexists. split; [reflexivity|]. split; [exact Hb2|].
      cbn [m_rows m_cols m_at]. split; [reflexivity|]. split; [reflexivity|]. split; [exists f, g; split; [exact HfB|]; split; [eapply nth_error_In; exact Hk|exact Hmg]|].
      intros q k' f1 g1 Hq Hk'. rewrite (He q k' f1 g1 Hq Hk').
      destruct (Nat.eqb_spec k' n) as [->|Hne].
      - rewrite Hf in Hk'. injection Hk' as <-. assert (E4 : (n <? n + 1) = true) by (apply Nat.ltb_lt; lia). rewrite E4, Nat.ltb_irrefl, andb_true_r, Hm.
        destruct (Nat.eqb_spec q k) as [->|Hqk].
        + rewrite Hk in Hq. injection Hq as <-. rewrite N.eqb_refl. reflexivity.
        + destruct (N.eqb_spec g g1) as [->|]; [|reflexivity]. destruct Hqk.
          apply (proj1 (NoDup_nth_error _) (block_NoDup _ _ _ _ Hb2)); [eapply nth_error_Some_lt; exact Hq|congruence].
      - rewrite andb_false_r. destruct (Nat.ltb_spec k' n), (Nat.ltb_spec k' (n + 1)); try lia; reflexivity. }
    destruct I as [[-> Hi]|(b' & B' & ev' & u' & M & -> & Hb' & R & C & (f0 & g0 & Hf0 & Hg0 & Hx) & He)]; cbn [fst].
    - cbn [bind]. rewrite Eat. cbn [bind]. apply Fin; [reflexivity|reflexivity|]. intros q k' f1 g1 Hq Hk'. cbn [m_zeros m_at].
      destruct (Nat.ltb_spec k' n) as [Hlt|]; [|reflexivity]. symmetry. apply (Hi k' f1 b2 (sub_states sp) ev2 u2 g1 Hlt Hk' Hb2). eapply nth_error_In. exact Hq.
    - cbn [bind]. rewrite Eat. cbn [bind]. assert (Q : b' = b2).
      { apply (Hst b b' b2 B B' (sub_states sp) ev ev' ev2 u u' u2 f0 f g0 g HB Hb' Hb2 Hf0 HfB Hg0 (nth_error_In _ _ Hk)); rewrite (word_bracket S L l); assumption. }
      subst b'. destruct (block_fun _ _ _ _ _ _ _ Hb' Hb2) as (-> & _ & _). apply Fin; assumption.
  Qed.

  Lemma enum_from {A} (xs : list A) : enum xs = combine (seq 0 (length xs)) xs. Proof. reflexivity. Qed.
  Lemma inv_loop : exists mb, fold_left (me_state S E a (op_raw (k1 : S) m) b) (enum B) (Ok (None, (-1)%Z)) = Ok mb /\ inv (length B) mb.
  Proof.
    assert (G : forall rest n mb, (forall k f, nth_error rest k = Some f -> nth_error B (n + k) = Some f) -> inv n mb ->
      exists mb', fold_left (me_state S E a (op_raw (k1 : S) m) b) (combine (seq n (length rest)) rest) (Ok mb) = Ok mb' /\ inv (n + length rest) mb').
    { induction rest as [|f rest IH]; intros n mb Hr I.
      - exists mb. cbn [length]. rewrite Nat.add_0_r. auto.
      - cbn [length seq combine fold_left]. destruct (inv_step n mb f I) as (mb' & E1 & I'). { specialize (Hr 0 f eq_refl). rewrite Nat.add_0_r in Hr. exact Hr. }
        rewrite E1. rewrite Nat.add_1_r in I'. destruct (IH (Datatypes.S n) mb') as (mb'' & E2 & I''); [|exact I'|].
        { intros k f' Hk. specialize (Hr (Datatypes.S k) f' Hk). rewrite Nat.add_succ_r in Hr. exact Hr. }
        exists mb''. split; [exact E2|]. rewrite Nat.add_succ_r. exact I''. }
    apply (G B 0 (None, (-1)%Z)); [auto|]. left. split; [reflexivity|]. intros. lia.
  Qed.

  Lemma monomial_ok : exists c om, get_matrix_element_of_monomial S E a m b = Ok (c, om) /\
    ((c = (-1)%Z /\ om = None /\ forall b' B' ev' u' f g, block b' B' ev' u' -> In f B -> In g B' -> melm f g = k0) \/
     (exists b' B' ev' u' M, c = Z.of_nat b' /\ om = Some M /\ block b' B' ev' u' /\ m_rows M = length B' /\ m_cols M = length B /\
       (exists f g, In f B /\ In g B' /\ melm f g <> k0) /\
       forall j i, j < length B' -> i < length B -> m_at M j i = element S l (word S m) B' u' B u j i)).
  Proof.
    destruct inv_loop as (mb & Em & I). unfold get_matrix_element_of_monomial. rewrite (af_fops _ _ _ _ _ _ F).
    assert (Et : exists ts, imp_terms l (op_raw (k1 : S) m) = Ok ts).
    { destruct (af_cover _ _ _ _ _ _ F) as (_ & B2 & _). destruct (B2 _ _ _ _ HB) as [_ Hne]. destruct B as [|f0 B0]; [destruct (Hne eq_refl)|].
      destruct (run_mono S L l d Hl Hd m f0 Hnorm Hon (block_bound _ _ _ _ _ HB (or_introl eq_refl))) as (st & t & _ & E2 & _).
      unfold imp_run in E2. destruct (imp_terms l (op_raw (k1 : S) m)) as [ts| |]; [eauto|discriminate..]. }
    destruct Et as [ts ->]. cbn [bind]. assert (HB' := HB). destruct HB' as (sp & es & H1 & _ & H3 & _). rewrite H1, H3, Em. cbn [bind].
    destruct I as [[-> Hi]|(b' & B' & ev' & u' & M & -> & Hb' & R & C & Hx & He)]; cbn [fst snd].
    - exists (-1)%Z, None. split; [reflexivity|]. left. split; [reflexivity|]. split; [reflexivity|]. intros b' B' ev' u' f g Hb' Hf Hg.
      destruct (In_nth_error _ _ Hf) as [k Hk]. apply (Hi k f b' B' ev' u' g); auto. eapply nth_error_Some_lt. exact Hk.
    - destruct (af_shape _ _ _ _ _ _ F _ _ _ _ HB) as (_ & R0 & C0). destruct (af_shape _ _ _ _ _ _ F _ _ _ _ Hb') as (_ & R1 & C1).
      assert (Q : exists P, (do p <- m_prod S (m_dag S u') M ; do q <- m_prod S p u ; Ok (Z.of_nat b', Some q)) = Ok (Z.of_nat b', Some P) /\
        m_rows P = length B' /\ m_cols P = length B /\ forall j i, j < length B' -> i < length B -> m_at P j i = element S l (word S m) B' u' B u j i).
      { unfold m_prod. cbn [m_dag m_cols m_rows]. rewrite R1, R, Nat.eqb_refl. cbn [bind m_mul m_cols m_rows]. rewrite C, R0, Nat.eqb_refl. cbn [bind].
        eexists. split; [reflexivity|]. cbn [m_rows m_cols m_at m_dag]. split; [exact C1|]. split; [exact C0|]. intros j i Hj Hi'. unfold m_mul. cbn [m_rows m_cols m_at m_dag]. rewrite R1, C. unfold element, msum.
        f_equal. apply map_ext_in. intros k Hk. apply in_seq in Hk. f_equal. f_equal. apply map_ext_in. intros q Hq. apply in_seq in Hq. f_equal.
        destruct (nth_error_lt B k) as [fk Hfk]; [lia|]. destruct (nth_error_lt B' q) as [fq Hfq]; [lia|].
        rewrite (nth_of_error _ k fk 0%N Hfk), (nth_of_error _ q fq 0%N Hfq), (He q k fk fq Hfq Hfk), (word_bracket S L l).
        assert (E5 : (k <? length B) = true) by (apply Nat.ltb_lt; lia). rewrite E5. reflexivity. }
      destruct Q as (P & EP & RP & CP & VP). exists (Z.of_nat b'), (Some P).
      assert (Ez : match Z.of_nat b' with
        | 0%Z | Z.pos _ => do u'0 <- unitary_of S E a (Z.to_nat (Z.of_nat b')) ; do u0 <- unitary_of S E a b ; do p <- m_prod S (m_dag S u'0) M ; do q <- m_prod S p u0 ; Ok (Z.of_nat b', Some q)
        | Z.neg _ => Ok (Z.of_nat b', None) end = Ok (Z.of_nat b', Some P)).
      { rewrite Nat2Z.id, (block_unitary _ _ _ _ Hb'), (block_unitary _ _ _ _ HB). cbn [bind]. rewrite EP. destruct b'; reflexivity. }
      split; [exact Ez|]. right. exists b', B', ev', u', P. auto 10.
  Qed.
End Loop.
