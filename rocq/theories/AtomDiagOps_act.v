(** act, trace_rho_op and quantum_number_eigenvalues. *)
From Coq Require Import ZArith NArith List Arith Bool Lia Sorted.
From Verif Require Import Base Indices Scalar Fock FockFacts OpModel OpExpr OpNormal Op_proofs Hilbert Hilbert_proofs
  State StateSpec State_proofs ImpOp ImpOp_proofs ImpOp_run ImpOp_thms Partition Partition_imp AtomDiag AtomDiagSpec AtomDiag_lists AtomDiag_terms
  AtomDiag_mats AtomDiag_final AtomDiagOps AtomDiagOpsSpec AtomDiagOps_mono AtomDiagOps_loop AtomDiagOps_sums AtomDiagOps_proofs.
Import ListNotations.
Local Open Scope nat_scope.

Lemma first_from_nth ns : forall k b, b < length ns -> nth_error (first_from k ns) b = Some (k + fold_right Nat.add 0 (firstn b ns)).
Proof.
  induction ns as [|n ns IH]; intros k b Hb; cbn in Hb; [lia|]. destruct b as [|b]; cbn; [f_equal; lia|]. rewrite IH by lia. f_equal. lia.
Qed.

Lemma sum_firstn ns : forall b n, nth_error ns b = Some n -> fold_right Nat.add 0 (firstn (S b) ns) = fold_right Nat.add 0 (firstn b ns) + n.
Proof.
  induction ns as [|m ns IH]; intros [|b] n H; cbn in H; try discriminate H.
  - injection H as ->. cbn. lia.
  - specialize (IH b n H). cbn [firstn fold_right] in *. lia.
Qed.

Section Act.
  Context (S : scalar_ops) (L : scalar_laws S) (E : energy_ops S).
  Local Open Scope K_scope.
  Add Ring Kring9 : (sl_ring S L).
  Variable l : fops.
  Variable d : Z.
  Hypothesis Hl : (length l <= 17)%nat.
  Hypothesis Hd : hs_dim (length l) = Ok d.
  Notation pos := (mode l).
  Variable keep : N -> bool.
  Variable a : atom S E.
  Hypothesis F : atom_facts S E l d keep a.
  Notation block := (block S E a).
  Notation elem := (elem S E l a).
  Notation get := (get_matrix_element_of_monomial S E a).
  Notation nb := (n_blocks S E a).
  Notation size := (size_of S E a).
  Notation before := (before S E a).

  Lemma size_evals b x : nth_error (a_eigs S E a) b = Some x -> size b = length (evals S E x).
  Proof.
    intros Hx. assert (Hb : b < nb) by (unfold n_blocks; eapply nth_error_Some_lt; exact Hx).
    pose proof (block_get S E l d keep a F b Hb) as HB. rewrite Hx in HB. destruct (af_shape _ _ _ _ _ _ F _ _ _ _ HB) as (H1 & _). unfold size_of. congruence.
  Qed.
  Lemma before_S b : before (Datatypes.S b) = (before b + size b)%nat.
  Proof.
    unfold AtomDiagOpsSpec.before. rewrite seq_S, map_app. cbn [map]. rewrite fold_right_app. cbn [fold_right Nat.add].
    generalize (map size (seq 0 b)) (size b). intros xs n. induction xs as [|x xs IH]; cbn [fold_right]; lia.
  Qed.
  Lemma before_le b b' : b <= b' -> before b <= before b'.
  Proof. induction 1 as [|b' H IH]; [lia|]. rewrite before_S. lia. Qed.
  Lemma range_ok b : b < nb -> index_range_of_subspace S E a b = Ok (before b, (before b + size b)%nat).
  Proof.
    intros Hb. unfold index_range_of_subspace. rewrite (af_first _ _ _ _ _ _ F). unfold fill_first.
    rewrite first_from_nth by (rewrite map_length; exact Hb). destruct (nth_error_lt (a_eigs S E a) b Hb) as [x Hx]. rewrite Hx, <- (size_evals b x Hx).
    assert (Q : fold_right Nat.add 0%nat (firstn b (map (fun e : eigsys S E => length (evals S E e)) (a_eigs S E a))) = before b).
    { assert (G : forall b, b <= nb -> fold_right Nat.add 0%nat (firstn b (map (fun e : eigsys S E => length (evals S E e)) (a_eigs S E a))) = before b).
      { clear b Hb x Hx. induction b as [|b IH]; intros Hb; [reflexivity|]. destruct (nth_error_lt (a_eigs S E a) b) as [x Hx]; [unfold n_blocks in Hb; lia|].
        rewrite (sum_firstn _ b (length (evals S E x))) by (rewrite nth_error_map, Hx; reflexivity). rewrite IH by lia. rewrite before_S, (size_evals b x Hx). reflexivity. }
      apply G. lia. }
    rewrite Q. reflexivity.
  Qed.

  Lemma nth_add_at f (w v : list S) p : p < length v -> nth p (v_add_at S f w v) k0 = if (f <=? p) && (p <? f + length w)%nat then nth p v k0 + nth (p - f) w k0 else nth p v k0.
  Proof.
    intros Hp. unfold v_add_at. rewrite (nth_of_error _ p _ k0 (eq_trans (nth_error_map _ _ _) (f_equal (option_map _) (nth_error_nth' (seq 0 (length v)) 0%nat (eq_ind_r (fun n => p < n) Hp (seq_length _ _)))))).
    rewrite seq_nth by exact Hp. reflexivity.
  Qed.
  Lemma length_add_at f (w v : list S) : length (v_add_at S f w v) = length v.
  Proof. unfold v_add_at. rewrite map_length, seq_length. reflexivity. Qed.
  (** positions of different blocks are different *)
  Lemma in_range_block b b' j : b < nb -> b' < nb -> j < size b' -> (before b <=? before b' + j) && (before b' + j <? before b + size b)%nat = (b =? b').
  Proof.
    intros Hb Hb' Hj. destruct (Nat.eqb_spec b b') as [->|Hne].
    - apply andb_true_iff. split; [apply Nat.leb_le|apply Nat.ltb_lt]; lia.
    - apply andb_false_iff. destruct (Nat.lt_ge_cases b b') as [H|H].
      + right. apply Nat.ltb_ge. pose proof (before_le (Datatypes.S b) b' H) as Q. rewrite before_S in Q. lia.
      + left. apply Nat.leb_gt. assert (H' : Datatypes.S b' <= b) by lia. pose proof (before_le _ _ H') as Q. rewrite before_S in Q. lia.
  Qed.
  Lemma pos_lt b j : b < nb -> j < size b -> (before b + j < before nb)%nat.
  Proof. intros Hb Hj. pose proof (before_le (Datatypes.S b) nb Hb) as Q. rewrite before_S in Q. lia. Qed.

  Variable op : omap S.
  Variable e : expr S.
  Hypothesis Hue : forall x, uses e x -> In x l.
  Hypothesis Hev : eval e = Some op.
  Hypothesis Hop : op_ok S l op.
  Hypothesis Hts : terms_single S E l a op.
  Notation part_ok := (term_part S L E l d Hl Hd keep a F op Hop Hts).

  (** ---- act ---- *)
  Variable st : list S.
  Hypothesis Hst : before nb <= length st.
  Definition moved (t : monomial * S) (b b' j : nat) : S :=
    snd t * msum S (size b) (fun i => elem (word S (fst t)) b' j b i * nth (before b + i)%nat st k0).
  Lemma act_block_ok t b v : In t op -> b < nb -> length v = length st ->
    exists v', act_block S E a st t (Ok v) b = Ok v' /\ length v' = length st /\
      (forall b' j, b' < nb -> j < size b' -> nth (before b' + j)%nat v' k0 = nth (before b' + j)%nat v k0 + moved t b b' j) /\
      forall p, before nb <= p -> nth p v' k0 = nth p v k0.
  Proof.
    intros Ht Hb Hv. destruct (part_ok t b Ht Hb) as (r & Er & Hsh & Hp). unfold act_block. cbn [bind]. rewrite Er. cbn [bind]. unfold part in Hp.
    destruct (snd r) as [M|].
    - destruct (Hsh M eq_refl) as (b1 & Ef & Hb1 & R & C). rewrite Ef, Nat2Z.id, (range_ok b1 Hb1), (range_ok b Hb). cbn [bind fst snd].
      assert (H1 : before b1 + size b1 <= before nb) by (rewrite <- before_S; apply before_le; exact Hb1).
      assert (H2 : before b + size b <= before nb) by (rewrite <- before_S; apply before_le; exact Hb).
      assert (Et : ((before b1 + size b1 <=? length v) && (before b + size b <=? length st) && (m_rows M =? before b1 + size b1 - before b1) && (m_cols M =? before b + size b - before b))%nat = true).
      { rewrite !andb_true_iff. repeat split; [apply Nat.leb_le; lia|apply Nat.leb_le; lia|apply Nat.eqb_eq; lia|apply Nat.eqb_eq; lia]. }
      rewrite Et. eexists. split; [reflexivity|]. split; [rewrite length_add_at; exact Hv|]. split.
      + intros b' j Hb' Hj. pose proof (pos_lt b' j Hb' Hj) as Hlt. rewrite nth_add_at by lia. rewrite map_length, seq_length, R.
        rewrite (in_range_block b1 b' j Hb1 Hb' Hj). destruct (Nat.eqb_spec b1 b') as [->|Hne].
        * replace (before b' + j - before b')%nat with j by lia.
          rewrite (nth_of_error _ j _ k0 (eq_trans (nth_error_map _ _ _) (f_equal (option_map _) (nth_error_nth' (seq 0 (size b')) 0%nat (eq_ind_r (fun n => j < n) Hj (seq_length _ _)))))).
          rewrite seq_nth by exact Hj. cbn [Nat.add]. f_equal. unfold moved, msum. rewrite C, <- (ks_l S L). apply ks_ext. intros i Hi. apply in_seq in Hi.
          cbn [m_scale m_at]. rewrite <- (Hp b' j i Hb' Hj) by lia. rewrite Ef, Z.eqb_refl. ring.
        * assert (Q : moved t b b' j = k0).
          { unfold moved. rewrite (ms_zero S L); [ring|]. intros i Hi. rewrite <- (Hp b' j i Hb' Hj Hi), Ef. destruct (Z.eqb_spec (Z.of_nat b1) (Z.of_nat b')); [lia|]. ring. }
          rewrite Q. ring.
      + intros p Hpp. destruct (Nat.lt_ge_cases p (length v)) as [Hlt|Hge].
        * rewrite nth_add_at by exact Hlt. rewrite map_length, seq_length, R. assert (Q : (p <? before b1 + size b1)%nat = false) by (apply Nat.ltb_ge; lia). rewrite Q, andb_false_r. reflexivity.
        * rewrite !nth_overflow; [reflexivity|exact Hge|rewrite length_add_at; exact Hge].
    - exists v. split; [reflexivity|]. split; [exact Hv|]. split; [|auto]. intros b' j Hb' Hj.
      assert (Q : moved t b b' j = k0) by (unfold moved; rewrite (ms_zero S L); [ring|]; intros i Hi; rewrite <- (Hp b' j i Hb' Hj Hi); ring).
      rewrite Q. ring.
  Qed.
  Lemma act_blocks_ok t : In t op -> forall n v, n <= nb -> length v = length st ->
    exists v', fold_left (act_block S E a st t) (seq 0 n) (Ok v) = Ok v' /\ length v' = length st /\
      (forall b' j, b' < nb -> j < size b' -> nth (before b' + j)%nat v' k0 = nth (before b' + j)%nat v k0 + msum S n (fun b => moved t b b' j)) /\
      forall p, before nb <= p -> nth p v' k0 = nth p v k0.
  Proof.
    intros Ht. induction n as [|n IH]; intros v Hn Hv.
    - exists v. split; [reflexivity|]. split; [exact Hv|]. split; [|auto]. intros. unfold msum. cbn [seq map ksum]. ring.
    - destruct (IH v) as (v1 & E1 & L1 & V1 & P1); [lia|exact Hv|]. rewrite seq_S, fold_left_app, E1. cbn [fold_left Nat.add].
      destruct (act_block_ok t n v1 Ht Hn L1) as (v2 & E2 & L2 & V2 & P2). exists v2. split; [exact E2|]. split; [exact L2|]. split.
      + intros b' j Hb' Hj. rewrite V2, V1 by assumption. rewrite (ms_S S L). ring.
      + intros p Hp. rewrite P2, P1 by exact Hp. reflexivity.
  Qed.
  Lemma act_terms_ok rest : (forall t, In t rest -> In t op) -> forall v, length v = length st ->
    exists v', fold_left (fun r t => fold_left (act_block S E a st t) (seq 0 nb) r) rest (Ok v) = Ok v' /\ length v' = length st /\
      (forall b' j, b' < nb -> j < size b' -> nth (before b' + j)%nat v' k0 = nth (before b' + j)%nat v k0 + ksum (map (fun t : monomial * S => msum S nb (fun b => moved t b b' j)) rest)) /\
      forall p, before nb <= p -> nth p v' k0 = nth p v k0.
  Proof.
    induction rest as [|t rest IH]; intros Hin v Hv.
    - exists v. split; [reflexivity|]. split; [exact Hv|]. split; [|auto]. intros. cbn [map ksum]. ring.
    - cbn [fold_left]. destruct (act_blocks_ok t (Hin t (or_introl eq_refl)) nb v (le_n _) Hv) as (v1 & E1 & L1 & V1 & P1). rewrite E1.
      destruct (IH (fun t' H => Hin t' (or_intror H)) v1 L1) as (v2 & E2 & L2 & V2 & P2). exists v2. split; [exact E2|]. split; [exact L2|]. split.
      + intros b' j Hb' Hj. rewrite V2, V1 by assumption. cbn [map ksum]. ring.
      + intros p Hp. rewrite P2, P1 by exact Hp. reflexivity.
  Qed.
  Lemma act_ok : exists v, act_op S E a op st = Ok v /\ length v = length st /\
    (forall b' j, b' < nb -> j < size b' ->
       nth (before b' + j)%nat v k0 = msum S nb (fun b => msum S (size b) (fun i => elem e b' j b i * nth (before b + i)%nat st k0))) /\
    forall p, before nb <= p -> nth p v k0 = k0.
  Proof.
    unfold act_op. destruct (act_terms_ok op (fun t H => H) (repeat k0 (length st)) (repeat_length _ _)) as (v & E1 & L1 & V1 & P1).
    exists v. split; [exact E1|]. split; [exact L1|]. split.
    - intros b' j Hb' Hj. rewrite V1 by assumption. rewrite nth_repeat. rewrite <- (ms_ks S L).
      transitivity (msum S nb (fun b => ksum (map (fun t : monomial * S => moved t b b' j) op))); [ring|].
      apply (ms_ext S). intros b Hb. unfold moved.
      transitivity (msum S (size b) (fun i => ksum (map (fun t : monomial * S => snd t * (elem (word S (fst t)) b' j b i * nth (before b + i)%nat st k0)) op))).
      { rewrite (ms_ks S L). apply ks_ext. intros t Ht. rewrite (ms_l S L). reflexivity. }
      apply (ms_ext S). intros i Hi. rewrite (elem_terms S L E l a op e Hue Hev b' j b i). rewrite <- (ks_r S L). apply ks_ext. intros t Ht. ring.
    - intros p Hp. rewrite P1 by exact Hp. apply nth_repeat.
  Qed.
End Act.
