(** The matrices built by atom_diag's complete(). *)
From Coq Require Import ZArith NArith List Arith Bool Lia Sorted Permutation.
From Verif Require Import Base Indices Scalar Fock FockFacts OpModel OpExpr OpNormal Op_proofs Hilbert Hilbert_proofs
  State StateSpec State_proofs ImpOp ImpOp_proofs ImpOp_run ImpOp_thms Partition Partition_imp AtomDiag AtomDiagSpec AtomDiag_lists AtomDiag_terms.
Import ListNotations.
Local Open Scope nat_scope.

Section Mats.
  Context (S : scalar_ops) (L : scalar_laws S) (E : energy_ops S).
  Local Open Scope K_scope.
  Add Ring Kring3 : (sl_ring S L).
  Variable l : fops.
  Variable d : Z.
  Hypothesis Hl : (length l <= 17)%nat.
  Hypothesis Hd : hs_dim (length l) = Ok d.
  Notation pos := (mode l).

  Lemma bracket_mel e op f g : (forall j, uses e j -> In j l) -> eval e = Some op -> bracket S l e g f = mel pos op f g.
  Proof.
    intros Hu He. unfold bracket. symmetry. apply (meaning_mel S L e pos op); [|exact He]. intros a b Ha Hb. apply mode_inj; auto.
  Qed.

  (** the image of a basis state *)
  Lemma run_from k h i fi op : op_ok S l op -> space_ok h ->
    (forall f, In f (basis h) -> (f < 2 ^ N.of_nat (length l))%N) -> maps_into S l op h h -> nth_error (basis h) i = Some fi ->
    exists st r, st_basis S k h i = Ok st /\ imp_run l op st = Ok r /\ st_ok r /\ st_sp r = h /\ kind_of S r = k /\
      forall g, amplitude r g = mel pos op fi g.
  Proof.
    intros Hop Hh Hb Hcl Hi. destruct (st_zero_ok S L k h Hh) as [Z1 Z2].
    destruct (st_update_spec S i (fun _ => k1) (st_zero S k h) Z1) as (st & Est & Ok1 & Sp1 & Kd & Co).
    { cbn [st_sp st_zero]. apply nth_error_Some_lt in Hi. exact Hi. }
    assert (Sp : st_sp st = h) by exact Sp1.
    assert (Hl64 : (length l <= 64)%nat) by lia.
    assert (H16 : forall f, In f (basis h) -> (f < 2 ^ 64)%N /\ ((f < 2 ^ 16)%N \/ (length l <= 17)%nat)).
    { intros f Hf. split; [|right; exact Hl]. eapply N.lt_le_trans; [apply Hb, Hf|]. change 64%N with (N.of_nat 64). apply N.pow_le_mono_r; lia. }
    destruct (imp_apply_terms S L l op h h Hl64 Hop Hh Hh H16 Hcl) as (ts & Ets & H).
    destruct (st_zero_ok S L (is_map st) h Hh) as [Hz1 Hz2].
    destruct (H st (st_zero S (is_map st) h) Ok1 Sp Hz1) as (r & Er & Hok & Hsp & Hkd & Ha).
    { reflexivity. }
    exists st, r. split; [exact Est|]. unfold imp_run. rewrite Ets. cbn [bind]. unfold imp_apply. rewrite Sp in Er |- *. rewrite Er.
    split; [reflexivity|]. split; [exact Hok|]. split; [exact Hsp|]. split.
    { rewrite Hkd. unfold kind_of, st_zero. cbn [st_amps]. rewrite kind_is_map, Kd. unfold kind_of, st_zero. cbn [st_amps]. destruct k; reflexivity. }
    intros g. rewrite Ha, Hz2, (amp_apply pos S L). unfold st_vec. rewrite Sp.
    assert (Q : vsum S (fun f => mel pos op f g) (combine (map (st_coef st) (seq 0 (length (basis h)))) (basis h)) = k1 * mel pos op fi g).
    { rewrite <- (vsum_combine_delta S L (fun f => mel pos op f g) i k1 (basis h) 0 fi Hi).
      apply vsum_combine_ext. intros j Hj. cbn [st_sp st_zero] in Co. rewrite Co by lia. cbn [Nat.add].
      destruct (i =? j)%nat; [reflexivity|]. unfold st_coef, st_zero. cbn [st_amps]. destruct k; [reflexivity|].
      apply nth_repeat. }
    rewrite Q. ring.
  Qed.

  Definition sub_ok (sp : sub_hs) : Prop :=
    space_ok (Sub sp) /\ forall f, In f (sub_states sp) -> (f < 2 ^ N.of_nat (length l))%N.

  Lemma h_matrix_ok op sp : op_ok S l op -> sub_ok sp -> maps_into S l op (Sub sp) (Sub sp) ->
    exists m, h_matrix S l op sp = Ok m /\ m_rows m = sub_size sp /\ m_cols m = sub_size sp /\
      forall j i fj fi, nth_error (sub_states sp) j = Some fj -> nth_error (sub_states sp) i = Some fi -> m_at m j i = mel pos op fi fj.
  Proof.
    intros Hop [Hsp Hb] Hcl. unfold h_matrix.
    destruct (mapM_ok (h_column S l op sp) (fun i v => forall fi, nth_error (sub_states sp) i = Some fi ->
      forall j fj, nth_error (sub_states sp) j = Some fj -> nth j v k0 = mel pos op fi fj) (seq 0 (sub_size sp))) as (cs & Ecs & Pcs).
    { intros i Hi. apply in_seq in Hi. destruct (nth_error_lt (sub_states sp) i) as [fi Hfi]; [unfold sub_size in Hi; lia|].
      destruct (run_from false (Sub sp) i fi op Hop Hsp Hb Hcl Hfi) as (st & r & E1 & E2 & Ok2 & Sp2 & K2 & A2).
      unfold h_column. rewrite E1. cbn [bind]. rewrite E2. cbn [bind]. eexists. split; [reflexivity|].
      intros fi' Hfi' j fj Hj. rewrite Hfi in Hfi'. injection Hfi' as <-.
      unfold kind_of in K2. destruct (st_amps r) as [m|v] eqn:Ea; [discriminate|].
      rewrite <- (A2 fj). rewrite (amplitude_at S L r j fj); [|rewrite Sp2; exact Hsp|rewrite Sp2; exact Hj].
      unfold st_coef. rewrite Ea. reflexivity. }
    rewrite Ecs. cbn [bind]. eexists. split; [reflexivity|]. cbn [m_rows m_cols m_at]. split; [reflexivity|]. split; [reflexivity|].
    intros j i fj fi Hj Hi.
    assert (Hi' : nth_error (seq 0 (sub_size sp)) i = Some i).
    { apply nth_error_Some_lt in Hi. rewrite nth_error_nth' with (d := 0%nat) by (rewrite seq_length; exact Hi). rewrite seq_nth by exact Hi. reflexivity. }
    destruct (Forall2_nth _ _ _ _ _ Pcs Hi') as (v & Hv & Pv). rewrite (nth_of_error cs i v [] Hv). apply Pv; assumption.
  Qed.

  Lemma full_bound f : In f (basis (Full d)) <-> (f < 2 ^ N.of_nat (length l))%N.
  Proof.
    assert (H30 : (length l <= 30)%nat) by lia.
    rewrite <- (sp_has_spec (Full d)) by (exists (length l); auto).
    destruct (thm_hs_bijection (length l) d H30 Hd) as (_ & Hh & _). apply Hh.
  Qed.

  Lemma op_column_ok op from to i fi : op_ok S l op -> sub_ok from -> sub_ok to -> nth_error (sub_states from) i = Some fi ->
    exists es, op_column S l d op from to i = Ok es /\
      forall j fj, nth_error (sub_states to) j = Some fj -> match a_find j es with Some a => a | None => k0 end = mel pos op fi fj.
  Proof.
    intros Hop [Hf Bf] [Ht Bt] Hi. unfold op_column. unfold sub_fock. rewrite Hi. cbn [bind].
    assert (Hfi : (fi < 2 ^ N.of_nat (length l))%N) by (apply Bf; eapply nth_error_In; exact Hi).
    assert (Hn : nth_error (basis (Full d)) (N.to_nat fi) = Some fi).
    { apply basis_full. split; [|symmetry; apply N2Nat.id]. apply (size_lt l d Hl Hd). rewrite N2Nat.id. exact Hfi. }
    destruct (full_maps_into S l op d Hl Hop Hd) as [_ Hcl].
    destruct (run_from true (Full d) (N.to_nat fi) fi op Hop (full_ok l d Hl Hd) (fun f => proj1 (full_bound f)) Hcl Hn)
      as (st & r & E1 & E2 & Ok2 & Sp2 & K2 & A2).
    rewrite E1. cbn [bind]. rewrite E2. cbn [bind].
    destruct (thm_st_project S L true (Sub to) r Ok2 Ht I) as (p & E3 & Ok3 & Sp3 & A3 & _).
    rewrite E3. cbn [bind]. eexists. split; [reflexivity|].
    intros j fj Hj. fold (mcoef S (st_entries p) j). rewrite (entries_coef S L p j Ok3) by (rewrite Sp3; apply nth_error_Some_lt in Hj; exact Hj).
    rewrite <- (amplitude_at S L p j fj); [|rewrite Sp3; exact Ht|rewrite Sp3; exact Hj]. rewrite A3 by (eapply nth_error_In; exact Hj). apply A2.
  Qed.

  Lemma make_op_matrix_ok subs (es : list (eigsys S E)) op from to sf st ef et :
    op_ok S l op -> nth_error subs from = Some sf -> nth_error subs to = Some st -> nth_error es from = Some ef -> nth_error es to = Some et ->
    sub_ok sf -> sub_ok st -> m_rows (umat S E et) = sub_size st -> m_cols (umat S E et) = sub_size st -> m_cols (umat S E ef) = sub_size sf ->
    exists M, make_op_matrix S E l d subs es op from to = Ok M /\ m_rows M = sub_size st /\ m_cols M = sub_size sf /\
      forall j i, (j < sub_size st)%nat -> (i < sub_size sf)%nat ->
        m_at M j i = msum S (sub_size sf) (fun k => msum S (sub_size st) (fun q =>
           kconj (m_at (umat S E et) q j) * mel pos op (nth k (sub_states sf) 0%N) (nth q (sub_states st) 0%N)) * m_at (umat S E ef) k i).
  Proof.
    intros Hop E1 E2 E3 E4 Of Ot R1 R2 R3. unfold make_op_matrix. rewrite E1, E2, E3, E4.
    destruct (mapM_ok (op_column S l d op sf st) (fun i es => forall fi, nth_error (sub_states sf) i = Some fi ->
      forall j fj, nth_error (sub_states st) j = Some fj -> match a_find j es with Some a => a | None => k0 end = mel pos op fi fj)
      (seq 0 (sub_size sf))) as (cs & Ecs & Pcs).
    { intros i Hi. apply in_seq in Hi. destruct (nth_error_lt (sub_states sf) i) as [fi Hfi]; [unfold sub_size in Hi; lia|].
      destruct (op_column_ok op sf st i fi Hop Of Ot Hfi) as (x & Ex & Px). exists x. split; [exact Ex|].
      intros fi' Hfi'. rewrite Hfi in Hfi'. injection Hfi' as <-. exact Px. }
    rewrite Ecs. cbn [bind]. eexists. split; [reflexivity|]. cbn [m_rows m_cols m_at m_mul m_dag]. split; [exact R2|]. split; [exact R3|].
    intros j i Hj Hi. rewrite R1. unfold msum. f_equal. apply map_ext_in. intros k Hk. apply in_seq in Hk. f_equal.
    f_equal. apply map_ext_in. intros q Hq. apply in_seq in Hq. f_equal.
    destruct (nth_error_lt (sub_states sf) k) as [fk Hfk]; [unfold sub_size in Hk; lia|].
    destruct (nth_error_lt (sub_states st) q) as [fq Hfq]; [unfold sub_size in Hq; lia|].
    assert (Hk' : nth_error (seq 0 (sub_size sf)) k = Some k).
    { rewrite nth_error_nth' with (d := 0%nat) by (rewrite seq_length; lia). rewrite seq_nth by lia. reflexivity. }
    destruct (Forall2_nth _ _ _ _ _ Pcs Hk') as (v & Hv & Pv). rewrite (nth_of_error cs k v [] Hv).
    rewrite (nth_of_error _ k fk 0%N Hfk), (nth_of_error _ q fq 0%N Hfq). apply Pv; assumption.
  Qed.
End Mats.
