(** Quantum numbers that the Hamiltonian changes: the constructor leaves the tables it looks
    states up in. *)
From Coq Require Import ZArith NArith List Arith Bool Lia Sorted Permutation.
From Verif Require Import Base Indices Scalar Fock FockFacts OpModel OpExpr OpNormal Op_proofs Hilbert Hilbert_proofs
  State StateSpec State_proofs ImpOp ImpOp_proofs ImpOp_run ImpOp_thms Partition Partition_imp Partition_thms
  AtomDiag AtomDiagSpec AtomDiag_lists AtomDiag_terms AtomDiag_mats AtomDiag_complete AtomDiag_auto AtomQn AtomQnSpec AtomQn_run AtomQn_split AtomQn_conn AtomQn_thms.
Import ListNotations.
Local Open Scope nat_scope.

Lemma mapM_nt {A B} (f : A -> res B) xs : (forall x, In x xs -> f x <> Throw) -> mapM f xs <> Throw.
Proof.
  induction xs as [|x xs IH]; intros H; cbn [mapM]; [discriminate|]. pose proof (H x (or_introl eq_refl)) as Hx. destruct (f x); cbn [bind]; [|congruence|discriminate].
  assert (IH' := IH (fun y Hy => H y (or_intror Hy))). destruct (mapM f xs); cbn [bind]; [discriminate|congruence|discriminate].
Qed.
Lemma mapM_ub {A B} (f : A -> res B) xs x : (forall x, In x xs -> f x <> Throw) -> In x xs -> f x = UB -> mapM f xs = UB.
Proof.
  induction xs as [|y xs IH]; intros H Hin Hx; [destruct Hin|]. cbn [mapM]. pose proof (H y (or_introl eq_refl)) as Hy.
  destruct Hin as [->|Hin]; [rewrite Hx; reflexivity|]. destruct (f y); cbn [bind]; [|congruence|reflexivity].
  rewrite (IH (fun z Hz => H z (or_intror Hz)) Hin Hx). reflexivity.
Qed.

Lemma in_combine_nth {A} (v : list A) d : forall j a, j < length v -> In (a + j, nth j v d) (combine (seq a (length v)) v).
Proof.
  induction v as [|x v IH]; intros j a Hj; cbn in Hj; [lia|]. cbn [length seq combine]. destruct j as [|j]; cbn [nth].
  - left. f_equal. lia.
  - right. replace (a + S j) with (S a + j) by lia. apply IH. lia.
Qed.

Section UB.
  Context (S : scalar_ops) (L : scalar_laws S) (E : energy_ops S).
  Local Open Scope K_scope.
  Variable l : fops.
  Hypothesis Hl : (length l <= 17)%nat.
  Notation pos := (mode l).
  Variables (e : expr S) (op : omap S).
  Hypothesis Hu : forall j, uses e j -> In j l.
  Hypothesis He : eval e = Some op.

  Section Space.
    Variable sp : sub_hs.
    Hypothesis Hsp : space_ok (Sub sp).

    Lemma upd_nt i (u : S -> S) st : st_update i u st <> Throw.
    Proof. unfold st_update. destruct (st_amps st); [discriminate|]. destruct (v_upd i u v); discriminate. Qed.
    Lemma step_nt (M : one_term S) r ia : r <> Throw -> apply_step M (Sub sp) (Some (Sub sp)) r ia <> Throw.
    Proof.
      intros Hr. unfold apply_step. destruct r as [t| |]; cbn [bind]; [|congruence|discriminate].
      unfold sp_fock, sub_fock. destruct (nth_error (sub_states sp) (fst ia)) as [f|]; cbn [bind]; [|discriminate].
      destruct (term_act M f) as [[b g]|]; [|discriminate]. unfold sp_index, sub_at. destruct (nfind g (sub_map sp)) as [i|]; cbn [bind]; [apply upd_nt|discriminate].
    Qed.
    Lemma pass_nt (M : one_term S) es : forall r, r <> Throw -> fold_left (apply_step M (Sub sp) (Some (Sub sp))) es r <> Throw.
    Proof. induction es as [|x es IH]; intros r Hr; [exact Hr|]. cbn [fold_left]. apply IH, step_nt, Hr. Qed.
    Lemma pass_ub (M : one_term S) es : fold_left (apply_step M (Sub sp) (Some (Sub sp))) es UB = UB.
    Proof. induction es as [|x es IH]; [reflexivity|exact IH]. Qed.
    Lemma pass_out (M : one_term S) es j a f b g : forall r, r <> Throw -> In (j, a) es -> nth_error (sub_states sp) j = Some f ->
      term_act M f = Some (b, g) -> ~ In g (sub_states sp) -> fold_left (apply_step M (Sub sp) (Some (Sub sp))) es r = UB.
    Proof.
      induction es as [|x es IH]; intros r Hr Hin Hj Ha Hg; [destruct Hin|]. cbn [fold_left]. destruct Hin as [->|Hin].
      - replace (apply_step M (Sub sp) (Some (Sub sp)) r (j, a)) with (UB : res (state S)); [apply pass_ub|].
        unfold apply_step. destruct r as [t| |]; cbn [bind]; [|congruence|reflexivity]. unfold sp_fock, sub_fock. cbn [fst]. rewrite Hj. cbn [bind]. rewrite Ha.
        destruct (sp_index (Sub sp) g) as [i| |] eqn:Ei; cbn [bind]; [|unfold sp_index, sub_at in Ei; destruct (nfind g (sub_map sp)); discriminate|reflexivity].
        exfalso. apply (sp_index_spec (Sub sp) Hsp) in Ei. apply Hg. eapply nth_error_In; exact Ei.
      - apply IH; auto. apply step_nt, Hr.
    Qed.

    Lemma run_nt st : st_sp st = Sub sp -> imp_run l op st <> Throw.
    Proof.
      intros Hs. unfold imp_run. pose proof (eval_op_ok S L l e op Hu He) as Hop.
      assert (Ht : exists ts : list (one_term S), imp_terms l op = Ok ts).
      { clear He Hu. induction Hop as [|[m c] o [Hn Ho] Hop' IH]; [eexists; reflexivity|]. cbn [fst] in *. cbn [imp_terms].
        destruct (imp_term_spec S l m c) as (M & s & -> & _); [lia|exact Hn|exact Ho|]. cbn [bind]. destruct IH as [ts ->]. eexists. reflexivity. }
      destruct Ht as [ts ->]. cbn [bind]. unfold imp_apply. rewrite Hs.
      assert (G : forall ts r, r <> Throw -> fold_left (fun r M => fold_left (apply_step M (Sub sp) (Some (Sub sp))) (st_entries st) r) ts r <> Throw).
      { clear ts. induction ts as [|M ts IH]; intros r Hr; [exact Hr|]. cbn [fold_left]. apply IH, pass_nt, Hr. }
      apply G. discriminate.
    Qed.

    Lemma run_out st j a f g m c b : st_sp st = Sub sp -> In (j, a) (st_entries st) -> nth_error (sub_states sp) j = Some f -> (f < 2 ^ N.of_nat (length l))%N ->
      In (m, c) op -> act pos m f = Some (b, g) -> ~ In g (sub_states sp) -> imp_run l op st = UB.
    Proof.
      intros Hs Hin Hj Hf Hm Ha Hg. unfold imp_run. pose proof (eval_op_ok S L l e op Hu He) as Hop.
      assert (F64 : (f < 2 ^ 64)%N). { eapply N.lt_le_trans; [exact Hf|]. change 64%N with (N.of_nat 64). apply N.pow_le_mono_r; lia. }
      assert (Ht : exists ts : list (one_term S), imp_terms l op = Ok ts /\ exists M b', In M ts /\ term_act M f = Some (b', g)).
      { clear He Hu. induction Hop as [|[m0 c0] o [Hn Ho] Hop' IH]; [destruct Hm|]. cbn [fst] in *. cbn [imp_terms].
        destruct (imp_term_spec S l m0 c0) as (M & s & -> & _ & HM); [lia|exact Hn|exact Ho|]. cbn [bind].
        destruct Hm as [Heq|Hm].
        - injection Heq as -> ->. assert (Hts : exists ts : list (one_term S), imp_terms l o = Ok ts).
          { clear -Hop' L Hl. induction Hop' as [|[m0 c0] o [Hn Ho] Hop' IH]; [eexists; reflexivity|]. cbn [fst] in *. cbn [imp_terms].
            destruct (imp_term_spec S l m0 c0) as (M & s & -> & _); [lia|exact Hn|exact Ho|]. cbn [bind]. destruct IH as [ts ->]. eexists. reflexivity. }
          destruct Hts as [ts ->]. cbn [bind]. eexists. split; [reflexivity|]. specialize (HM f F64). rewrite Ha in HM.
          destruct (term_act M f) as [[b1 g1]|] eqn:Et; [|contradiction]. destruct HM as [-> _]. exists M, b1. split; [left; reflexivity|exact Et].
        - destruct (IH Hm) as (ts & -> & M' & b' & HM' & Et). cbn [bind]. eexists. split; [reflexivity|]. exists M', b'. split; [right; exact HM'|exact Et]. }
      destruct Ht as (ts & -> & M & b' & HM & Et). cbn [bind]. unfold imp_apply. rewrite Hs.
      assert (U : forall ts, fold_left (fun r M => fold_left (apply_step M (Sub sp) (Some (Sub sp))) (st_entries st) r) ts UB = UB).
      { clear. induction ts as [|M ts IH]; [reflexivity|]. cbn [fold_left]. rewrite pass_ub. exact IH. }
      assert (G : forall ts r, r <> Throw -> In M ts -> fold_left (fun r M => fold_left (apply_step M (Sub sp) (Some (Sub sp))) (st_entries st) r) ts r = UB).
      { clear ts HM. induction ts as [|M0 ts IH]; intros r Hr HM; [destruct HM|]. cbn [fold_left]. destruct HM as [->|HM].
        - rewrite (pass_out M _ j a f b' g r Hr Hin Hj Et Hg). apply U.
        - apply IH; [apply pass_nt, Hr|exact HM]. }
      apply G; [discriminate|exact HM].
    Qed.

    Lemma col_nt i : h_column S l op sp i <> Throw.
    Proof.
      unfold h_column. destruct (st_basis S false (Sub sp) i) as [st| |] eqn:Es; cbn [bind]; [|exfalso; revert Es; apply upd_nt|discriminate].
      assert (Hs : st_sp st = Sub sp).
      { unfold st_basis, st_update, st_zero in Es. cbn [st_amps st_sp] in Es. destruct (v_upd _ _ _) in Es; [|discriminate]. injection Es as <-. reflexivity. }
      pose proof (run_nt st Hs) as Hr. destruct (imp_run l op st); cbn [bind]; [discriminate|congruence|discriminate].
    Qed.
    Lemma col_out i f g m c b : i < sub_size sp -> In f (sub_states sp) -> (f < 2 ^ N.of_nat (length l))%N ->
      In (m, c) op -> act pos m f = Some (b, g) -> ~ In g (sub_states sp) -> h_column S l op sp i = UB.
    Proof.
      intros Hi Hin Hf Hm Ha Hg. unfold h_column.
      destruct (st_zero_ok S L false (Sub sp) Hsp) as [Z1 Z2].
      destruct (st_update_spec S i (fun _ => k1) (st_zero S false (Sub sp)) Z1) as (st & Est & Ok1 & Sp1 & Kd & Co); [exact Hi|].
      unfold st_basis. rewrite Est. cbn [bind]. assert (Hs : st_sp st = Sub sp) by exact Sp1.
      apply In_nth_error in Hin. destruct Hin as [j Hj].
      assert (Hent : exists a, In (j, a) (st_entries st)).
      { unfold st_entries. unfold kind_of in Kd. destruct Ok1 as [_ Ok1]. destruct (st_amps st) as [mm|v] eqn:Ev; [cbn in Kd; discriminate|].
        rewrite Hs in Ok1. cbn [basis] in Ok1. assert (Hlt : j < length v) by (rewrite Ok1; eapply nth_error_Some_lt; exact Hj).
        exists (nth j v k0). apply (in_combine_nth v k0 j 0 Hlt). }
      destruct Hent as [a Hent]. rewrite (run_out st j a f g m c b Hs Hent Hj Hf Hm Ha Hg). reflexivity.
    Qed.
  End Space.
End UB.

Section Undefined.
  Context (S : scalar_ops) (L : scalar_laws S) (E : energy_ops S).
  Local Open Scope K_scope.
  Variable eigen : mat S -> list E * mat S.
  Variable q_real : S -> E.
  Variable q_complex : S -> bool.
  Variable q_lt : E -> E -> bool.
  Variable l : fops.
  Hypothesis Hl : (length l <= 17)%nat.
  Variables (e : expr S) (op : omap S).
  Hypothesis Hu : forall j, uses e j -> In j l.
  Hypothesis He : eval e = Some op.
  Variable qs : list (expr S).
  Variable qns : list (omap S).
  Hypothesis Hqs : Forall2 (fun q op => (forall j, uses q j -> In j l) /\ eval q = Some op) qs qns.
  Hypothesis QL : qn_laws S E q_complex q_lt.
  Hypothesis Hre : qn_are_real S q_complex l qs.
  Hypothesis Hap : qn_apart S E q_real q_lt l qs.

  Lemma thm_undefined : (forall o, In o l -> shifts S E q_real l qs (ECdag o) /\ shifts S E q_real l qs (EC o)) ->
    ~ conserves S E q_real l qs e -> atom_diag_qn S E eigen q_real q_complex q_lt op l qns = UB.
  Proof.
    intros Sh Hn. destruct (dim_ok (length l)) as [d Hd]; [lia|].
    unfold atom_diag_qn, partition_with_qn. rewrite Hd. cbn [bind].
    destruct (split_all S L E q_real q_complex q_lt l d Hl Hd qs qns Hqs QL Hap (Z.to_nat d) (le_n _) Hre) as (keys & subs & -> & Hs). cbn [bind fst snd].
    rewrite (subs_nb S E q_real q_lt l d qs keys subs Hs).
    pose proof (Kok S E q_real q_lt l d Hl Hd qs keys subs Hs) as K1. pose proof (Kall S E q_real q_lt l d Hl Hd qs keys subs Hs) as K2.
    destruct (all_rows S L E q_real q_complex q_lt l d Hl Hd qs qns Hqs QL Hre Hap keys K1 K2 l (incl_refl l)) as [(rows & -> & _)|[_ (o & Ho & M)]].
    2: { exfalso. destruct M as [M|M]; revert M; apply not_mixes; auto; intros _; apply (Sh o Ho). }
    cbn [bind]. unfold complete.
    assert (Ht : exists ts : list (one_term S), imp_terms l op = Ok ts).
    { pose proof (eval_op_ok S L l e op Hu He) as Hop. clear He. induction Hop as [|[m c] o [Hn' Ho] Hop' IH]; [eexists; reflexivity|]. cbn [fst] in *. cbn [imp_terms].
      destruct (imp_term_spec S l m c) as (M & s & -> & _); [lia|exact Hn'|exact Ho|]. cbn [bind]. destruct IH as [ts ->]. eexists. reflexivity. }
    destruct Ht as [ts ->]. cbn [bind].
    assert (Hsub : forall k sp, nth_error subs k = Some sp -> (forall f, In f (sub_states sp) <-> fock l f /\ qn_at S E q_lt (qnum S E q_real l qs f) keys = k) /\ space_ok (Sub sp)).
    { intros k sp Hk. destruct (sub_nth S E q_real q_complex q_lt l d Hl Hd qs QL Hap keys subs Hs k sp Hk) as (H1 & _ & _ & H4). auto. }
    assert (NT : forall ks, In ks (enum subs) -> diag_block S E eigen l op ks <> Throw).
    { intros [k sp] Hin. unfold diag_block. cbn [fst snd].
      assert (Hsp : space_ok (Sub sp)). { apply in_combine_r in Hin. apply In_nth_error in Hin. destruct Hin as [k' Hk']. apply (Hsub _ _ Hk'). }
      unfold h_matrix. destruct (mapM (h_column S l op sp) (seq 0 (sub_size sp))) as [cs| |] eqn:Em; cbn [bind].
      - match goal with |- context [eigen ?m] => destruct (eigen m) as [[|e0 ev] u] end; discriminate.
      - exfalso. revert Em. apply mapM_nt. intros i _. apply (col_nt S L l Hl e op Hu He sp).
      - discriminate. }
    assert (Hex : exists f g, fock l f /\ fock l g /\ bracket S l e g f <> k0 /\ qnum S E q_real l qs g <> qnum S E q_real l qs f).
    { assert (Hdec : forall f g : N, {bracket S l e g f = k0} + {bracket S l e g f <> k0}) by (intros; apply (k_dec S L)).
      assert (Hfin : forall f, fock l f <-> In f (map N.of_nat (seq 0 (Z.to_nat d)))).
      { intros f. rewrite in_map_iff. rewrite (f_lt l d Hl Hd). split.
        - intros H. exists (N.to_nat f). rewrite N2Nat.id. split; [reflexivity|]. apply in_seq. lia.
        - intros (i & <- & Hi). rewrite Nat2N.id. apply in_seq in Hi. lia. }
      set (fs := map N.of_nat (seq 0 (Z.to_nat d))) in *.
      set (bad := fun p : N * N => (if Hdec (fst p) (snd p) then false else true) && negb (Nat.eqb (qn_at S E q_lt (qnum S E q_real l qs (snd p)) keys) (qn_at S E q_lt (qnum S E q_real l qs (fst p)) keys))).
      destruct (existsb bad (list_prod fs fs)) eqn:Eb.
      - apply existsb_exists in Eb. destruct Eb as ([f g] & Hin & Hb). apply in_prod_iff in Hin. unfold bad in Hb. cbn [fst snd] in Hb. apply andb_prop in Hb. destruct Hb as [Hb1 Hb2].
        exists f, g. split; [apply Hfin, Hin|]. split; [apply Hfin, Hin|]. split.
        + destruct (Hdec f g); [discriminate|assumption].
        + intros Hq. rewrite Hq, Nat.eqb_refl in Hb2. discriminate.
      - exfalso. apply Hn. intros f g Hf Hg Hz. 
        assert (Hb : bad (f, g) = false).
        { destruct (bad (f, g)) eqn:Eb'; [|reflexivity]. rewrite <- Eb. symmetry. apply existsb_exists. exists (f, g). split; [apply in_prod; apply Hfin; assumption|exact Eb']. }
        unfold bad in Hb. cbn [fst snd] in Hb. destruct (Hdec f g) as [Hz'|_]; [contradiction|]. cbn [andb] in Hb. apply negb_false_iff, Nat.eqb_eq in Hb.
        apply (cl_eq S E q_real q_complex q_lt l qs QL Hap keys K1 K2 g f Hg Hf). exact Hb. }
    destruct Hex as (f & g & Hf & Hg & Hz & Hq).
    destruct (nth_error_lt subs (qn_at S E q_lt (qnum S E q_real l qs f) keys)) as [sp Hk].
    { rewrite (subs_nb S E q_real q_lt l d qs keys subs Hs). apply (cl_lt S E q_real q_complex q_lt l qs QL Hap keys K1 K2 f Hf). }
    destruct (Hsub _ _ Hk) as [Hin Hsp].
    rewrite (mapM_ub (diag_block S E eigen l op) (enum subs) (qn_at S E q_lt (qnum S E q_real l qs f) keys, sp) NT); [reflexivity| |].
    - apply enum_In. exact Hk.
    - unfold diag_block. cbn [fst snd]. unfold h_matrix.
      assert (Fin : In f (sub_states sp)) by (apply Hin; auto).
      rewrite (mapM_ub (h_column S l op sp) (seq 0 (sub_size sp)) 0); [reflexivity| | |].
      + intros i _. apply (col_nt S L l Hl e op Hu He sp).
      + apply in_seq. unfold sub_size. destruct (sub_states sp); [destruct Fin|cbn; lia].
      + rewrite (bracket_mel S L l e op f g Hu He) in Hz.
        destruct (mel_term S L l op f g Hz) as (m & c & b & Hm & Ha).
        apply (col_out S L l Hl e op Hu He sp Hsp 0 f g m c b); auto.
        * unfold sub_size. destruct (sub_states sp); [destruct Fin|cbn; lia].
        * intros Hg'. apply Hin in Hg'. apply Hq. apply (cl_eq S E q_real q_complex q_lt l qs QL Hap keys K1 K2 g f Hg Hf). apply Hg'.
  Qed.
End Undefined.
