(** atom_diag with quantum numbers represents the Hamiltonian and the operators. *)
From Coq Require Import ZArith NArith List Arith Bool Lia Sorted Permutation.
From Verif Require Import Base Indices Scalar Fock FockFacts OpModel OpExpr OpNormal Op_proofs Hilbert Hilbert_proofs
  State StateSpec State_proofs ImpOp ImpOp_proofs ImpOp_run ImpOp_thms Partition Partition_imp Partition_thms
  AtomDiag AtomDiagSpec AtomDiag_lists AtomDiag_terms AtomDiag_mats AtomDiag_complete AtomDiag_auto AtomQn AtomQnSpec AtomQn_run AtomQn_split AtomQn_conn.
Import ListNotations.
Local Open Scope nat_scope.

Section Main.
  Context (S : scalar_ops) (L : scalar_laws S) (E : energy_ops S) (EL : energy_laws S E).
  Local Open Scope K_scope.
  Add Ring KringT : (sl_ring S L).
  Variable eigen : mat S -> list E * mat S.
  Variable q_real : S -> E.
  Variable q_complex : S -> bool.
  Variable q_lt : E -> E -> bool.
  Variable l : fops.
  Variable d : Z.
  Hypothesis Hl : (length l <= 17)%nat.
  Hypothesis Hnd : NoDup l.
  Hypothesis Hd : hs_dim (length l) = Ok d.
  Notation pos := (mode l).
  Notation size := (Z.to_nat d).
  Notation fock := (fock l).
  Variables (e : expr S) (op : omap S).
  Hypothesis Hu : forall j, uses e j -> In j l.
  Hypothesis He : eval e = Some op.
  Hypothesis Sv : solves S E l e eigen.
  Variable qs : list (expr S).
  Variable qns : list (omap S).
  Hypothesis Hqs : Forall2 (fun q op => (forall j, uses q j -> In j l) /\ eval q = Some op) qs qns.
  Hypothesis QL : qn_laws S E q_complex q_lt.
  Hypothesis Hre : qn_are_real S q_complex l qs.
  Hypothesis Hap : qn_apart S E q_real q_lt l qs.
  Notation qnum := (qnum S E q_real l qs).
  Notation mixes := (mixes S E q_real l qs).

  Lemma not_mixes x o : (In o l -> shifts S E q_real l qs (ex S x o)) -> In o l -> ~ mixes x o.
  Proof. intros H Ho (f & f' & g & g' & F1 & F2 & F3 & F4 & F5 & F6 & F7 & F8). apply F8. exact (H Ho f f' g g' F1 F2 F3 F4 F5 F6 F7). Qed.

  Hypothesis Hc : conserves S E q_real l qs e.

  (** adding the same electrons keeps equal quantum numbers equal *)
  Lemma qn_lift todo : (forall o, In o l -> shifts S E q_real l qs (ECdag o)) -> forall i j f g (R : nat -> bool), incl todo l -> NoDup todo ->
    fock i -> fock j -> qnum i = qnum j -> (forall k, R k = true -> bit i k = false /\ bit j k = false) ->
    (forall k, bit f k = bit i k || (R k && among l todo k)) -> (forall k, bit g k = bit j k || (R k && among l todo k)) -> qnum f = qnum g.
  Proof.
    intros Sh. induction todo as [|o todo IH]; intros i j f g R Hin HN Hi Hj Hq HR Hf Hg.
    - assert (Ef : f = i). { apply testbit_eq_N. intros k. specialize (Hf k). unfold bit in Hf. rewrite Hf. cbn. rewrite andb_false_r. apply orb_false_r. }
      assert (Eg : g = j). { apply testbit_eq_N. intros k. specialize (Hg k). unfold bit in Hg. rewrite Hg. cbn. rewrite andb_false_r. apply orb_false_r. }
      congruence.
    - inversion_clear HN as [|? ? Hno HN'].
      assert (Ho : In o l) by (apply Hin; left; reflexivity).
      assert (Hin' : incl todo l) by (intros x Hx; apply Hin; right; exact Hx).
      assert (Na : among l todo (pos o) = false).
      { destruct (among l todo (pos o)) eqn:e0; [|reflexivity]. apply existsb_exists in e0. destruct e0 as (x & Hx & e0). apply Nat.eqb_eq in e0.
        apply mode_inj in e0; [|apply Hin'; exact Hx|exact Ho]. subst. contradiction. }
      destruct (R (pos o)) eqn:ER.
      + destruct (HR _ ER) as [Bi Bj].
        assert (Up : forall x, fock x -> bit x (pos o) = false -> fock (N.setbit x (N.of_nat (pos o))) /\ bracket S l (ECdag o) (N.setbit x (N.of_nat (pos o))) x <> k0).
        { intros x Hx Bx. split.
          - apply bits_low. intros k Hk. rewrite setbit_nat, (high_bits _ _ k Hx Hk), orb_false_r. apply Nat.eqb_neq. pose proof (mode_lt l o Ho). lia.
          - change (ECdag o) with (ex S true o). rewrite (ex_mel S L l true o x _ Ho). unfold mel_mono. cbn [act]. unfold act_cop. cbn [dag ind]. cbv zeta. unfold bit in Bx. rewrite Bx, N.eqb_refl.
            apply (sgn_nz S L). }
        destruct (Up i Hi Bi) as [Hi1 Ni1]. destruct (Up j Hj Bj) as [Hj1 Nj1].
        apply (IH (N.setbit i (N.of_nat (pos o))) (N.setbit j (N.of_nat (pos o))) f g (fun k => R k && negb (pos o =? k))); auto.
        * exact (Sh o Ho i j _ _ Hi Hj Hi1 Hj1 Hq Ni1 Nj1).
        * intros k Hk. apply andb_true_iff in Hk. destruct Hk as [Hk Hne]. apply negb_true_iff in Hne. destruct (HR k Hk) as [B1 B2].
          unfold bit in *. rewrite !setbit_nat, B1, B2, Hne. auto.
        * intros k. rewrite Hf. unfold bit at 2. rewrite setbit_nat. fold (bit i k). cbn [among existsb].
          fold (among l todo k). destruct (Nat.eqb_spec (pos o) k) as [<-|]; [rewrite ER, Bi, Na; reflexivity|].
          cbn [negb orb andb]. rewrite andb_true_r. reflexivity.
        * intros k. rewrite Hg. unfold bit at 2. rewrite setbit_nat. fold (bit j k). cbn [among existsb].
          fold (among l todo k). destruct (Nat.eqb_spec (pos o) k) as [<-|]; [rewrite ER, Bj, Na; reflexivity|].
          cbn [negb orb andb]. rewrite andb_true_r. reflexivity.
      + apply (IH i j f g R); auto.
        * intros k. rewrite Hf. cbn [among existsb]. fold (among l todo k). destruct (Nat.eqb_spec (pos o) k) as [<-|]; [rewrite ER; reflexivity|reflexivity].
        * intros k. rewrite Hg. cbn [among existsb]. fold (among l todo k). destruct (Nat.eqb_spec (pos o) k) as [<-|]; [rewrite ER; reflexivity|reflexivity].
  Qed.

  (** every term of the Hamiltonian keeps the quantum numbers, although only the sum is known to *)
  Lemma terms_keep : (forall o, In o l -> shifts S E q_real l qs (ECdag o)) ->
    forall m c f g b, In (m, c) op -> act pos m f = Some (b, g) -> fock f -> fock g /\ qnum f = qnum g.
  Proof.
    intros Sh. pose proof (eval_op_wf S L l e op Hu He) as W.
    refine (term_induction S L l op (fun f g => fock f -> fock g /\ qnum f = qnum g) W _).
    intros m c f g b Hin Hz Ha Hf.
    assert (Hm0 : mono_ok l m). { destruct W as [_ W]. rewrite Forall_forall in W. apply (W _ Hin). }
    pose proof (mono_bits l m f Hm0) as Hb. rewrite Ha in Hb. destruct Hb as [[C1 C2] Af].
    assert (Pos : forall o, In o m -> pos (ind o) < length l).
    { intros o Ho. apply mode_lt. destruct Hm0 as [_ Hm0]. unfold mono_on in Hm0. rewrite Forall_forall in Hm0. auto. }
    assert (Ba : forall k, length l <= k -> ann pos m k = false).
    { intros k Hk. destruct (ann pos m k) eqn:e0; [|reflexivity]. apply ann_spec in e0. destruct e0 as (o & Ho & _ & Hp). specialize (Pos o Ho). lia. }
    assert (Bc : forall k, length l <= k -> cre pos m k = false).
    { intros k Hk. destruct (cre pos m k) eqn:e0; [|reflexivity]. apply cre_spec in e0. destruct e0 as (o & Ho & _ & Hp). specialize (Pos o Ho). lia. }
    assert (Fb : forall k, length l <= k -> bit f k = false) by (intros k Hk; apply (high_bits _ _ k Hf Hk)).
    split.
    { apply bits_low. intros k Hk. fold (bit g k). rewrite Af, Bc, Fb by exact Hk. reflexivity. }
    assert (Hlo : fock (low l m)).
    { apply bits_low. intros k Hk. fold (bit (low l m) k). rewrite low_bit. auto. }
    assert (Hhi : fock (high l m)).
    { apply bits_low. intros k Hk. fold (bit (high l m) k). rewrite high_bit. auto. }
    assert (Lm : forall k, k < length l -> among l l k = true).
    { intros k Hk. destruct (nth_error l k) as [o|] eqn:e0; [|apply nth_error_None in e0; lia].
      apply existsb_exists. exists o. split; [eapply nth_error_In; exact e0|]. apply Nat.eqb_eq. unfold mode. rewrite (NoDup_find_pos l o k Hnd e0). reflexivity. }
    apply (qn_lift l Sh (low l m) (high l m) f g (fun k => bit f k && negb (ann pos m k))); auto.
    - apply incl_refl.
    - symmetry. apply (Hc _ _ Hlo Hhi). rewrite (bracket_mel S L l e op _ _ Hu He). exact Hz.
    - intros k Hk. apply andb_true_iff in Hk. destruct Hk as [Hk1 Hk2]. apply negb_true_iff in Hk2. rewrite low_bit, high_bit.
      split; [exact Hk2|]. destruct (cre pos m k) eqn:e0; [|reflexivity]. rewrite (C2 k e0 Hk1) in Hk2. discriminate.
    - intros k. rewrite low_bit. destruct (Nat.lt_ge_cases k (length l)) as [Hk|Hk].
      + rewrite Lm by exact Hk. rewrite andb_true_r. specialize (C1 k). destruct (ann pos m k), (bit f k); auto.
      + rewrite Ba, Fb by exact Hk. reflexivity.
    - intros k. rewrite high_bit, Af. destruct (Nat.lt_ge_cases k (length l)) as [Hk|Hk].
      + rewrite Lm by exact Hk. rewrite andb_true_r. reflexivity.
      + rewrite Ba, Fb by exact Hk. reflexivity.
  Qed.

  Section With.
    Variable keys : list (list E).
    Variable subs : list sub_hs.
    Hypothesis Hs : sinv S E q_real q_lt l qs size keys subs.
    Hypothesis Sh : forall o, In o l -> shifts S E q_real l qs (ECdag o).
    Notation cl f := (qn_at S E q_lt (qnum f) keys).
    Notation nb := (length keys).

    Lemma f_lt f : fock f <-> N.to_nat f < size.
    Proof. rewrite (size_lt l d Hl Hd). rewrite N2Nat.id. reflexivity. Qed.
    Lemma Kok : keys_ok S E q_real l qs keys.
    Proof.
      destruct Hs as (_ & H2 & H3 & _). split; [exact H2|]. intros k Hk. apply H3 in Hk. destruct Hk as (i & Hi & Hq). exists (N.of_nat i). split; [|exact Hq].
      apply (fock_lt l d Hl Hd). exact Hi.
    Qed.
    Lemma Kall f : fock f -> In (qnum f) keys.
    Proof. intros Hf. destruct Hs as (_ & _ & H3 & _). apply H3. exists (N.to_nat f). rewrite N2Nat.id. split; [apply f_lt, Hf|reflexivity]. Qed.
    Lemma subs_nb : length subs = nb.
    Proof. apply Hs. Qed.
    Notation cl_nth := (cl_nth S E q_real q_complex q_lt l qs QL Hap keys Kok Kall).
    Notation cl_lt := (cl_lt S E q_real q_complex q_lt l qs QL Hap keys Kok Kall).
    Notation cl_eq := (cl_eq S E q_real q_complex q_lt l qs QL Hap keys Kok Kall).

    Lemma members_In q f : (exists g, fock g /\ qnum g = q) -> In f (members S E q_real q_lt l qs size q) <-> fock f /\ qnum f = q.
    Proof.
      intros (g & Hg & <-). unfold members. rewrite in_map_iff. split.
      - intros (i & <- & Hi). apply filter_In in Hi. destruct Hi as [Hi He0]. apply in_seq in Hi. assert (Fi : fock (N.of_nat i)) by (apply (fock_lt l d Hl Hd); lia).
        split; [exact Fi|]. apply (equiv_eq S E q_real q_complex q_lt l qs QL Hap _ _ Fi Hg). exact He0.
      - intros [Hf Hq]. exists (N.to_nat f). rewrite N2Nat.id. split; [reflexivity|]. apply filter_In. split; [apply in_seq; apply f_lt in Hf; lia|].
        rewrite N2Nat.id. apply (equiv_eq S E q_real q_complex q_lt l qs QL Hap _ _ Hf Hg). exact Hq.
    Qed.
    Lemma members_sorted q : StronglySorted N.lt (members S E q_real q_lt l qs size q).
    Proof.
      unfold members. generalize size as n. intros n. generalize 0 as a. induction n as [|n IH]; intros a; cbn [seq filter]; [constructor|].
      destruct (qn_equiv S E q_lt (qnum (N.of_nat a)) q); [|apply IH]. cbn [map]. constructor; [apply IH|].
      apply Forall_forall. intros x Hx. apply in_map_iff in Hx. destruct Hx as (i & <- & Hi). apply filter_In in Hi. destruct Hi as [Hi _]. apply in_seq in Hi. lia.
    Qed.
    (** the k-th subspace *)
    Lemma sub_nth k sp : nth_error subs k = Some sp ->
      (forall f, In f (sub_states sp) <-> fock f /\ cl f = k) /\ StronglySorted N.lt (sub_states sp) /\ sub_states sp <> [] /\ space_ok (Sub sp).
    Proof.
      intros Hk. destruct Hs as (H1 & H2 & H3 & H4 & H5). destruct (nth_error_lt keys k) as [q Hq]; [rewrite <- H1; eapply nth_error_Some_lt; exact Hk|].
      assert (Hex : exists g, fock g /\ qnum g = q) by (apply Kok; eapply nth_error_In; exact Hq).
      assert (Hin : forall f, In f (sub_states sp) <-> fock f /\ cl f = k).
      { intros f. rewrite (H5 k sp q Hk Hq), (proj1 (sub_adds_fields _ _)), (members_In q f Hex). split; intros [Hf Hf']; (split; [exact Hf|]).
        - pose proof (cl_nth f Hf) as Hn. rewrite Hf' in Hn. rewrite NoDup_nth_error in H2. rewrite Hf'. apply H2; [eapply nth_error_Some_lt; exact Hn|congruence].
        - pose proof (cl_nth f Hf) as Hn. rewrite Hf' in Hn. congruence. }
      split; [exact Hin|]. split; [rewrite (H5 k sp q Hk Hq), (proj1 (sub_adds_fields _ _)); apply members_sorted|]. split.
      - destruct Hex as (g & Hg & Eg). intros Hnil. assert (Hg' : In g (sub_states sp)).
        { rewrite (H5 k sp q Hk Hq), (proj1 (sub_adds_fields _ _)). apply (members_In q g); [eauto|auto]. }
        rewrite Hnil in Hg'. destruct Hg'.
      - rewrite (H5 k sp q Hk Hq). exists (Z.of_nat k), (members S E q_real q_lt l qs size q). split; [|reflexivity]. apply sorted_nodup, members_sorted.
    Qed.

    Lemma subs_good : Forall (sub_good S l e op) subs.
    Proof.
      apply Forall_forall. intros sp Hin. apply In_nth_error in Hin. destruct Hin as [k Hk]. destruct (sub_nth k sp Hk) as (H1 & H2 & H3 & H4).
      assert (Hm : maps_into S l op (Sub sp) (Sub sp)).
      { intros m c f b g Hin Hf Ha. cbn [basis] in *. apply H1 in Hf. destruct Hf as [Hf Hcl]. apply H1.
        destruct (terms_keep Sh m c f g b Hin Ha Hf) as [Hg Hq]. split; [exact Hg|]. rewrite <- Hq. exact Hcl. }
      split; [split; [exact H4|]|].
      - intros f Hf. apply H1 in Hf. apply Hf.
      - split; [exact H3|]. split; [exact H2|]. split; [exact Hm|]. apply (closed_of_maps S L l e op Hu He); exact Hm.
    Qed.

    Variable rows : list (list Z * list Z).
    Hypothesis Hrows : rows_good S E q_real q_lt l d qs keys l rows.
    Notation rinv := (rinv S E q_real q_lt l qs keys).

    Lemma row_good x o row : rinv x o size row -> row_ok (length subs) row.
    Proof.
      intros [R1 R2]. split; [rewrite subs_nb; exact R1|]. intros c Hin. apply In_nth_error in Hin. destruct Hin as [k Hk].
      destruct (R2 k c Hk) as [[-> _]|(q & -> & Hq & _)]; [left; reflexivity|right; rewrite subs_nb; lia].
    Qed.
    Lemma row_at n o : nth_error l n = Some o -> exists r, nth_error rows n = Some r /\ rinv true o size (fst r) /\ rinv false o size (snd r).
    Proof. intros Hn. destruct (Forall2_nth _ _ _ _ _ Hrows Hn) as (r & Hr & H). eauto. Qed.
    Lemma row_len : length rows = length l.
    Proof. symmetry. apply (Forall2_len _ _ _ Hrows). Qed.

    Notation good a := (represents S E l e (fun _ => true) a /\ blocks_by_qn S E q_real l qs a /\
      (forall n o, nth_error l n = Some o -> no_element_lost S E l a (a_cdconn S E a) n (ECdag o) /\ no_element_lost S E l a (a_cconn S E a) n (EC o))).

    Section Op.
      Variable a : atom S E.
      Variable ord : list nat.
      Hypothesis P : Permutation ord (seq 0 (length subs)).
      Hypothesis Hat : forall b B ev u, block S E a b B ev u -> exists k sp ev0, at_new S E l e subs a ord b k sp ev0 u /\ sub_states sp = B.
      Hypothesis Hall : forall b, b < length subs -> exists k sp ev u, at_new S E l e subs a ord b k sp ev u.
      Variable x : bool.
      Variables (conn : list (list Z)) (mats : list (list (option (mat S)))) (rs : list (list Z)).
      Hypothesis Ec : conn = map (remap_row ord) rs.
      Hypothesis Hr : forall n o, nth_error l n = Some o -> exists row, nth_error rs n = Some row /\ rinv x o size row.
      Hypothesis Hm : mats_ok S E l subs a conn mats (ex S x).

      Lemma in_block b B ev u f : block S E a b B ev u -> In f B -> fock f /\ nth_error ord b = Some (cl f).
      Proof.
        intros Hb Hf. destruct (Hat b B ev u Hb) as (k & sp & ev0 & (A1 & A2 & _) & <-). destruct (sub_nth k sp A2) as (H1 & _). apply H1 in Hf.
        destruct Hf as [Hf <-]. auto.
      Qed.

      (** the connection of block b for orbital number n *)
      Lemma conn_at n o b k : nth_error l n = Some o -> nth_error ord b = Some k -> k < length subs ->
        exists row c0, nth_error rs n = Some row /\ rinv x o size row /\ nth_error row k = Some c0 /\ connection conn n b = Some (remap_val ord c0).
      Proof.
        intros Hn Hb Hk. destruct (Hr n o Hn) as (row & R1 & R2). pose proof (row_good x o row R2) as [G1 _].
        destruct (nth_error_lt row k) as [c0 Hc0]; [lia|]. exists row, c0. split; [exact R1|]. split; [exact R2|]. split; [exact Hc0|].
        destruct (remap_row_spec _ ord P row G1) as [_ Q2]. unfold connection. rewrite Ec, nth_error_map, R1. cbn [option_map]. exact (Q2 b k c0 Hb Hc0).
      Qed.

      Lemma op_good : operator_represented S E l a conn mats (ex S x).
      Proof.
        intros n o b B ev u Hn Hb.
        destruct (Hm n o Hn) as (row & ms & R1 & R2 & R3 & R4 & R5).
        destruct (Hat b B ev u Hb) as (k & sp & ev0 & At & HB). assert (At' := At). destruct At as (A1 & A2 & A3 & _).
        destruct (sub_nth k sp A2) as (Sp & _). rewrite HB in Sp.
        destruct (conn_at n o b k Hn A1 (nth_error_Some_lt _ _ _ A2)) as (row0 & c0 & Q1 & Q2 & Q3 & Q4).
        exists (remap_val ord c0). split; [exact Q4|]. unfold connection in Q4. rewrite R1 in Q4. rename Q4 into Hc0.
        destruct Q2 as [_ Q2]. destruct (Q2 k c0 Q3) as [[-> Z]|(q & -> & Hq & (i & g & J1 & J2 & J3 & J4 & J5) & _)].
        - left. assert (Hcm : remap_val ord (-1) = (-1)%Z) by reflexivity. split; [exact Hcm|]. split.
          + unfold op_mat. rewrite R2. destruct (R5 b _ Hc0) as [[_ ->]|(b' & _ & _ & _ & _ & _ & Hb' & _)]; [reflexivity|]. rewrite Hcm in Hb'. lia.
          + intros b' B' ev' u' f f' Hb' Hf Hf'. apply Sp in Hf. destruct Hf as [Hf Hk]. rewrite <- (N2Nat.id f). apply Z; [apply f_lt, Hf|]. rewrite N2Nat.id. exact Hk.
        - right. rewrite <- subs_nb in Hq. destruct (ord_pos _ _ P q Hq) as (b' & O1 & O2 & O3).
          assert (Hcb : remap_val ord (Z.of_nat q) = Z.of_nat b'). { unfold remap_val. destruct (Z.eqb_spec (Z.of_nat q) (-1)); [lia|]. rewrite Nat2Z.id, O2. reflexivity. }
          destruct (R5 b _ Hc0) as [[Hx _]|(b2 & sf' & st' & ef & et & M & Hb2 & M1 & M2 & M3 & M4 & M5 & M6 & M7 & M8)]; [lia|].
          assert (b2 = b') by lia. subst b2.
          destruct (Hall b' O3) as (k' & st & ev' & u' & At2). assert (At2' := At2). destruct At2 as (T1 & T2 & T3 & _).
          rewrite O1 in T1. injection T1 as <-.
          rewrite A3 in M2. injection M2 as <-. rewrite T3 in M3. injection M3 as <-.
          destruct (sub_nth q st T2) as (St & _).
          assert (Eef : umat S E ef = u /\ evals S E ef = ev). { destruct Hb as (x1 & x2 & X1 & X2 & X3 & X4 & X5). rewrite M4 in X2. injection X2 as <-. auto. }
          exists b', (sub_states st), (evals S E et), (umat S E et), M. split; [exact Hcb|]. split.
          { exists (set_index b' st), et. rewrite set_index_states. auto. }
          split; [unfold op_mat; rewrite R2, M1; reflexivity|]. split.
          { exists (N.of_nat i), g. split; [apply Sp; split; [apply (fock_lt l d Hl Hd); exact J1|exact J2]|]. split; [apply St; auto|exact J5]. }
          unfold sub_size in M6, M7, M8. change (sub_states (set_index b' st)) with (sub_states st) in *. change (sub_states (set_index b sp)) with (sub_states sp) in *. rewrite HB in M7, M8.
          split; [exact M6|]. split; [exact M7|]. intros j i' Hj Hi. rewrite M8 by assumption. destruct Eef as [-> _]. reflexivity.
      Qed.

      Lemma op_not_lost n o : nth_error l n = Some o -> no_element_lost S E l a conn n (ex S x o).
      Proof.
        intros Hn b b' B B' ev ev' u u' f f' Hb Hb' Hf Hf' Hz.
        destruct (in_block _ _ _ _ _ Hb Hf) as [F1 F2]. destruct (in_block _ _ _ _ _ Hb' Hf') as [G1 G2].
        destruct (conn_at n o b (cl f) Hn F2) as (row0 & c0 & _ & [_ Q2] & Q3 & Q4); [rewrite subs_nb; apply cl_lt, F1|].
        rewrite Q4. f_equal. destruct (Q2 _ c0 Q3) as [[-> Z]|(q & -> & Hq & _ & H)].
        - exfalso. apply Hz. rewrite <- (N2Nat.id f). apply Z; [apply f_lt, F1|]. rewrite N2Nat.id. reflexivity.
        - destruct (H (N.to_nat f) f') as [_ Hcl]; [apply f_lt, F1|rewrite N2Nat.id; reflexivity|rewrite N2Nat.id; exact Hz|].
          unfold remap_val. destruct (Z.eqb_spec (Z.of_nat q) (-1)); [lia|]. rewrite Nat2Z.id. f_equal. rewrite <- Hcl.
          apply index_of_spec; [apply (ord_nodup _ _ P)|exact G2].
      Qed.
    End Op.

    Lemma qn_with : exists a ord, complete S E eigen l op d subs (map fst rows) (map snd rows) keys = Ok a /\ good a /\ a_qn S E a = keys /\
      a_h S E a = op /\ a_fops S E a = l /\ a_dim S E a = d /\
      Permutation ord (seq 0 (length subs)) /\ forall b B ev u f, block S E a b B ev u -> In f B -> nth_error ord b = Some (cl f).
    Proof.
      assert (Rk : forall pr : list Z * list Z -> list Z, (forall n o, nth_error l n = Some o -> exists r, nth_error rows n = Some r /\ exists x, rinv x o size (pr r)) ->
        Forall (row_ok (length subs)) (map pr rows)).
      { intros pr H. apply Forall_forall. intros r Hr. apply in_map_iff in Hr. destruct Hr as (me & <- & Hin). apply In_nth_error in Hin. destruct Hin as [n Hn].
        destruct (nth_error_lt l n) as [o Ho]; [rewrite <- row_len; eapply nth_error_Some_lt; exact Hn|].
        destruct (H n o Ho) as (r & Hr & x & Hx). rewrite Hn in Hr. injection Hr as <-. exact (row_good x o _ Hx). }
      destruct (complete_ok S L E EL l d Hl Hd eigen e op Hu He Sv subs subs_good (map fst rows) (map snd rows)) with (qn := keys) as
        (a & ord & C1 & P & Ls & Le & Hall & Hord & Hgs & E1 & E2 & M1 & M2 & F1 & F2 & F3 & F4 & F5 & F6).
      { split; [rewrite map_length; exact row_len|]. apply Rk. intros n o Hn. destruct (row_at n o Hn) as (r & R1 & R2 & R3). eauto. }
      { split; [rewrite map_length; exact row_len|]. apply Rk. intros n o Hn. destruct (row_at n o Hn) as (r & R1 & R2 & R3). eauto. }
      assert (Hat : forall b B ev u, block S E a b B ev u -> exists k sp ev0, at_new S E l e subs a ord b k sp ev0 u /\ sub_states sp = B /\
        exists g, a_gs S E a = Some g /\ ev = map (fun x => e_sub x g) ev0 /\
        decomposes S E (length B) (fun j i => bracket S l e (nth j B 0%N) (nth i B 0%N)) ev0 u k0).
      { intros b B ev u (sp' & es & X1 & X2 & X3 & X4 & X5). destruct (Hall b) as (k & sp & ev0 & u0 & At). { apply nth_error_Some_lt in X1. lia. }
        assert (At' := At). destruct At as (A1 & A2 & A3 & g & A4 & A5 & A6). rewrite A3 in X1. injection X1 as <-. rewrite A5 in X2. injection X2 as <-.
        cbn [evals umat] in X4, X5. subst ev u0. rewrite set_index_states in X3. exists k, sp, ev0. split; [exact At'|]. split; [exact X3|].
        exists g. split; [exact A4|]. split; [reflexivity|]. rewrite <- X3. exact A6. }
      assert (Hat' : forall b B ev u, block S E a b B ev u -> exists k sp ev0, at_new S E l e subs a ord b k sp ev0 u /\ sub_states sp = B).
      { intros b B ev u H. destruct (Hat b B ev u H) as (k & sp & ev0 & H1 & H2 & _). eauto. }
      pose proof (in_block a ord Hat') as Hin.
      assert (Hsame : blocks_by_qn S E q_real l qs a).
      { intros f f' b b' B B' ev ev' u u' Hb Hb' Hf Hf'. destruct (Hin _ _ _ _ _ Hb Hf) as [K1 K2]. destruct (Hin _ _ _ _ _ Hb' Hf') as [K1' K2']. split.
        - intros <-. rewrite K2 in K2'. injection K2' as K. apply (cl_eq _ _ K1 K1'). exact K.
        - intros Q. rewrite Q in K2. pose proof (ord_nodup _ _ P) as ND. rewrite NoDup_nth_error in ND.
          apply ND; [eapply nth_error_Some_lt; exact K2|congruence]. }
      exists a, ord. split; [exact C1|]. split; [|split; [exact F4|split; [exact F1|split; [exact F2|split; [exact F3|split; [exact P|intros b B ev u f Hb Hf; apply (Hin b B ev u f Hb Hf)]]]]]].
      assert (HrT : forall n o, nth_error l n = Some o -> exists row, nth_error (map fst rows) n = Some row /\ rinv true o size row).
      { intros n o Hn. destruct (row_at n o Hn) as (r & R1 & R2 & R3). exists (fst r). rewrite nth_error_map, R1. auto. }
      assert (HrF : forall n o, nth_error l n = Some o -> exists row, nth_error (map snd rows) n = Some row /\ rinv false o size row).
      { intros n o Hn. destruct (row_at n o Hn) as (r & R1 & R2 & R3). exists (snd r). rewrite nth_error_map, R1. auto. }
      split; [|split; [exact Hsame|]].
      - split; [|split; [|split; [|split]]].
        + split; [|split; [|split]].
          * intros f. split.
            -- intros (b & B & ev & u & Hb & Hf). destruct (Hin _ _ _ _ _ Hb Hf) as [X1 X2]. auto.
            -- intros [X1 _]. destruct (ord_pos _ _ P (cl f)) as (b & O1 & _ & O3); [rewrite subs_nb; apply cl_lt, X1|].
               destruct (Hall b O3) as (k & sp & ev & u & (A1 & A2 & A3 & g & A4 & A5 & A6)). rewrite O1 in A1. injection A1 as <-.
               exists b, (sub_states sp), (map (fun x => e_sub x g) ev), u. split; [|apply (sub_nth _ _ A2); auto]. eexists _, _. split; [exact A3|]. split; [exact A5|].
               rewrite set_index_states. cbn. auto.
          * intros b B ev u Hb. destruct (Hat' b B ev u Hb) as (k & sp & ev0 & (A1 & A2 & _) & HB). destruct (sub_nth k sp A2) as (_ & K2 & K3 & _).
            rewrite <- HB. split; [exact K2|exact K3].
          * intros b b' B B' ev ev' u u' f Hb Hb' Hf Hf'. apply (Hsame f f b b' B B' ev ev' u u' Hb Hb' Hf Hf'). reflexivity.
          * congruence.
        + split.
          * intros b B ev u Hb. destruct (Hat b B ev u Hb) as (k & sp & ev0 & _ & _ & g & G1 & -> & D). exists g. split; [exact G1|].
            apply (decomposes_shift S L E EL l Hl). exact D.
          * intros b b' B B' ev ev' u u' f f' Hb Hb' Hf Hf' Hne. destruct (Hin _ _ _ _ _ Hb Hf) as [X1 _]. destruct (Hin _ _ _ _ _ Hb' Hf') as [X1' _].
            destruct (k_dec S L (bracket S l e f' f) k0) as [|Hz]; [assumption|]. exfalso. apply Hne.
            apply (Hsame f f' b b' B B' ev ev' u u' Hb Hb' Hf Hf'). symmetry. exact (Hc f f' X1 X1' Hz).
        + intros g Hg. destruct (Hgs g Hg) as [(b & k & sp & ev & u & At & H0) G2]. split.
          * destruct At as (A1 & A2 & A3 & g' & A4 & A5 & A6). rewrite Hg in A4. injection A4 as <-.
            exists b, (sub_states sp), (map (fun x => e_sub x g) ev), u. split.
            -- eexists _, _. split; [exact A3|]. split; [exact A5|]. rewrite set_index_states. cbn. auto.
            -- rewrite nth_error_map, H0. reflexivity.
          * intros b' B ev' u' x Hb Hx. destruct (Hat b' B ev' u' Hb) as (k' & sp' & ev0 & At2 & _ & g' & G1 & -> & _). rewrite Hg in G1. injection G1 as <-.
            apply in_map_iff in Hx. destruct Hx as (y & <- & Hy). rewrite (el_sub_lt S E EL). eapply G2; eassumption.
        + exact (op_good a ord P Hat' Hall true _ _ _ E1 HrT M1).
        + exact (op_good a ord P Hat' Hall false _ _ _ E2 HrF M2).
      - intros n o Hn. split; [exact (op_not_lost a ord P Hat' true _ _ E1 HrT n o Hn)|exact (op_not_lost a ord P Hat' false _ _ E2 HrF n o Hn)].
    Qed.
  End With.

  Lemma listed keys subs : sinv S E q_real q_lt l qs size keys subs -> qn_listed S E q_real l qs keys.
  Proof.
    intros (_ & H2 & H3 & H4 & _). split; [exact H2|]. split.
    - intros q. rewrite H3. split.
      + intros (i & Hi & Hq). exists (N.of_nat i). split; [apply (fock_lt l d Hl Hd); exact Hi|exact Hq].
      + intros (f & Hf & Hq). exists (N.to_nat f). rewrite N2Nat.id. split; [apply f_lt; exact Hf|exact Hq].
    - intros i j q q' Hij Hi Hj. destruct (H4 i j q q' Hij Hi Hj) as (f & F1 & F2 & F3). exists (N.of_nat f). split; [apply (fock_lt l d Hl Hd); exact F1|].
      split; [exact F2|]. intros f' Hf' Hq'. specialize (F3 (N.to_nat f')). rewrite N2Nat.id in F3. specialize (F3 (proj1 (f_lt f') Hf') Hq'). lia.
  Qed.

  Lemma thm_qn : (forall o, In o l -> shifts S E q_real l qs (ECdag o) /\ shifts S E q_real l qs (EC o)) ->
    exists a, atom_diag_qn S E eigen q_real q_complex q_lt op l qns = Ok a /\ represents S E l e (fun _ => true) a /\ blocks_by_qn S E q_real l qs a /\
      (forall n o, nth_error l n = Some o -> no_element_lost S E l a (a_cdconn S E a) n (ECdag o) /\ no_element_lost S E l a (a_cconn S E a) n (EC o)) /\
      qn_listed S E q_real l qs (a_qn S E a).
  Proof.
    intros Sh. unfold atom_diag_qn, partition_with_qn. rewrite Hd. cbn [bind].
    destruct (split_all S L E q_real q_complex q_lt l d Hl Hd qs qns Hqs QL Hap size (le_n _) Hre) as (keys & subs & -> & Hs). cbn [bind fst snd].
    rewrite (subs_nb keys subs Hs).
    destruct (all_rows S L E q_real q_complex q_lt l d Hl Hd qs qns Hqs QL Hre Hap keys (Kok keys subs Hs) (Kall keys subs Hs) l (incl_refl l)) as [(rows & -> & Hr)|[_ (o & Ho & M)]].
    - cbn [bind]. destruct (qn_with keys subs Hs (fun o Ho => proj1 (Sh o Ho)) rows Hr) as (a & ord & -> & (G1 & G2 & G3) & K & _).
      exists a. split; [reflexivity|]. split; [exact G1|]. split; [exact G2|]. split; [exact G3|]. rewrite K. exact (listed keys subs Hs).
    - exfalso. destruct M as [M|M]; revert M; apply not_mixes; auto; intros _; apply (Sh o Ho).
  Qed.
End Main.

Lemma dim_ok n : n <= 17 -> exists d, hs_dim n = Ok d.
Proof. intros H. rewrite hs_dim_small by lia. eauto. Qed.

Section Refused.
  Context (S : scalar_ops) (L : scalar_laws S) (E : energy_ops S).
  Variable eigen : mat S -> list E * mat S.
  Variable q_real : S -> E.
  Variable q_complex : S -> bool.
  Variable q_lt : E -> E -> bool.
  Variable l : fops.
  Hypothesis Hl : (length l <= 17)%nat.
  Variable op : omap S.
  Variable qs : list (expr S).
  Variable qns : list (omap S).
  Hypothesis Hqs : Forall2 (fun q op => (forall j, uses q j -> In j l) /\ eval q = Some op) qs qns.
  Hypothesis QL : qn_laws S E q_complex q_lt.
  Hypothesis Hap : qn_apart S E q_real q_lt l qs.

  Lemma thm_mixed : qn_are_real S q_complex l qs ->
    (exists o x f f' g g', In o l /\ fock l f /\ fock l f' /\ fock l g /\ fock l g' /\ qnum S E q_real l qs f = qnum S E q_real l qs f' /\
      bracket S l (if x : bool then ECdag o else EC o) g f <> k0 /\ bracket S l (if x then ECdag o else EC o) g' f' <> k0 /\ qnum S E q_real l qs g <> qnum S E q_real l qs g') ->
    atom_diag_qn S E eigen q_real q_complex q_lt op l qns = Throw.
  Proof.
    intros Hre (o & x & f & f' & g & g' & Ho & M). unfold atom_diag_qn, partition_with_qn.
    destruct (dim_ok (length l)) as [d Hd]; [lia|]. rewrite Hd. cbn [bind].
    destruct (split_all S L E q_real q_complex q_lt l d Hl Hd qs qns Hqs QL Hap (Z.to_nat d) (le_n _) Hre) as (keys & subs & -> & Hs). cbn [bind fst snd].
    rewrite (subs_nb S E q_real q_lt l d qs keys subs Hs).
    pose proof (Kok S E q_real q_lt l d Hl Hd qs keys subs Hs) as K1. pose proof (Kall S E q_real q_lt l d Hl Hd qs keys subs Hs) as K2.
    destruct (all_rows S L E q_real q_complex q_lt l d Hl Hd qs qns Hqs QL Hre Hap keys K1 K2 l (incl_refl l)) as [(rows & _ & Hr)|[-> _]]; [|reflexivity].
    exfalso. apply In_nth_error in Ho. destruct Ho as [n Hn]. destruct (Forall2_nth _ _ _ _ _ Hr Hn) as (r & _ & R1 & R2).
    destruct x.
    - apply (rinv_no_mix S E q_real q_complex q_lt l d Hl Hd qs QL Hap keys K1 K2 true o _ R1). exists f, f', g, g'. exact M.
    - apply (rinv_no_mix S E q_real q_complex q_lt l d Hl Hd qs QL Hap keys K1 K2 false o _ R2). exists f, f', g, g'. exact M.
  Qed.

  Lemma thm_complex : (exists q f, In q qs /\ fock l f /\ q_complex (bracket S l q f f) = true) ->
    atom_diag_qn S E eigen q_real q_complex q_lt op l qns = Throw.
  Proof.
    intros (q & f & Hq & Hf & Hc). unfold atom_diag_qn, partition_with_qn. destruct (dim_ok (length l)) as [d Hd]; [lia|]. rewrite Hd. cbn [bind].
    rewrite (split_complex S L E q_real q_complex q_lt l d Hl Hd qs qns Hqs QL Hap (Z.to_nat d) (le_n _)); [reflexivity|].
    exists q, (N.to_nat f). rewrite N2Nat.id. split; [exact Hq|]. split; [apply (f_lt l d Hl Hd); exact Hf|exact Hc].
  Qed.
End Refused.

(** ---- additive quantum numbers ---- *)
Section Additive.
  Context (S : scalar_ops) (L : scalar_laws S) (E : energy_ops S).
  Local Open Scope K_scope.
  Add Ring KringA : (sl_ring S L).
  Variable q_real : S -> E.
  Hypothesis Hadd : forall x y w : S, q_real x = q_real y -> q_real (x + w) = q_real (y + w).
  Variable l : fops.
  Variable qs : list (expr S).
  Hypothesis Hq : forall q, In q qs -> exists w, additive S l w q.
  Notation wsum w f := (ksum (map (fun k => if N.testbit f (N.of_nat k) then w k else (k0 : S)) (seq 0 (length l)))).

  Lemma wsum_set (w : nat -> S) f p : p < length l -> N.testbit f (N.of_nat p) = false -> wsum w (N.setbit f (N.of_nat p)) = wsum w f + w p.
  Proof.
    intros Hp Hb.
    assert (G : forall n a, (a <= p < a + n)%nat ->
      ksum (map (fun k => if N.testbit (N.setbit f (N.of_nat p)) (N.of_nat k) then w k else (k0 : S)) (seq a n)) =
      ksum (map (fun k => if N.testbit f (N.of_nat k) then w k else (k0 : S)) (seq a n)) + w p).
    { assert (G0 : forall n a, (p < a)%nat ->
        ksum (map (fun k => if N.testbit (N.setbit f (N.of_nat p)) (N.of_nat k) then w k else (k0 : S)) (seq a n)) =
        ksum (map (fun k => if N.testbit f (N.of_nat k) then w k else (k0 : S)) (seq a n))).
      { intros n a Ha. f_equal. apply map_ext_in. intros k Hk. apply in_seq in Hk. rewrite setbit_nat. destruct (Nat.eqb_spec p k); [lia|reflexivity]. }
      induction n as [|n IH]; intros a Ha; [lia|]. cbn [seq map ksum]. rewrite setbit_nat. destruct (Nat.eqb_spec p a) as [->|Hne].
      - rewrite Hb, orb_true_l, G0 by lia. ring.
      - rewrite orb_false_l, IH by lia. ring. }
    apply G. lia.
  Qed.

  Lemma wsum_step x o f g : In o l -> fock l f -> fock l g -> bracket S l (ex S x o) g f <> k0 ->
    forall w, wsum w g = wsum w f + (if x then w (mode l o) else - w (mode l o)).
  Proof.
    intros Ho Hf Hg Hz w. rewrite (ex_mel S L l x o f g Ho) in Hz. unfold mel_mono in Hz. cbn [act] in Hz. unfold act_cop in Hz. cbn [dag ind] in Hz. cbv zeta in Hz.
    pose proof (mode_lt l o Ho) as Hm. destruct x, (N.testbit f (N.of_nat (mode l o))) eqn:Eb; try congruence.
    - destruct (N.eqb_spec (N.setbit f (N.of_nat (mode l o))) g) as [<-|]; [|congruence]. apply wsum_set; assumption.
    - destruct (N.eqb_spec (N.clearbit f (N.of_nat (mode l o))) g) as [<-|]; [|congruence]. set (g := N.clearbit f (N.of_nat (mode l o))).
      assert (Ef : f = N.setbit g (N.of_nat (mode l o))).
      { apply testbit_eq_N. intros k. unfold g. rewrite setbit_nat, clearbit_nat. destruct (Nat.eqb_spec (mode l o) k) as [<-|]; [rewrite Eb; reflexivity|reflexivity]. }
      assert (Bg : N.testbit g (N.of_nat (mode l o)) = false) by (unfold g; rewrite clearbit_nat, Nat.eqb_refl; reflexivity).
      clearbody g. subst f. rewrite (wsum_set w g _ Hm Bg). ring.
  Qed.

  Lemma additive_shifts x o : In o l -> shifts S E q_real l qs (ex S x o).
  Proof.
    intros Ho f f' g g' Hf Hf' Hg Hg' Hqn Hz Hz'. unfold qnum in *. apply map_ext_in. intros q Hin.
    assert (Hqq : q_real (bracket S l q f f) = q_real (bracket S l q f' f')).
    { clear -Hqn Hin. induction qs as [|q0 qs' IH]; [destruct Hin|]. cbn [map] in Hqn. injection Hqn as H1 H2. destruct Hin as [->|Hin]; [exact H1|apply IH; assumption]. }
    destruct (Hq q Hin) as [w Hw]. rewrite (Hw g g Hg Hg), (Hw g' g' Hg' Hg'), !N.eqb_refl. rewrite (Hw f f Hf Hf), (Hw f' f' Hf' Hf'), !N.eqb_refl in Hqq.
    rewrite (wsum_step x o f g Ho Hf Hg Hz w), (wsum_step x o f' g' Ho Hf' Hg' Hz' w). apply Hadd, Hqq.
  Qed.
End Additive.
