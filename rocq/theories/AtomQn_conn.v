(** The loop of the constructor that fills the connection matrices. *)
From Coq Require Import ZArith NArith List Arith Bool Lia Sorted.
From Verif Require Import Base Indices Scalar Fock FockFacts OpModel OpExpr OpNormal Op_proofs Hilbert Hilbert_proofs
  State StateSpec State_proofs ImpOp ImpOp_proofs ImpOp_run ImpOp_thms Partition Partition_imp Partition_thms
  AtomDiag AtomDiagSpec AtomDiag_lists AtomDiag_terms AtomDiag_mats AtomDiag_complete AtomDiag_auto AtomQn AtomQnSpec AtomQn_run AtomQn_split.
Import ListNotations.
Local Open Scope nat_scope.

Section Conn.
  Context (S : scalar_ops) (L : scalar_laws S) (E : energy_ops S).
  Local Open Scope K_scope.
  Add Ring KringC : (sl_ring S L).
  Variable q_real : S -> E.
  Variable q_complex : S -> bool.
  Variable q_lt : E -> E -> bool.
  Variable l : fops.
  Variable d : Z.
  Hypothesis Hl : (length l <= 17)%nat.
  Hypothesis Hd : hs_dim (length l) = Ok d.
  Notation pos := (mode l).
  Notation size := (Z.to_nat d).
  Notation fock := (fock l).
  Variable qs : list (expr S).
  Variable qns : list (omap S).
  Hypothesis Hqs : Forall2 (fun q op => (forall j, uses q j -> In j l) /\ eval q = Some op) qs qns.
  Hypothesis QL : qn_laws S E q_complex q_lt.
  Hypothesis Hre : qn_are_real S q_complex l qs.
  Hypothesis Hap : qn_apart S E q_real q_lt l qs.
  Notation qnum := (qnum S E q_real l qs).
  Variable keys : list (list E).
  Hypothesis Kok : keys_ok S E q_real l qs keys.
  Hypothesis Kall : forall f, fock f -> In (qnum f) keys.
  Notation cl f := (qn_at S E q_lt (qnum f) keys).
  Notation nb := (length keys).

  Lemma cl_nth f : fock f -> nth_error keys (cl f) = Some (qnum f).
  Proof.
    intros Hf. pose proof (Kall f Hf) as H. apply In_nth_error in H. destruct H as [n Hn].
    rewrite (at_spec S E q_real q_complex q_lt l qs QL Hap keys f n Hf Kok Hn). exact Hn.
  Qed.
  Lemma cl_lt f : fock f -> cl f < nb.
  Proof. intros Hf. eapply nth_error_Some_lt. apply cl_nth, Hf. Qed.
  Lemma cl_eq f g : fock f -> fock g -> cl f = cl g <-> qnum f = qnum g.
  Proof.
    intros Hf Hg. split; intros H; [|rewrite H; reflexivity]. pose proof (cl_nth f Hf) as H1. rewrite H, (cl_nth g Hg) in H1. congruence.
  Qed.

  Definition rinv (x : bool) (o : indices) (r : nat) (row : list Z) : Prop :=
    length row = nb /\ forall k c, nth_error row k = Some c ->
    (c = (-1)%Z /\ forall i g, i < r -> cl (N.of_nat i) = k -> bracket S l (ex S x o) g (N.of_nat i) = k0) \/
    (exists q, c = Z.of_nat q /\ q < nb /\
      (exists i g, i < r /\ cl (N.of_nat i) = k /\ fock g /\ cl g = q /\ bracket S l (ex S x o) g (N.of_nat i) <> k0) /\
      forall i g, i < r -> cl (N.of_nat i) = k -> bracket S l (ex S x o) g (N.of_nat i) <> k0 -> fock g /\ cl g = q).
  Definition mixes (x : bool) (o : indices) : Prop :=
    exists f f' g g', fock f /\ fock f' /\ fock g /\ fock g' /\ qnum f = qnum f' /\
      bracket S l (ex S x o) g f <> k0 /\ bracket S l (ex S x o) g' f' <> k0 /\ qnum g <> qnum g'.

  Lemma step_ok x o r st row : In o l -> r < size -> pure S d st (N.of_nat r) k1 -> rinv x o r row ->
    (exists row', conn_step S E q_real q_complex q_lt l qns keys (opc S x o) (qnum (N.of_nat r)) st row = Ok row' /\ rinv x o (Datatypes.S r) row') \/
    (conn_step S E q_real q_complex q_lt l qns keys (opc S x o) (qnum (N.of_nat r)) st row = Throw /\ mixes x o).
  Proof.
    intros Ho Hr Hp [I1 I2]. pose proof (fock_lt l d Hl Hd r Hr) as Hf. unfold conn_step.
    destruct (opc_pure S L l d Hl Hd x o st (N.of_nat r) Ho Hp Hf) as (t & -> & [(g & b & Tp & Tf & Tz & Tu)|[Tp Tz]]); cbn [bind].
    - rewrite (get_qn_pure S L E q_real q_complex l d Hl Hd qs qns Hqs t g (sgn b) Tp Tf); [|apply (sgn_one S L)|intros q Hq; apply Hre; assumption].
      cbn [bind]. rewrite (dot_pure S L l d Hl Hd t t g (sgn b) Tp Tf); try apply Tp. cbn [bind].
      assert (Q : kconj (sgn b : S) * amplitude t g = k1). { destruct Tp as (_ & _ & _ & Ta). rewrite Ta, N.eqb_refl. apply (sgn_one S L). }
      rewrite Q. assert (Q1 : kisz (k1 : S) = false). { destruct (kisz (k1 : S)) eqn:Ez; [|reflexivity]. apply (sl_isz S L) in Ez. exfalso. exact (sl_nontrivial S L Ez). }
      rewrite Q1. destruct (nth_error_lt row (cl (N.of_nat r))) as [c Hc]; [rewrite I1; apply cl_lt, Hf|]. rewrite Hc.
      destruct (I2 _ _ Hc) as [[-> Hn]|(q & -> & Hq & (i & g1 & J1 & J2 & J3 & J4 & J5) & Hq')].
      + rewrite Z.eqb_refl. left. eexists. split; [reflexivity|]. split; [rewrite upd_length; exact I1|]. intros k c Hk. rewrite upd_nth in Hk.
        destruct (Nat.eqb_spec (cl (N.of_nat r)) k) as [<-|Hne].
        * rewrite Hc in Hk. cbn [option_map] in Hk. injection Hk as <-. right. exists (cl g). split; [reflexivity|]. split; [apply cl_lt, Tf|]. split.
          -- exists r, g. repeat split; auto.
          -- intros i g1 Hi Hcl Hnz. destruct (Nat.eq_dec i r) as [->|]; [rewrite (Tu g1 Hnz); auto|]. exfalso. apply Hnz, Hn; [lia|exact Hcl].
        * destruct (I2 k c Hk) as [[-> Hn']|(q & -> & Hq & (i & g1 & J1 & J2 & J3 & J4 & J5) & Hq')].
          -- left. split; [reflexivity|]. intros i g1 Hi Hcl. destruct (Nat.eq_dec i r) as [->|]; [congruence|apply Hn'; [lia|exact Hcl]].
          -- right. exists q. split; [reflexivity|]. split; [exact Hq|]. split; [exists i, g1; repeat split; auto; lia|].
             intros i' g' Hi' Hcl. destruct (Nat.eq_dec i' r) as [->|]; [congruence|apply Hq'; [lia|exact Hcl]].
      + replace (Z.of_nat q =? -1)%Z with false by (symmetry; apply Z.eqb_neq; lia).
        destruct (Z.eqb_spec (Z.of_nat q) (Z.of_nat (cl g))) as [e|Hne].
        * apply Nat2Z.inj in e. left. exists row. split; [reflexivity|]. split; [exact I1|]. intros k c Hk.
          destruct (I2 k c Hk) as [[-> Hn']|(q2 & -> & Hq2 & (i2 & g2 & J1' & J2' & J3' & J4' & J5') & Hq2')].
          -- left. split; [reflexivity|]. intros i' g' Hi' Hcl. destruct (Nat.eq_dec i' r) as [->|]; [|apply Hn'; [lia|exact Hcl]].
             rewrite Hcl in Hc. rewrite Hc in Hk. injection Hk as Hk. lia.
          -- right. exists q2. split; [reflexivity|]. split; [exact Hq2|]. split; [exists i2, g2; repeat split; auto; lia|].
             intros i' g' Hi' Hcl Hnz. destruct (Nat.eq_dec i' r) as [->|]; [|apply (Hq2' i'); [lia|exact Hcl|exact Hnz]].
             rewrite (Tu g' Hnz). split; [exact Tf|]. rewrite Hcl in Hc. rewrite Hc in Hk. injection Hk as Hk. lia.
        * right. split; [reflexivity|]. assert (Fi : fock (N.of_nat i)) by (apply (fock_lt l d Hl Hd); lia).
          exists (N.of_nat i), (N.of_nat r), g1, g. repeat split; auto.
          -- apply (cl_eq _ _ Fi Hf). exact J2.
          -- intros H. apply Hne. f_equal. rewrite <- J4. apply (cl_eq _ _ J3 Tf). exact H.
    - destruct (get_qn_zero S L E q_real q_complex q_lt l d Hl Hd qs qns Hqs QL t (N.of_nat r) Tp Hf) as [q ->]. cbn [bind].
      rewrite (dot_pure S L l d Hl Hd t t (N.of_nat r) k0 Tp Hf); try apply Tp. cbn [bind]. rewrite (kconj_0 S L).
      replace (k0 * amplitude t (N.of_nat r)) with (k0 : S) by ring. replace (kisz (k0 : S)) with true by (symmetry; apply (sl_isz S L); reflexivity).
      left. exists row. split; [reflexivity|]. split; [exact I1|]. intros k c Hk.
      destruct (I2 k c Hk) as [[-> Hn']|(q2 & -> & Hq2 & (i2 & g2 & J1' & J2' & J3' & J4' & J5') & Hq2')].
      + left. split; [reflexivity|]. intros i' g' Hi' Hcl. destruct (Nat.eq_dec i' r) as [->|]; [apply Tz|apply Hn'; [lia|exact Hcl]].
      + right. exists q2. split; [reflexivity|]. split; [exact Hq2|]. split; [exists i2, g2; repeat split; auto; lia|].
        intros i' g' Hi' Hcl Hnz. destruct (Nat.eq_dec i' r) as [->|]; [exfalso; apply Hnz, Tz|apply (Hq2' i'); [lia|exact Hcl|exact Hnz]].
  Qed.

  Lemma rinv_start x o : rinv x o 0 (repeat (-1)%Z nb).
  Proof.
    split; [apply repeat_length|]. intros k c Hk. left. split; [|intros; lia]. eapply repeat_spec. eapply nth_error_In. exact Hk.
  Qed.

  Lemma rows_ok o : In o l ->
    (exists cd c, conn_rows S E q_real q_complex q_lt l qns d keys nb o = Ok (cd, c) /\ rinv true o size cd /\ rinv false o size c) \/
    (conn_rows S E q_real q_complex q_lt l qns d keys nb o = Throw /\ (mixes true o \/ mixes false o)).
  Proof.
    intros Ho. unfold conn_rows.
    assert (G : forall r, r <= size ->
      (exists cd c, fold_left (conn_state S E q_real q_complex q_lt l qns d keys o) (seq 0 r) (Ok (repeat (-1)%Z nb, repeat (-1)%Z nb)) = Ok (cd, c) /\ rinv true o r cd /\ rinv false o r c) \/
      (fold_left (conn_state S E q_real q_complex q_lt l qns d keys o) (seq 0 r) (Ok (repeat (-1)%Z nb, repeat (-1)%Z nb)) = Throw /\ (mixes true o \/ mixes false o))).
    { induction r as [|r IH]; intros Hr.
      - left. eexists _, _. split; [reflexivity|]. split; apply rinv_start.
      - rewrite seq_S, fold_left_app. cbn [fold_left Nat.add]. destruct IH as [(cd & c & -> & R1 & R2)|[-> M]]; [lia| |right; split; [reflexivity|exact M]].
        unfold conn_state. cbn [bind fst snd]. assert (Hr' : r < size) by lia. destruct (basis_pure S L l d Hl Hd r Hr') as (st & -> & Hp). cbn [bind].
        rewrite (get_qn_pure S L E q_real q_complex l d Hl Hd qs qns Hqs st (N.of_nat r) k1 Hp);
          [|apply (fock_lt l d Hl Hd); exact Hr'|rewrite (kconj_1 S L); apply (Rmul_1_l (sl_ring S L))|intros q Hq; apply Hre; [exact Hq|apply (fock_lt l d Hl Hd); exact Hr']].
        cbn [bind]. change (op_c_dag S o) with (opc S true o). change (op_c S o) with (opc S false o).
        destruct (step_ok true o r st cd Ho Hr' Hp R1) as [(cd' & -> & R1')|[-> M]]; cbn [bind]; [|right; split; [reflexivity|left; exact M]].
        destruct (step_ok false o r st c Ho Hr' Hp R2) as [(c' & -> & R2')|[-> M]]; cbn [bind]; [|right; split; [reflexivity|right; exact M]].
        left. exists cd', c'. auto. }
    apply G. lia.
  Qed.

  (** a filled row excludes mixing *)
  Lemma rinv_no_mix x o row : rinv x o size row -> ~ mixes x o.
  Proof.
    intros [I1 I2] (f & f' & g & g' & F1 & F2 & F3 & F4 & F5 & F6 & F7 & F8).
    assert (Hlt : forall h, fock h -> N.to_nat h < size) by (intros h Hh; apply (size_lt l d Hl Hd); rewrite N2Nat.id; exact Hh).
    destruct (nth_error_lt row (cl f)) as [c Hc]; [rewrite I1; apply cl_lt, F1|].
    destruct (I2 _ _ Hc) as [[_ Hn]|(q & _ & _ & _ & Hq)].
    - apply F6. rewrite <- (N2Nat.id f). apply Hn; [apply Hlt, F1|]. rewrite N2Nat.id. reflexivity.
    - apply F8. apply (cl_eq g g' F3 F4).
      destruct (Hq (N.to_nat f) g) as [_ ->]; [apply Hlt, F1|rewrite N2Nat.id; reflexivity|rewrite N2Nat.id; exact F6|].
      destruct (Hq (N.to_nat f') g') as [_ ->]; [apply Hlt, F2|rewrite N2Nat.id; symmetry; apply (cl_eq f f' F1 F2); exact F5|rewrite N2Nat.id; exact F7|]. reflexivity.
  Qed.

  Definition rows_good (todo : list indices) (rows : list (list Z * list Z)) : Prop :=
    Forall2 (fun o r => rinv true o size (fst r) /\ rinv false o size (snd r)) todo rows.
  Lemma all_rows todo : incl todo l ->
    (exists rows, mapM (conn_rows S E q_real q_complex q_lt l qns d keys nb) todo = Ok rows /\ rows_good todo rows) \/
    (mapM (conn_rows S E q_real q_complex q_lt l qns d keys nb) todo = Throw /\ exists o, In o todo /\ (mixes true o \/ mixes false o)).
  Proof.
    induction todo as [|o todo IH]; intros Hin; cbn [mapM]; [left; exists []; split; [reflexivity|constructor]|].
    destruct (rows_ok o (Hin o (or_introl eq_refl))) as [(cd & c & -> & R1 & R2)|[-> M]]; cbn [bind]; [|right; split; [reflexivity|exists o; split; [left; reflexivity|exact M]]].
    destruct IH as [(rows & -> & R)|[-> (o' & Ho' & M)]]; [intros o' Ho'; apply Hin; right; exact Ho'| |]; cbn [bind].
    - left. eexists. split; [reflexivity|]. constructor; [auto|exact R].
    - right. split; [reflexivity|]. exists o'. split; [right; exact Ho'|exact M].
  Qed.
End Conn.
