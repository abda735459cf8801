(** The loop of the constructor that splits the Hilbert space by quantum numbers. *)
From Coq Require Import ZArith NArith List Arith Bool Lia Sorted.
From Verif Require Import Base Indices Scalar Fock FockFacts OpModel OpExpr OpNormal Op_proofs Hilbert Hilbert_proofs
  State StateSpec State_proofs ImpOp ImpOp_proofs ImpOp_run ImpOp_thms Partition Partition_imp Partition_thms
  AtomDiag AtomDiagSpec AtomDiag_lists AtomDiag_terms AtomDiag_mats AtomDiag_complete AtomDiag_auto AtomQn AtomQnSpec AtomQn_run.
Import ListNotations.
Local Open Scope nat_scope.

Lemma filter_none {A} (p : A -> bool) xs : (forall x, In x xs -> p x = false) -> filter p xs = [].
Proof. induction xs as [|x xs IH]; intros H; [reflexivity|]. cbn. rewrite (H x (or_introl eq_refl)). apply IH. intros y Hy. apply H. right. exact Hy. Qed.

Section Split.
  Context (S : scalar_ops) (L : scalar_laws S) (E : energy_ops S).
  Local Open Scope K_scope.
  Variable q_real : S -> E.
  Variable q_complex : S -> bool.
  Variable q_lt : E -> E -> bool.
  Variable l : fops.
  Variable d : Z.
  Hypothesis Hl : (length l <= 17)%nat.
  Hypothesis Hd : hs_dim (length l) = Ok d.
  Notation pos := (mode l).
  Notation size := (Z.to_nat d).
  Notation fock := (fock l).
  Variable qs : list (expr S).
  Variable qns : list (omap S).
  Hypothesis Hqs : Forall2 (fun q op => (forall j, uses q j -> In j l) /\ eval q = Some op) qs qns.
  Hypothesis QL : qn_laws S E q_complex q_lt.
  Hypothesis Hap : qn_apart S E q_real q_lt l qs.
  Notation qnum := (qnum S E q_real l qs).
  Notation equiv := (qn_equiv S E q_lt).
  Notation find := (qn_find S E q_lt).
  Notation at_ := (qn_at S E q_lt).
  Notation qi i := (qnum (N.of_nat i)).

  Lemma equiv_eq f g : fock f -> fock g -> equiv (qnum f) (qnum g) = true <-> qnum f = qnum g.
  Proof.
    intros Hf Hg. unfold AtomQnSpec.qnum, qn_equiv. revert Hap. unfold qn_apart. clear Hqs. intros Ha.
    induction qs as [|q qs' IH]; cbn [map qn_lt]; [split; reflexivity|].
    assert (Ha' : forall q f g, In q qs' -> fock f -> fock g -> q_real (bracket S l q f f) = q_real (bracket S l q g g) \/
        q_lt (q_real (bracket S l q f f)) (q_real (bracket S l q g g)) = true \/ q_lt (q_real (bracket S l q g g)) (q_real (bracket S l q f f)) = true).
    { intros q' f' g' Hq. apply Ha. right. exact Hq. }
    specialize (IH Ha'). pose proof (ql_irrefl S E q_complex q_lt QL) as Hi.
    set (x := q_real (bracket S l q f f)) in *. set (y := q_real (bracket S l q g g)) in *.
    destruct (Ha q f g (or_introl eq_refl) Hf Hg) as [Hxy|[Hxy|Hxy]]; fold x y in Hxy.
    - rewrite <- Hxy, Hi. rewrite IH. split; [intros ->; reflexivity|intros H; injection H; auto].
    - rewrite Hxy. cbn [negb andb]. split; [discriminate|]. intros H. injection H as H _. rewrite <- H, Hi in Hxy. discriminate.
    - destruct (q_lt x y) eqn:Hyx; cbn [negb andb].
      + split; [discriminate|]. intros H. injection H as H _. rewrite <- H, Hi in Hxy. discriminate.
      + rewrite Hxy. cbn [negb]. rewrite andb_false_r. split; [discriminate|]. intros H. injection H as H _. rewrite <- H, Hi in Hxy. discriminate.
  Qed.
  Lemma equiv_bool f g h : fock f -> fock g -> fock h -> qnum g = qnum h -> equiv (qnum f) (qnum g) = equiv (qnum f) (qnum h).
  Proof. intros _ _ _ ->. reflexivity. Qed.

  Definition keys_ok (keys : list (list E)) : Prop := NoDup keys /\ forall k, In k keys -> exists g, fock g /\ qnum g = k.
  Lemma find_spec keys f n : fock f -> keys_ok keys -> find (qnum f) keys = Some n <-> nth_error keys n = Some (qnum f).
  Proof.
    intros Hf [HN Hk]. revert n. induction HN as [|k keys Hx HN IH]; intros n; cbn [qn_find].
    - split; [discriminate|destruct n; discriminate].
    - destruct (Hk k (or_introl eq_refl)) as (g & Hg & <-). assert (IH' := IH (fun k0 H => Hk k0 (or_intror H))).
      destruct (equiv (qnum f) (qnum g)) eqn:Ee.
      + apply (equiv_eq f g Hf Hg) in Ee. destruct n as [|n]; cbn [nth_error]; [rewrite Ee; split; reflexivity|].
        split; [discriminate|]. intros H. exfalso. apply Hx. rewrite <- Ee. eapply nth_error_In; exact H.
      + destruct n as [|n]; cbn [nth_error].
        * split; [destruct (find (qnum f) keys); discriminate|]. intros H. injection H as H. assert (qnum f = qnum g) by congruence.
          apply (equiv_eq f g Hf Hg) in H0. congruence.
        * rewrite <- IH'. destruct (find (qnum f) keys); cbn; split; intros H; try discriminate; injection H as <-; reflexivity.
  Qed.
  Lemma find_none keys f : fock f -> keys_ok keys -> find (qnum f) keys = None <-> ~ In (qnum f) keys.
  Proof.
    intros Hf Hk. split.
    - intros H Hin. apply In_nth_error in Hin. destruct Hin as [n Hn]. apply (find_spec keys f n Hf Hk) in Hn. congruence.
    - intros H. destruct (find (qnum f) keys) as [n|] eqn:E0; [|reflexivity]. apply (find_spec keys f n Hf Hk) in E0. exfalso. apply H. eapply nth_error_In; exact E0.
  Qed.
  Lemma at_spec keys f n : fock f -> keys_ok keys -> nth_error keys n = Some (qnum f) -> at_ (qnum f) keys = n.
  Proof. intros Hf Hk H. unfold qn_at. apply (find_spec keys f n Hf Hk) in H. rewrite H. reflexivity. Qed.

  (** the states of block q among the first r *)
  Definition members (r : nat) (q : list E) : list N := map N.of_nat (filter (fun i => equiv (qi i) q) (seq 0 r)).

  Definition sinv (r : nat) (keys : list (list E)) (subs : list sub_hs) : Prop :=
    length subs = length keys /\ NoDup keys /\ (forall q, In q keys <-> exists i, i < r /\ qi i = q) /\
    (forall i j q q', i < j -> nth_error keys i = Some q -> nth_error keys j = Some q' ->
       exists f, f < r /\ qi f = q /\ forall f', f' < r -> qi f' = q' -> f < f') /\
    (forall k h q, nth_error subs k = Some h -> nth_error keys k = Some q -> h = sub_adds (sub_new (Z.of_nat k)) (members r q)).

  Lemma fock_lt i : i < size -> fock (N.of_nat i).
  Proof. intros H. apply (size_lt l d Hl Hd). exact H. Qed.

  Lemma members_S r q : members (Datatypes.S r) q = members r q ++ (if equiv (qi r) q then [N.of_nat r] else []).
  Proof. unfold members. rewrite seq_S, filter_app, map_app. cbn [filter Nat.add]. destruct (equiv (qi r) q); reflexivity. Qed.
  Lemma adds_one idx fs f : sub_add (sub_adds (sub_new idx) fs) f = sub_adds (sub_new idx) (fs ++ [f]).
  Proof. unfold sub_adds. rewrite fold_left_app. reflexivity. Qed.

  Lemma split_one r keys subs : r < size -> (forall q, In q qs -> q_complex (bracket S l q (N.of_nat r) (N.of_nat r)) = false) ->
    sinv r keys subs -> exists keys' subs', split_step S E q_real q_complex q_lt l qns d (Ok (keys, subs)) r = Ok (keys', subs') /\ sinv (Datatypes.S r) keys' subs'.
  Proof.
    intros Hr Hre (I1 & I2 & I3 & I4 & I5). unfold split_step. cbn [bind fst snd].
    destruct (basis_pure S L l d Hl Hd r Hr) as (st & -> & Hp). cbn [bind]. pose proof (fock_lt r Hr) as Hf.
    rewrite (get_qn_pure S L E q_real q_complex l d Hl Hd qs qns Hqs st (N.of_nat r) k1 Hp Hf); [|rewrite (kconj_1 S L); apply (Rmul_1_l (sl_ring S L))|exact Hre].
    cbn [bind].
    assert (Hk : keys_ok keys). { split; [exact I2|]. intros k Hin. apply I3 in Hin. destruct Hin as (i & Hi & <-). exists (N.of_nat i). split; [apply fock_lt; lia|reflexivity]. }
    destruct (find (qi r) keys) as [n|] eqn:Ef.
    - apply (find_spec keys _ n Hf Hk) in Ef. rewrite (at_spec keys _ n Hf Hk Ef).
      destruct (nth_error_lt subs n) as [h Hh]; [rewrite I1; eapply nth_error_Some_lt; exact Ef|]. rewrite Hh. eexists _, _. split; [reflexivity|].
      split; [rewrite upd_length; exact I1|]. split; [exact I2|]. split; [|split].
      + intros q. rewrite I3. split; intros (i & Hi & Hq); [exists i; split; [lia|exact Hq]|].
        destruct (Nat.eq_dec i r) as [->|]; [|exists i; split; [lia|exact Hq]]. subst q. apply nth_error_In in Ef. apply I3 in Ef. exact Ef.
      + intros i j q q' Hij Hi Hj. destruct (I4 i j q q' Hij Hi Hj) as (f & F1 & F2 & F3). exists f. split; [lia|]. split; [exact F2|].
        intros f' Hf' Hq'. destruct (Nat.eq_dec f' r) as [->|]; [exact F1|apply F3; [lia|exact Hq']].
      + intros k h' q Hh' Hq. rewrite upd_nth in Hh'. rewrite members_S.
        assert (Hqk : exists i, i < r /\ qi i = q) by (apply I3; eapply nth_error_In; exact Hq). destruct Hqk as (i0 & Hi0 & Eq0).
        destruct (Nat.eqb_spec n k) as [<-|Hne].
        * rewrite Hh in Hh'. cbn [option_map] in Hh'. injection Hh' as <-. rewrite Ef in Hq. injection Hq as <-.
          assert (Ee : equiv (qi r) (qi r) = true) by (apply (equiv_eq _ _ Hf Hf); reflexivity). rewrite Ee.
          rewrite (I5 n h _ Hh Ef). apply adds_one.
        * destruct (equiv (qi r) q) eqn:Ee.
          -- exfalso. subst q. apply (equiv_eq _ _ Hf) in Ee; [|apply fock_lt; lia]. apply Hne. rewrite NoDup_nth_error in I2. apply I2; [eapply nth_error_Some_lt; exact Ef|].
             rewrite Hq, <- Ee. exact Ef.
          -- rewrite app_nil_r. exact (I5 k h' q Hh' Hq).
    - apply (find_none keys _ Hf Hk) in Ef.
      assert (Hk' : keys_ok (keys ++ [qi r])).
      { split.
        - apply NoDup_rev in I2. rewrite <- (rev_involutive (keys ++ [qi r])). apply NoDup_rev. rewrite rev_app_distr. cbn. constructor; [rewrite <- in_rev; exact Ef|exact I2].
        - intros k Hin. apply in_app_iff in Hin. destruct Hin as [Hin|[<-|[]]]; [apply Hk, Hin|eauto]. }
      assert (Hn : nth_error (keys ++ [qi r]) (length keys) = Some (qi r)) by (rewrite nth_error_app2 by lia; rewrite Nat.sub_diag; reflexivity).
      rewrite (at_spec _ _ _ Hf Hk' Hn). rewrite <- I1. rewrite nth_error_app2 by lia. rewrite Nat.sub_diag. cbn [nth_error].
      eexists _, _. split; [reflexivity|]. split; [rewrite upd_length, !app_length, I1; reflexivity|]. split; [apply Hk'|]. split; [|split].
      + intros q. rewrite in_app_iff. split.
        * intros [Hin|[<-|[]]]; [apply I3 in Hin; destruct Hin as (i & Hi & Hq); exists i; split; [lia|exact Hq]|exists r; split; [lia|reflexivity]].
        * intros (i & Hi & Hq). destruct (Nat.eq_dec i r) as [->|]; [right; left; exact Hq|]. left. apply I3. exists i. split; [lia|exact Hq].
      + intros i j q q' Hij Hi Hj. pose proof (nth_error_Some_lt _ _ _ Hj) as Hlt. rewrite app_length in Hlt. cbn in Hlt.
        rewrite nth_error_app1 in Hi by lia. destruct (Nat.eq_dec j (length keys)) as [->|Hne].
        * rewrite Hn in Hj. injection Hj as <-. assert (Hin := nth_error_In _ _ Hi). apply I3 in Hin. destruct Hin as (f & F1 & F2).
          exists f. split; [lia|]. split; [exact F2|]. intros f' Hf' Hq'. destruct (Nat.eq_dec f' r) as [->|]; [exact F1|].
          exfalso. apply Ef. apply I3. exists f'. split; [lia|exact Hq'].
        * rewrite nth_error_app1 in Hj by lia. destruct (I4 i j q q' Hij Hi Hj) as (f & F1 & F2 & F3). exists f. split; [lia|]. split; [exact F2|].
          intros f' Hf' Hq'. destruct (Nat.eq_dec f' r) as [->|]; [exact F1|apply F3; [lia|exact Hq']].
      + intros k h q Hh Hq. rewrite upd_nth in Hh. rewrite members_S. destruct (Nat.eqb_spec (length subs) k) as [<-|Hne].
        * rewrite nth_error_app2, Nat.sub_diag in Hh by lia. cbn in Hh. injection Hh as <-. rewrite I1, Hn in Hq. injection Hq as <-.
          assert (Ee : equiv (qi r) (qi r) = true) by (apply (equiv_eq _ _ Hf Hf); reflexivity). rewrite Ee.
          assert (M0 : members r (qi r) = []).
          { unfold members. replace (filter (fun i => equiv (qi i) (qi r)) (seq 0 r)) with (@nil nat); [reflexivity|]. symmetry.
            apply filter_none. intros i Hi. apply in_seq in Hi. destruct (equiv (qi i) (qi r)) eqn:Ei; [|reflexivity]. exfalso.
            apply equiv_eq in Ei; [|apply fock_lt; lia|exact Hf]. apply Ef. apply I3. exists i. split; [lia|exact Ei]. }
          rewrite M0. reflexivity.
        * pose proof (nth_error_Some_lt _ _ _ Hh) as Hlt. rewrite app_length in Hlt. cbn in Hlt.
          rewrite nth_error_app1 in Hh by lia. rewrite nth_error_app1 in Hq by lia.
          assert (Hqk := nth_error_In _ _ Hq). apply I3 in Hqk. destruct Hqk as (i0 & Hi0 & Eq0).
          destruct (equiv (qi r) q) eqn:Ee.
          -- exfalso. subst q. apply (equiv_eq _ _ Hf) in Ee; [|apply fock_lt; lia]. apply Ef. apply I3. exists i0. split; [exact Hi0|]. congruence.
          -- rewrite app_nil_r. exact (I5 k h q Hh Hq).
  Qed.

  Lemma split_throw is : fold_left (split_step S E q_real q_complex q_lt l qns d) is Throw = Throw.
  Proof. induction is as [|i is IH]; [reflexivity|exact IH]. Qed.

  Lemma split_all r : r <= size -> (forall q f, In q qs -> fock f -> q_complex (bracket S l q f f) = false) ->
    exists keys subs, fold_left (split_step S E q_real q_complex q_lt l qns d) (seq 0 r) (Ok ([], [])) = Ok (keys, subs) /\ sinv r keys subs.
  Proof.
    intros Hr Hre. induction r as [|r IH].
    - exists [], []. split; [reflexivity|]. split; [reflexivity|]. split; [constructor|]. split; [|split].
      + intros q. split; [intros []|]. intros (i & Hi & _). lia.
      + intros i j q q' _ Hi. destruct i; discriminate.
      + intros k h q Hh. destruct k; discriminate.
    - destruct IH as (keys & subs & Ef & I); [lia|]. rewrite seq_S, fold_left_app, Ef. cbn [fold_left Nat.add].
      destruct (split_one r keys subs) as (keys' & subs' & E1 & I'); [lia|intros q Hq; apply Hre; [exact Hq|apply fock_lt; lia]|exact I|].
      exists keys', subs'. auto.
  Qed.

  (** a complex quantum number is refused *)
  Lemma split_complex r : r <= size -> (exists q i, In q qs /\ i < r /\ q_complex (bracket S l q (N.of_nat i) (N.of_nat i)) = true) ->
    fold_left (split_step S E q_real q_complex q_lt l qns d) (seq 0 r) (Ok ([], [])) = Throw.
  Proof.
    intros Hr. assert (G : forall r, r <= size ->
      (exists keys subs, fold_left (split_step S E q_real q_complex q_lt l qns d) (seq 0 r) (Ok ([], [])) = Ok (keys, subs) /\ sinv r keys subs /\
         forall q i, In q qs -> i < r -> q_complex (bracket S l q (N.of_nat i) (N.of_nat i)) = false) \/
      fold_left (split_step S E q_real q_complex q_lt l qns d) (seq 0 r) (Ok ([], [])) = Throw).
    { clear r Hr. induction r as [|r IH]; intros Hr.
      - left. exists [], []. split; [reflexivity|]. split; [|intros; lia]. split; [reflexivity|]. split; [constructor|]. split; [|split].
        + intros q. split; [intros []|]. intros (i & Hi & _). lia.
        + intros i j q q' _ Hi. destruct i; discriminate.
        + intros k h q Hh. destruct k; discriminate.
      - rewrite seq_S, fold_left_app. cbn [fold_left Nat.add]. destruct IH as [(keys & subs & Ef & I & Hre)|Ef]; [lia| |right; rewrite Ef; reflexivity].
        rewrite Ef. destruct (existsb (fun q => q_complex (bracket S l q (N.of_nat r) (N.of_nat r))) qs) eqn:Ex.
        + right. unfold split_step. cbn [bind fst snd]. destruct (basis_pure S L l d Hl Hd r) as (st & -> & Hp); [lia|]. cbn [bind].
          rewrite (get_qn_complex S L E q_real q_complex l d Hl Hd qs qns Hqs st (N.of_nat r) k1 Hp); [reflexivity|apply fock_lt; lia|rewrite (kconj_1 S L); apply (Rmul_1_l (sl_ring S L))|].
          apply existsb_exists in Ex. exact Ex.
        + left. assert (Hr' : forall q, In q qs -> q_complex (bracket S l q (N.of_nat r) (N.of_nat r)) = false).
          { intros q Hq. destruct (q_complex (bracket S l q (N.of_nat r) (N.of_nat r))) eqn:Eq; [|reflexivity]. apply not_true_iff_false in Ex. exfalso. apply Ex, existsb_exists. eauto. }
          destruct (split_one r keys subs) as (keys' & subs' & E1 & I'); [lia|exact Hr'|exact I|]. exists keys', subs'. split; [exact E1|]. split; [exact I'|].
          intros q i Hq Hi. destruct (Nat.eq_dec i r) as [->|]; [apply Hr', Hq|apply Hre; [exact Hq|lia]]. }
    intros (q & i & Hq & Hi & Hc). destruct (G r Hr) as [(keys & subs & _ & _ & Hre)|H]; [|exact H]. rewrite (Hre q i Hq Hi) in Hc. discriminate.
  Qed.
End Split.
