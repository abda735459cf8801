(** Consequences for sequences of merges, and the counterexample to one-to-one connections. *)
From Coq Require Import ZArith NArith List Arith Bool Lia Relations.
From Verif Require Import Base Indices Scalar Fock OpModel OpExpr Hilbert State ImpOp ImpOp_run ImpOp_thms ScalarInst
  Partition PartitionSpec Partition_proofs Partition_merge Partition_imp.
Import ListNotations.
Local Open Scope nat_scope.

Section Ext.
  Variable A : Type.
  Variable is_zero : A -> bool.
  Lemma zmerged_ext n (S1 S2 : nat -> nat -> Prop) cd c :
    (forall i j, i < n -> j < n -> (S1 i j <-> S2 i j)) ->
    forall i j, zmerged A is_zero n S1 cd c i j -> zmerged A is_zero n S2 cd c i j.
  Proof.
    intros H i j M. induction M as [x y (b & Hz)|x|x y _ IH|x y z _ IH1 _ IH2].
    - apply rst_step. exists b. induction Hz as [p q Hm|p|p q _ IH|p q r _ IH1 _ IH2].
      + apply rst_step. destruct Hm as [i' j' b' Hi Hj Hs| |]; [|constructor 2; assumption|constructor 3; assumption].
        constructor; auto. apply H; assumption.
      + apply rst_refl. + apply rst_sym; exact IH. + eapply rst_trans; eassumption.
    - apply rst_refl. - apply rst_sym; exact IH. - eapply rst_trans; eassumption.
  Qed.
End Ext.

(** the operators a sequence of merges is called with *)
Definition op_pairs_ok (A : Type) (is_zero : A -> bool) (n : nat) (ops : list (cols A * cols A)) : Prop :=
  forall cd c, In (cd, c) ops -> in_space A n cd /\ in_space A n c /\ conjugate A is_zero n cd c.

Section Seq.
  Variable A : Type.
  Variable is_zero : A -> bool.
  Variable n : nat.

  Lemma merges_indexed choose norm : norm_ok norm -> forall ops s, op_pairs_ok A is_zero n ops -> indexed A n s ->
    exists s', merges A is_zero choose norm s ops = Some s' /\ indexed A n s' /\ matrix_elements s' = matrix_elements s /\
      forall i j, i < n -> j < n -> lookup_basis_state s i = lookup_basis_state s j -> lookup_basis_state s' i = lookup_basis_state s' j.
  Proof.
    intros N. induction ops as [|[cd c] ops IH]; intros s Ho I.
    - exists s. cbn. auto.
    - destruct (Ho cd c) as (H1 & H2 & H3); [left; reflexivity|]. cbn [merges].
      destruct (merge_ok A is_zero choose norm N n s cd c true I H1 H2 H3) as (s1 & m & m' & -> & I1 & M1 & _ & _ & K1).
      destruct (IH s1) as (s2 & -> & I2 & M2 & K2).
      { intros a b Hab. apply Ho. right; exact Hab. } { exact I1. }
      exists s2. split; [reflexivity|]. split; [exact I2|]. split; [congruence|].
      intros i j Hi Hj H. apply K2; auto. apply K1; auto. apply rst_step. exists false. apply rst_step. constructor; auto.
  Qed.

  (** the partition does not depend on the choices made by the union-find library *)
  Lemma merges_determined ch nm ch' nm' : norm_ok nm -> norm_ok nm' -> forall ops s s', op_pairs_ok A is_zero n ops ->
    indexed A n s -> indexed A n s' ->
    (forall i j, i < n -> j < n -> (lookup_basis_state s i = lookup_basis_state s j <-> lookup_basis_state s' i = lookup_basis_state s' j)) ->
    exists t t', merges A is_zero ch nm s ops = Some t /\ merges A is_zero ch' nm' s' ops = Some t' /\
      indexed A n t /\ indexed A n t' /\
      (forall i j, i < n -> j < n -> (lookup_basis_state t i = lookup_basis_state t j <-> lookup_basis_state t' i = lookup_basis_state t' j)).
  Proof.
    intros N N'. induction ops as [|[cd c] ops IH]; intros s s' Ho I I' K.
    - exists s, s'. cbn. auto 6.
    - destruct (Ho cd c) as (H1 & H2 & H3); [left; reflexivity|]. cbn [merges].
      destruct (merge_ok A is_zero ch nm N n s cd c true I H1 H2 H3) as (s1 & m1 & m1' & -> & I1 & _ & _ & _ & K1).
      destruct (merge_ok A is_zero ch' nm' N' n s' cd c true I' H1 H2 H3) as (s2 & m2 & m2' & -> & I2 & _ & _ & _ & K2).
      apply IH; auto.
      { intros a b Hab. apply Ho. right; exact Hab. }
      intros i j Hi Hj. rewrite K1, K2 by assumption. split; apply zmerged_ext; intros a b Ha Hb; cbn beta; rewrite K by assumption; tauto.
  Qed.

  (** ---- find_mappings ---- *)
  Lemma set_insert_in p m q : In q (set_insert p m) <-> In q m \/ q = p.
  Proof.
    unfold set_insert. destruct (existsb (key_eqb p) m) eqn:E.
    - apply existsb_exists in E. destruct E as (r & Hr & e). destruct (key_eqb_spec p r); [|discriminate]. subst r.
      split; [auto|]. intros [H|H]; [exact H|]. subst; exact Hr.
    - rewrite in_app_iff. cbn. split; [intros [H|[H|[]]]; auto|intros [H|H]; auto].
  Qed.
  Lemma set_insert_nodup p m : NoDup m -> NoDup (set_insert p m).
  Proof.
    intros H. unfold set_insert. destruct (existsb (key_eqb p) m) eqn:E; [exact H|].
    apply NoDup_rev in H. rewrite <- (rev_involutive (m ++ _)). apply NoDup_rev. rewrite rev_app_distr. cbn. constructor; [|exact H].
    intros Hin. apply in_rev in Hin. rewrite <- not_true_iff_false in E. apply E. apply existsb_exists. exists p. split; [exact Hin|].
    destruct (key_eqb_spec p p); congruence.
  Qed.
  Lemma find_mappings_spec s op diag a b : indexed A n s -> in_space A n op ->
    (In (a, b) (find_mappings A is_zero s op diag) <->
     exists i f, i < n /\ nonzero A is_zero op i f /\ lookup_basis_state s i = a /\ lookup_basis_state s f = b /\ (diag = true -> a = b)).
  Proof.
    intros I Ho. pose proof I as (Id & _).
    unfold find_mappings. rewrite Id.
    set (inner := fun i (m : list (nat * nat)) (fa : nat * A) => if is_zero (snd fa) then m
                   else let i_s := rep (subspaces s) i in let f_s := rep (subspaces s) (fst fa) in
                        if negb diag || (i_s =? f_s) then set_insert (index_of (rep_index s) i_s, index_of (rep_index s) f_s) m else m).
    change (fold_left _ (seq 0 n) []) with (fold_left (fun m i => fold_left (inner i) (op i) m) (seq 0 n) []).
    set (Q := fun i (fa : nat * A) => is_zero (snd fa) = false /\ lookup_basis_state s i = a /\ lookup_basis_state s (fst fa) = b /\ (diag = true -> a = b)).
    assert (In1 : forall i fa m, i < n -> In fa (op i) -> (In (a, b) (inner i m fa) <-> In (a, b) m \/ Q i fa)).
    { intros i [f x] m Hi Hf. pose proof (Ho i f x Hi Hf) as Hfn. unfold inner, Q. cbn [fst snd]. destruct (is_zero x); [split; [auto|intros [H|[H _]]; [exact H|discriminate]]|].
      cbv zeta. change (index_of (rep_index s) (rep (subspaces s) i)) with (lookup_basis_state s i).
      change (index_of (rep_index s) (rep (subspaces s) f)) with (lookup_basis_state s f).
      pose proof (lookup_same A n s i f I Hi Hfn) as LS. unfold same in LS.
      destruct (Nat.eqb_spec (rep (subspaces s) i) (rep (subspaces s) f)) as [e|e].
      - rewrite orb_true_r, set_insert_in. apply LS in e. split.
        + intros [H|H]; [auto|]. injection H as -> ->. right. repeat split; auto.
        + intros [H|(_ & <- & <- & _)]; auto.
      - rewrite orb_false_r. destruct diag; cbn [negb].
        + split; [auto|]. intros [H|(_ & <- & <- & H)]; [exact H|]. exfalso. apply e, LS. auto.
        + rewrite set_insert_in. split.
          * intros [H|H]; [auto|]. injection H as -> ->. right. repeat split; auto; discriminate.
          * intros [H|(_ & <- & <- & _)]; auto. }
    assert (In2 : forall i es m, i < n -> (forall fa, In fa es -> In fa (op i)) ->
      (In (a, b) (fold_left (inner i) es m) <-> In (a, b) m \/ exists fa, In fa es /\ Q i fa)).
    { intros i es. induction es as [|fa es IH]; intros m Hi Hs; cbn [fold_left].
      - split; [auto|]. intros [H|(fa & [] & _)]; exact H.
      - rewrite IH; [|exact Hi|intros; apply Hs; right; assumption]. rewrite In1; [|exact Hi|apply Hs; left; reflexivity].
        split.
        + intros [[H|H]|(g & H1 & H2)]; [auto|right; exists fa; cbn; auto|right; exists g; cbn; auto].
        + intros [H|(g & [H1|H1] & H2)]; [auto|subst; auto|right; exists g; auto]. }
    assert (In3 : forall is m, (forall i, In i is -> i < n) ->
      (In (a, b) (fold_left (fun m i => fold_left (inner i) (op i) m) is m) <-> In (a, b) m \/ exists i fa, In i is /\ In fa (op i) /\ Q i fa)).
    { induction is as [|i is IH]; intros m Hs; cbn [fold_left].
      - split; [auto|]. intros [H|(j & fa & [] & _)]; exact H.
      - rewrite IH; [|intros; apply Hs; right; assumption]. rewrite In2; [|apply Hs; left; reflexivity|auto].
        split.
        + intros [[H|(fa & H1 & H2)]|(j & fa & H1 & H2)]; [auto|right; exists i, fa; cbn; auto|right; exists j, fa; cbn; tauto].
        + intros [H|(j & fa & [H1|H1] & H2)]; [auto|subst j; left; right; exists fa; auto|right; exists j, fa; auto]. }
    rewrite In3.
    2:{ intros i Hi. apply in_seq in Hi. lia. }
    split.
    - intros [[]|(i & [f x] & Hi & Hf & Hz & H)]. apply in_seq in Hi. cbn [fst snd] in *. exists i, f. split; [lia|]. split; [exists x; auto|exact H].
    - intros (i & f & Hi & (x & Hx & Hz) & H). right. exists i, (f, x). split; [apply in_seq; lia|]. split; [exact Hx|]. split; [exact Hz|exact H].
  Qed.
End Seq.

(** ---- matrix elements stored by the constructor (no hybridization operator) ---- *)
Section Stored.
  Variable A : Type.
  Variable is_zero : A -> bool.
  Lemma mapping_elems ch i es st : snd (fold_left (mapping A is_zero ch true i) es st) = fold_left (put_col A is_zero i) es (snd st).
  Proof.
    revert st. induction es as [|[f a] es IH]; intros [l m]; [reflexivity|]. cbn [fold_left]. rewrite IH.
    change (put_col A is_zero i (snd (l, m)) (f, a)) with (if is_zero a then m else e_put A m (i, f) a).
    unfold mapping. destruct (is_zero a); reflexivity.
  Qed.
  Lemma mapping_nostore ch i es st : snd (fold_left (mapping A is_zero ch false i) es st) = snd st.
  Proof.
    revert st. induction es as [|[f a] es IH]; intros [l m]; [reflexivity|]. cbn [fold_left]. rewrite IH.
    unfold mapping. cbn [fst snd]. destruct (is_zero a); reflexivity.
  Qed.
  Lemma new_elems ch nm n h : matrix_elements (sp_new A is_zero ch nm n h true None) = put_cols A is_zero h (seq 0 n) [].
  Proof.
    unfold sp_new.
    assert (G : forall is st, snd (fold_left (phase1_step A is_zero ch true h None) is st) = put_cols A is_zero h is (snd st)).
    { induction is as [|i is IH]; intros st; [reflexivity|]. unfold put_cols. cbn [fold_left]. rewrite IH. unfold phase1_step, put_cols.
      rewrite mapping_elems. reflexivity. }
    specialize (G (seq 0 n) (singletons n, [])). destruct (fold_left _ _ _) as [l m]. exact G.
  Qed.
  Lemma new_nostore ch nm n h hyb : matrix_elements (sp_new A is_zero ch nm n h false hyb) = [].
  Proof.
    unfold sp_new.
    assert (G : forall is st, snd (fold_left (phase1_step A is_zero ch false h hyb) is st) = snd st).
    { induction is as [|i is IH]; intros st; [reflexivity|]. cbn [fold_left]. rewrite IH. unfold phase1_step.
      destruct hyb as [hy|]; rewrite ?mapping_nostore; reflexivity. }
    specialize (G (seq 0 n) (singletons n, [])). destruct (fold_left _ _ _) as [l m]. exact G.
  Qed.
End Stored.

(** ---- one-to-one connections ---- *)
Section One.
  Variable A : Type.
  Variable is_zero : A -> bool.
  Notation nonzero := (nonzero A is_zero).
  Variable n : nat.
  Variable S0 : nat -> nat -> Prop.
  Variables cd c : cols A.
  Hypothesis Icd : in_space A n cd.
  Hypothesis Ic : in_space A n c.
  Hypothesis Cj : conjugate A is_zero n cd c.
  Notation ZL := (zlinked A is_zero n S0 cd c).
  Notation ZM := (zmerged A is_zero n S0 cd c).

  Lemma images_merge i j f f' : i < n -> j < n -> S0 i j -> nonzero cd i f -> nonzero cd j f' -> ZM f f'.
  Proof.
    intros Hi Hj H H1 H2. apply rst_step. exists true.
    apply rst_trans with (i, false); [apply rst_sym, rst_step, zup; assumption|].
    apply rst_trans with (j, false); [apply rst_step, zsame; assumption|]. apply rst_step, zup; assumption.
  Qed.
  Lemma preimages_merge i j f f' : i < n -> j < n -> S0 i j -> nonzero c i f -> nonzero c j f' -> ZM f f'.
  Proof.
    intros Hi Hj H H1 H2. apply rst_step. exists false.
    apply rst_trans with (i, true); [apply rst_sym, rst_step, zdown; assumption|].
    apply rst_trans with (j, true); [apply rst_step, zsame; assumption|]. apply rst_step, zdown; assumption.
  Qed.

  Hypothesis S0refl : forall i, S0 i i.
  Hypothesis S0sym : forall i j, S0 i j -> S0 j i.
  Hypothesis S0trans : forall i j k, S0 i j -> S0 j k -> S0 i k.
  (** no subspace has both a state cd acts on and a state cd produces *)
  Hypothesis Sep : forall i j f g, i < n -> j < n -> g < n -> S0 i j -> nonzero cd i f -> nonzero cd g j -> False.

  (** an edge leaves the subspace of this node on this side *)
  Definition live (p : nat * bool) : Prop :=
    fst p < n /\ exists i f, i < n /\ f < n /\ nonzero cd i f /\ S0 (fst p) (if snd p then f else i).
  Lemma live_move p q : zmove A is_zero n S0 cd c p q -> (live p <-> live q).
  Proof.
    intros [i j b Hi Hj Hs|i f Hi Hn|i f Hi Hn]; unfold live; cbn [fst snd].
    - split; intros [_ (a & g & Ha & Hg & Hn & Hc)]; (split; [assumption|]); exists a, g; (split; [exact Ha|]); (split; [exact Hg|]); (split; [exact Hn|]).
      + eapply S0trans; [apply S0sym, Hs|exact Hc].
      + eapply S0trans; eassumption.
    - assert (Hf : f < n) by (destruct Hn as (x & Hx & _); eapply Icd; eassumption).
      split; intros _; (split; [assumption|]); exists i, f; auto.
    - assert (Hf : f < n) by (destruct Hn as (x & Hx & _); eapply Ic; eassumption).
      assert (Hn' : nonzero cd f i) by (apply Cj; assumption).
      split; intros _; (split; [assumption|]); exists f, i; auto.
  Qed.
  Lemma live_linked p q : ZL p q -> (live p <-> live q).
  Proof. induction 1 as [p q H|p|p q _ IH|p q r _ IH1 _ IH2]; [apply live_move, H|tauto|tauto|tauto]. Qed.
  Lemma not_both x : live (x, false) -> live (x, true) -> False.
  Proof.
    intros [Hx (i & f & Hi & Hf & H1 & H2)] [_ (j & g & Hj & Hg & H3 & H4)]. cbn [fst snd] in *.
    apply (Sep i g f j); auto. eapply S0trans; [apply S0sym, H2|exact H4].
  Qed.
  Lemma not_both' x b : live (x, b) -> ~ live (x, negb b).
  Proof. intros H H'. destruct b; cbn in H'; eapply not_both; eassumption. Qed.
  Lemma dead_linked p q : ZL p q -> ~ live p ->
    p = q \/ (fst p < n /\ fst q < n /\ snd p = snd q /\ S0 (fst p) (fst q)).
  Proof.
    induction 1 as [p q H|p|p q H IH|p q r H1 IH1 H2 IH2]; intros D.
    - pose proof (live_move p q H) as Lm. destruct H as [i j b Hi Hj Hs|i f Hi Hn|i f Hi Hn].
      + right. cbn. auto.
      + exfalso. apply D. assert (Hf : f < n) by (destruct Hn as (x & Hx & _); eapply Icd; eassumption).
        split; [exact Hi|]. exists i, f. cbn. auto.
      + exfalso. apply D. assert (Hf : f < n) by (destruct Hn as (x & Hx & _); eapply Ic; eassumption).
        split; [exact Hi|]. exists f, i. cbn. split; [exact Hf|]. split; [exact Hi|]. split; [apply Cj; assumption|apply S0refl].
    - left; reflexivity.
    - destruct IH as [->|(Q1 & Q2 & Q3 & Q4)].
      + intros Lp. apply D. apply (live_linked p q H), Lp.
      + left; reflexivity.
      + right. auto.
    - destruct (IH1 D) as [->|(Q1 & Q2 & Q3 & Q4)]; [apply IH2, D|].
      destruct IH2 as [<-|(P1 & P2 & P3 & P4)].
      + intros Lq. apply D. apply (live_linked p q H1), Lq.
      + right. auto.
      + right. split; [exact Q1|]. split; [exact P2|]. split; [congruence|]. eapply S0trans; eassumption.
  Qed.
  Lemma merged_side b x y : ZM x y -> live (x, b) \/ live (y, b) -> ZL (x, b) (y, b).
  Proof.
    assert (St : forall x y b', ZL (x, b') (y, b') -> live (x, b) -> ZL (x, b) (y, b)).
    { intros u v b' H Lu. destruct (bool_dec b' b) as [->|Hb]; [exact H|].
      assert (b' = negb b) by (destruct b', b; cbn; congruence). subst b'.
      destruct (dead_linked _ _ H (not_both' u b Lu)) as [E|(Q1 & Q2 & _ & Q4)].
      - injection E as ->. apply rst_refl.
      - apply rst_step. constructor; assumption. }
    induction 1 as [x y (b' & H)|x|x y H IH|x y z H1 IH1 H2 IH2]; intros Lv.
    - destruct Lv as [Lv|Lv]; [eapply St; eassumption|]. apply rst_sym. eapply St; [apply rst_sym, H|exact Lv].
    - apply rst_refl.
    - apply rst_sym, IH. tauto.
    - destruct Lv as [Lv|Lv].
      + pose proof (IH1 (or_introl Lv)) as Z1. eapply rst_trans; [exact Z1|]. apply IH2. left. apply (live_linked _ _ Z1), Lv.
      + pose proof (IH2 (or_intror Lv)) as Z2. eapply rst_trans; [|exact Z2]. apply IH1. right. apply (live_linked _ _ Z2), Lv.
  Qed.
  Lemma one_to_one_cd i j f f' : i < n -> j < n -> ZM i j -> nonzero cd i f -> nonzero cd j f' -> ZM f f'.
  Proof.
    intros Hi Hj H H1 H2. assert (Hf : f < n) by (destruct H1 as (x & Hx & _); exact (Icd i f x Hi Hx)).
    apply rst_step. exists true.
    apply rst_trans with (i, false); [apply rst_sym, rst_step, zup; assumption|].
    apply rst_trans with (j, false); [|apply rst_step, zup; assumption].
    apply merged_side; [exact H|]. left. split; [exact Hi|]. exists i, f. cbn. auto.
  Qed.
  Lemma one_to_one_c i j f f' : i < n -> j < n -> ZM i j -> nonzero c i f -> nonzero c j f' -> ZM f f'.
  Proof.
    intros Hi Hj H H1 H2. assert (Hf : f < n) by (destruct H1 as (x & Hx & _); exact (Ic i f x Hi Hx)).
    apply rst_step. exists false.
    apply rst_trans with (i, true); [apply rst_sym, rst_step, zdown; assumption|].
    apply rst_trans with (j, true); [|apply rst_step, zdown; assumption].
    apply merged_side; [exact H|]. left. split; [exact Hi|]. exists f, i. cbn. split; [exact Hf|]. split; [exact Hi|].
    split; [apply Cj; assumption|apply S0refl].
  Qed.
End One.

(** ---- the counterexample ---- *)
(** c+_0 c_1 (1 - n_2)(1 - n_3) + c+_0 c+_3 c_2 c_1 + hermitian conjugate : particle number conserving *)
Definition hop4 : expr ZS :=
  EAdd (EMul (EMul (ECdag (orb 0)) (EC (orb 1))) (EMul (ESSub (1%Z : ZS) (EN (orb 2))) (ESSub (1%Z : ZS) (EN (orb 3)))))
       (EMul (EMul (ECdag (orb 0)) (ECdag (orb 3))) (EMul (EC (orb 2)) (EC (orb 1)))).
Definition ham4 : expr ZS := EAdd hop4 (EDag hop4).
Definition orbs4 : fops := map orb (seq 0 4).
Definition ham4_op : omap ZS := match eval ham4 with Some op => op | None => [] end.

(** worker.cpp:59-74 *)
Definition auto_ops (S : scalar_ops) (l : fops) (d : Z) : list (cols S * cols S) :=
  map (fun o => (imp_cols S l (op_c_dag S o) d, imp_cols S l (op_c S o) d)) l.
Definition auto_partition (S : scalar_ops) ch nm (l : fops) (op : omap S) (d : Z) : option (sp S) :=
  merges S kisz ch nm (sp_new S kisz ch nm (Z.to_nat d) (imp_cols S l op d) false None) (auto_ops S l d).

Lemma auto_ops_ok (S : scalar_ops) (L : scalar_laws S) l d : length l <= 17 -> hs_dim (length l) = Ok d ->
  op_pairs_ok S kisz (Z.to_nat d) (auto_ops S l d).
Proof.
  intros Hl Hd cd c H. unfold auto_ops in H. apply in_map_iff in H. destruct H as (o & E & Ho). injection E as <- <-.
  split; [|split].
  - apply (cols_spec S L l d Hl Hd (ECdag o)); [cbn; intros; subst; exact Ho|reflexivity].
  - apply (cols_spec S L l d Hl Hd (EC o)); [cbn; intros; subst; exact Ho|reflexivity].
  - apply cdag_c_conjugate; assumption.
Qed.

Lemma norm_id_ok : norm_ok (fun l => l).
Proof. intros l V. split; [reflexivity|]. split; [exact V|]. tauto. Qed.

Lemma ham4_uses j : uses ham4 j -> In j orbs4.
Proof.
  assert (H : forall k, (k = 0 \/ k = 1 \/ k = 2 \/ k = 3) -> In (orb k) orbs4) by (intros k [->|[->|[->| ->]]]; vm_compute; auto).
  intros Hu. unfold ham4, hop4 in Hu. cbn [uses] in Hu. intuition (subst; apply H; auto).
Qed.
Lemma ham4_eval : eval ham4 = Some ham4_op.
Proof. vm_compute. reflexivity. Qed.

Lemma auto4_computed : match auto_partition ZS (fun _ _ _ => true) (fun l => l) orbs4 ham4_op 16 with
  | Some s => map (lookup_basis_state s) (seq 0 16)
  | None => [] end = [0; 1; 1; 2; 3; 4; 4; 5; 6; 4; 4; 7; 8; 9; 9; 10].
Proof. vm_compute. reflexivity. Qed.
