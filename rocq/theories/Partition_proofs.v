(** Proofs about the partition model: union-find labellings, Phase I, numbering, elements. *)
From Coq Require Import List Arith Bool Lia Relations.
From Verif Require Import Base Partition PartitionSpec.
Import ListNotations.

Definition same (l : labels) (u v : nat) : Prop := rep l u = rep l v.

Lemma rep_map f l x : x < length l -> rep (map f l) x = f (rep l x).
Proof.
  unfold rep. intros H. rewrite (nth_indep (map f l) x (f x)) by (rewrite map_length; exact H). apply map_nth.
Qed.
Lemma relabel_length a b l : length (relabel a b l) = length l.
Proof. apply map_length. Qed.

Section Link.
  Variable choose : labels -> nat -> nat -> bool.
  Notation link := (link choose).

  Lemma link_length l x y : length (link l x y) = length l.
  Proof.
    unfold Partition.link. destruct (_ =? _); [reflexivity|]. destruct (choose _ _ _); apply relabel_length.
  Qed.

  Lemma relabel_same a b l u v :
    u < length l -> v < length l -> a <> b -> rep l a = a -> rep l b = b ->
    (same (relabel a b l) u v <->
     same l u v \/ (rep l u = a /\ rep l v = b) \/ (rep l u = b /\ rep l v = a)).
  Proof.
    intros Hu Hv Hab Ha Hb. unfold same, relabel. rewrite !rep_map by assumption.
    destruct (Nat.eqb_spec (rep l u) a), (Nat.eqb_spec (rep l v) a); lia.
  Qed.

  Lemma relabel_valid a b l : valid l -> a <> b -> b < length l -> rep l b = b -> valid (relabel a b l).
  Proof.
    intros V Hab Hb Rb x Hx. rewrite relabel_length in *. destruct (V x Hx) as [H1 H2].
    unfold relabel. rewrite !rep_map; try assumption.
    - destruct (Nat.eqb_spec (rep l x) a) as [e|e].
      + split; [assumption|]. rewrite Rb. destruct (Nat.eqb_spec b a); lia.
      + split; [assumption|]. rewrite H2. destruct (Nat.eqb_spec (rep l x) a); lia.
    - destruct (Nat.eqb_spec (rep l x) a); assumption.
  Qed.

  Lemma link_spec l x y :
    valid l -> x < length l -> y < length l ->
    valid (link l x y) /\
    forall u v, u < length l -> v < length l ->
      (same (link l x y) u v <-> same l u v \/ (same l u x /\ same l v y) \/ (same l u y /\ same l v x)).
  Proof.
    intros V Hx Hy. destruct (V x Hx) as [Bx Rx], (V y Hy) as [By Ry].
    unfold Partition.link. destruct (Nat.eqb_spec (rep l x) (rep l y)) as [e|e].
    - split; [assumption|]. unfold same. intros u v _ _. split; [auto|]. intros [H|[[H1 H2]|[H1 H2]]]; congruence.
    - destruct (choose l (rep l x) (rep l y)).
      + split; [apply relabel_valid; auto|]. intros u v Hu Hv. rewrite relabel_same by auto. unfold same. tauto.
      + split; [apply relabel_valid; auto|]. intros u v Hu Hv. rewrite relabel_same by auto. unfold same. tauto.
  Qed.

  (** labellings of n elements whose sets stay inside an equivalence R *)
  Section Good.
    Variable n : nat.
    Variable R : nat -> nat -> Prop.
    Hypothesis Rrefl : forall x, R x x.
    Hypothesis Rsym : forall x y, R x y -> R y x.
    Hypothesis Rtrans : forall x y z, R x y -> R y z -> R x z.
    Definition good (l : labels) : Prop :=
      length l = n /\ valid l /\ forall u v, u < n -> v < n -> same l u v -> R u v.
    Definition le (l l' : labels) : Prop := forall u v, u < n -> v < n -> same l u v -> same l' u v.

    Lemma le_refl l : le l l. Proof. intros u v _ _ H; exact H. Qed.
    Lemma le_trans a b c : le a b -> le b c -> le a c.
    Proof. intros H1 H2 u v Hu Hv H. apply H2; auto. Qed.

    Lemma link_good l x y : good l -> x < n -> y < n -> R x y ->
      good (link l x y) /\ le l (link l x y) /\ same (link l x y) x y.
    Proof.
      intros (L & V & S) Hx Hy HR. rewrite <- L in Hx, Hy.
      destruct (link_spec l x y V Hx Hy) as [V' K].
      split; [|split].
      - split; [rewrite link_length; exact L|]. split; [exact V'|].
        intros u v Hu Hv. rewrite <- L in Hu, Hv. rewrite K by assumption.
        rewrite L in *.
        intros [H|[[H1 H2]|[H1 H2]]].
        + apply S; auto.
        + apply Rtrans with x; [apply S; auto|]. apply Rtrans with y; [exact HR|]. apply Rsym, S; auto.
        + apply Rtrans with y; [apply S; auto|]. apply Rtrans with x; [apply Rsym, HR|]. apply Rsym, S; auto.
      - intros u v Hu Hv H. rewrite <- L in Hu, Hv. apply K; auto.
      - apply K; try assumption. right; left; split; reflexivity.
    Qed.

    Lemma rep_bound l x : good l -> x < n -> rep l x < n /\ same l x (rep l x).
    Proof. intros (L & V & _) Hx. rewrite <- L in *. destruct (V x Hx) as [B E]. split; [exact B|]. symmetry; exact E. Qed.
  End Good.

  (** ---- Phase I ---- *)
  Section PhaseI.
    Variable A : Type.
    Variable is_zero : A -> bool.
    Notation mapping := (mapping A is_zero choose).
    Notation nonzero := (nonzero A is_zero).
    Variable n : nat.
    Variable R : nat -> nat -> Prop.
    Hypothesis Rrefl : forall x, R x x.
    Hypothesis Rsym : forall x y, R x y -> R y x.
    Hypothesis Rtrans : forall x y z, R x y -> R y z -> R x z.
    Notation good := (good n R).
    Notation le := (le n).

    Lemma mapping_good store i st f a :
      good (fst st) -> i < n -> f < n -> (is_zero a = false -> R i f) ->
      let st' := mapping store i st (f, a) in
      good (fst st') /\ le (fst st) (fst st') /\ (is_zero a = false -> same (fst st') i f).
    Proof.
      intros G Hi Hf HR. destruct st as [l m]. cbn [fst] in G. unfold Partition.mapping.
      destruct (is_zero a).
      { cbn [fst]. split; [exact G|]. split; [apply le_refl|discriminate]. }
      cbn [fst]. specialize (HR eq_refl).
      destruct (rep_bound n R l i G Hi) as [Bi Si], (rep_bound n R l f G Hf) as [Bf Sf].
      destruct (Nat.eqb_spec (rep l i) (rep l f)) as [e|e]; cbn [negb].
      { split; [exact G|]. split; [apply le_refl|]. intros _. exact e. }
      destruct (link_good n R Rsym Rtrans l (rep l i) (rep l f) G Bi Bf) as (G' & L' & S').
      { destruct G as (_ & _ & S). apply Rtrans with i; [apply Rsym, S; auto|]. apply Rtrans with f; [exact HR|apply S; auto]. }
      split; [exact G'|]. split; [exact L'|]. intros _.
      specialize (L' i (rep l i) Hi Bi Si) as L1. specialize (L' f (rep l f) Hf Bf Sf) as L2.
      unfold same in *. congruence.
    Qed.

    Lemma mappings_good store i : forall es st,
      good (fst st) -> i < n -> (forall f a, In (f, a) es -> f < n /\ (is_zero a = false -> R i f)) ->
      let st' := fold_left (mapping store i) es st in
      good (fst st') /\ le (fst st) (fst st') /\ (forall f a, In (f, a) es -> is_zero a = false -> same (fst st') i f).
    Proof.
      induction es as [|[f a] es IH]; intros st G Hi HE.
      - cbn. split; [exact G|]. split; [apply le_refl|]. intros ? ? [].
      - cbn [fold_left]. destruct (HE f a (or_introl eq_refl)) as [Hf HR].
        destruct (mapping_good store i st f a G Hi Hf HR) as (G1 & L1 & S1).
        destruct (IH (mapping store i st (f, a)) G1 Hi) as (G2 & L2 & S2).
        { intros f' a' H. apply HE. right; exact H. }
        split; [exact G2|]. split; [eapply le_trans; eassumption|].
        intros f' a' [E|H] Hz.
        + injection E; intros; subst f' a'. apply L2; auto.
        + eapply S2; eassumption.
    Qed.

    Variable h : cols A.
    Variable hyb : option (cols A).
    Hypothesis Hin : in_space A n h.
    Hypothesis Hyin : match hyb with Some hy => in_space A n hy | None => True end.
    Hypothesis HR : forall i f, h_step A is_zero n h hyb i f -> R i f.

    Lemma step_good store st i : good (fst st) -> i < n ->
      let st' := phase1_step A is_zero choose store h hyb st i in
      good (fst st') /\ le (fst st) (fst st') /\ (forall f, h_step A is_zero n h hyb i f -> same (fst st') i f).
    Proof.
      intros G Hi. unfold phase1_step.
      destruct (mappings_good store i (h i) st G Hi) as (G1 & L1 & S1).
      { intros f a HI. split; [eapply Hin; eassumption|]. intros Hz. apply HR. split; [exact Hi|]. left. exists a; auto. }
      destruct hyb as [hy|]; cbn zeta.
      - destruct (mappings_good store i (hy i) (fold_left (mapping store i) (h i) st) G1 Hi) as (G2 & L2 & S2).
        { intros f a HI. split; [eapply Hyin; eassumption|]. intros Hz. apply HR. split; [exact Hi|]. right. exists a; auto. }
        split; [exact G2|]. split; [eapply le_trans; eassumption|].
        intros f [_ [(a & Ha & Hz)|(a & Ha & Hz)]].
        + apply L2; auto. { eapply Hin; eassumption. } eapply S1; eassumption.
        + eapply S2; eassumption.
      - split; [exact G1|]. split; [exact L1|]. intros f [_ [(a & Ha & Hz)|[]]]. eapply S1; eassumption.
    Qed.

    Lemma h_step_bound i f : h_step A is_zero n h hyb i f -> i < n /\ f < n.
    Proof.
      clear HR. intros [Hi [(a & Ha & _)|H]]; (split; [exact Hi|]); [eapply Hin; eassumption|].
      destruct hyb as [hy|]; [|destruct H]. destruct H as (a & Ha & _). eapply Hyin; eassumption.
    Qed.

    Lemma phase_good store : forall is st,
      good (fst st) -> (forall i, In i is -> i < n) ->
      let st' := fold_left (phase1_step A is_zero choose store h hyb) is st in
      good (fst st') /\ le (fst st) (fst st') /\
      (forall i f, In i is -> h_step A is_zero n h hyb i f -> same (fst st') i f).
    Proof.
      induction is as [|i is IH]; intros st G Hb.
      - cbn. split; [exact G|]. split; [apply le_refl|]. intros ? ? [].
      - cbn [fold_left]. destruct (step_good store st i G (Hb i (or_introl eq_refl))) as (G1 & L1 & S1).
        destruct (IH (phase1_step A is_zero choose store h hyb st i) G1) as (G2 & L2 & S2).
        { intros j Hj. apply Hb. right; exact Hj. }
        split; [exact G2|]. split; [eapply le_trans; eassumption|].
        intros j f [E|Hj] Hs.
        + subst j. destruct (h_step_bound i f Hs). apply L2; auto.
        + apply S2; auto.
    Qed.
  End PhaseI.
End Link.

Lemma singletons_rep n x : x < n -> rep (singletons n) x = x.
Proof. intros H. unfold rep, singletons. rewrite seq_nth by exact H. reflexivity. Qed.
Lemma singletons_length n : length (singletons n) = n.
Proof. apply seq_length. Qed.
Lemma singletons_good n (R : nat -> nat -> Prop) : (forall x, R x x) -> good n R (singletons n).
Proof.
  intros Hr. split; [apply singletons_length|]. split.
  - intros x Hx. rewrite singletons_length in *. rewrite (singletons_rep n x Hx), (singletons_rep n x Hx). auto.
  - intros u v Hu Hv H. unfold same in H. rewrite !singletons_rep in H by assumption. subst; apply Hr.
Qed.

(** ---- numbering ---- *)
Section Index.
  Variable l : labels.
  Definition keys (m : nat) : list nat := fold_left (index_step l) (seq 0 m) [].
  Lemma keys_S m : keys (S m) = index_step l (keys m) m.
  Proof. unfold keys. rewrite seq_S, fold_left_app. reflexivity. Qed.
  Lemma existsb_rep r ks : existsb (Nat.eqb r) ks = true <-> In r ks.
  Proof.
    rewrite existsb_exists. split.
    - intros (k & Hk & e). apply Nat.eqb_eq in e. subst; exact Hk.
    - intros H. exists r. split; [exact H|apply Nat.eqb_refl].
  Qed.

  Lemma keys_in m r : In r (keys m) <-> exists x, x < m /\ rep l x = r.
  Proof.
    induction m.
    - split; [intros []|]. intros (x & H & _). lia.
    - rewrite keys_S. unfold index_step.
      destruct (existsb (Nat.eqb (rep l m)) (keys m)) eqn:E.
      + apply existsb_rep in E. rewrite IHm. split.
        * intros (x & Hx & e). exists x. split; [lia|exact e].
        * intros (x & Hx & e). destruct (Nat.eq_dec x m) as [->|Hne].
          { subst r. apply IHm. exact E. }
          { exists x. split; [lia|exact e]. }
      + rewrite in_app_iff, IHm. split.
        * intros [(x & Hx & e)|[e|[]]]; [exists x|exists m]; (split; [lia|exact e]).
        * intros (x & Hx & e). destruct (Nat.eq_dec x m) as [->|Hne].
          { right; left; exact e. }
          { left. exists x. split; [lia|exact e]. }
  Qed.

  Lemma keys_nodup m : NoDup (keys m).
  Proof.
    induction m; [constructor|]. rewrite keys_S. unfold index_step.
    destruct (existsb (Nat.eqb (rep l m)) (keys m)) eqn:E; [exact IHm|].
    apply NoDup_rev in IHm. rewrite <- (rev_involutive (keys m ++ _)). apply NoDup_rev.
    rewrite rev_app_distr. cbn. constructor; [|exact IHm].
    intros H. apply in_rev in H. apply existsb_rep in H. congruence.
  Qed.

  Lemma keys_order m p q kp kq : nth_error (keys m) p = Some kp -> nth_error (keys m) q = Some kq -> p < q ->
    exists i, i < m /\ rep l i = kp /\ forall j, j < m -> rep l j = kq -> i < j.
  Proof.
    induction m.
    - destruct p; discriminate.
    - rewrite keys_S. unfold index_step. destruct (existsb (Nat.eqb (rep l m)) (keys m)) eqn:E.
      + intros Hp Hq Hpq. destruct (IHm Hp Hq Hpq) as (i & Hi & e & Ho).
        exists i. split; [lia|]. split; [exact e|]. intros j Hj Hk.
        destruct (Nat.eq_dec j m) as [->|]; [lia|]. apply Ho; [lia|exact Hk].
      + intros Hp Hq Hpq.
        assert (Hq' : q < length (keys m ++ [rep l m])) by (apply nth_error_Some; congruence).
        rewrite app_length in Hq'. cbn in Hq'.
        rewrite nth_error_app1 in Hp by lia.
        destruct (Nat.eq_dec q (length (keys m))) as [->|Hne].
        * rewrite nth_error_app2, Nat.sub_diag in Hq by lia. injection Hq as <-.
          apply nth_error_In, keys_in in Hp. destruct Hp as (i & Hi & e).
          exists i. split; [lia|]. split; [exact e|].
          intros j Hj Hk. destruct (Nat.eq_dec j m) as [->|]; [exact Hi|].
          exfalso. assert (In (rep l m) (keys m)) by (apply keys_in; exists j; split; [lia|exact Hk]).
          apply existsb_rep in H. congruence.
        * rewrite nth_error_app1 in Hq by lia. destruct (IHm Hp Hq Hpq) as (i & Hi & e & Ho).
          exists i. split; [lia|]. split; [exact e|]. intros j Hj Hk.
          destruct (Nat.eq_dec j m) as [->|]; [lia|]. apply Ho; [lia|exact Hk].
  Qed.
End Index.

Lemma pos_of_some ks r p : pos_of ks r = Some p -> nth_error ks p = Some r.
Proof.
  revert p. induction ks as [|k ks IH]; intros p; cbn; [discriminate|].
  destruct (Nat.eqb_spec k r).
  - intros H. injection H as <-. cbn. congruence.
  - destruct (pos_of ks r) eqn:E; [|discriminate]. intros H. injection H as <-. cbn. apply IH; reflexivity.
Qed.
Lemma pos_of_in ks r : In r ks -> exists p, pos_of ks r = Some p.
Proof.
  induction ks as [|k ks IH]; [intros []|]. cbn. intros H. destruct (Nat.eqb_spec k r); [eexists; reflexivity|].
  destruct H as [H|H]; [congruence|]. destruct (IH H) as [p ->]. eexists; reflexivity.
Qed.
Lemma index_of_in ks r : In r ks -> nth_error ks (index_of ks r) = Some r.
Proof. intros H. unfold index_of. destruct (pos_of_in ks r H) as [p e]. rewrite e. apply pos_of_some; exact e. Qed.

(** what the constructor and merge_subspaces guarantee of their result *)
Section Done.
  Variable A : Type.
  Definition indexed (n : nat) (s : sp A) : Prop :=
    sp_dim s = n /\ length (subspaces s) = n /\ valid (subspaces s) /\ rep_index s = keys (subspaces s) n.

  Lemma lookup_nth n s x : indexed n s -> x < n ->
    nth_error (rep_index s) (lookup_basis_state s x) = Some (rep (subspaces s) x).
  Proof.
    intros (_ & _ & _ & E) Hx. unfold lookup_basis_state. apply index_of_in. rewrite E. apply keys_in. exists x; auto.
  Qed.
  Lemma lookup_same n s x y : indexed n s -> x < n -> y < n ->
    (lookup_basis_state s x = lookup_basis_state s y <-> same (subspaces s) x y).
  Proof.
    intros I Hx Hy. pose proof (lookup_nth n s x I Hx) as Ex. pose proof (lookup_nth n s y I Hy) as Ey.
    split; intros H.
    - rewrite H in Ex. unfold same. congruence.
    - unfold lookup_basis_state, same in *. rewrite H. reflexivity.
  Qed.
  Lemma lookup_lt n s x : indexed n s -> x < n -> lookup_basis_state s x < n_subspaces s.
  Proof. intros I Hx. apply nth_error_Some. rewrite (lookup_nth n s x I Hx). discriminate. Qed.
  Lemma lookup_onto n s k : indexed n s -> k < n_subspaces s -> exists x, x < n /\ lookup_basis_state s x = k.
  Proof.
    intros I Hk. unfold n_subspaces in Hk. destruct (nth_error (rep_index s) k) as [r|] eqn:E.
    2:{ apply nth_error_None in E. lia. }
    pose proof I as (_ & _ & _ & EK).
    assert (HI : In r (keys (subspaces s) n)) by (rewrite <- EK; eapply nth_error_In; exact E).
    apply keys_in in HI. destruct HI as (x & Hx & e). exists x. split; [exact Hx|].
    pose proof (lookup_nth n s x I Hx) as Ex. rewrite e in Ex.
    pose proof (keys_nodup (subspaces s) n) as ND. rewrite <- EK in ND.
    eapply (proj1 (NoDup_nth_error (rep_index s)) ND).
    - apply lookup_lt with n; assumption.
    - congruence.
  Qed.
  Lemma lookup_order n s k k' : indexed n s -> k < k' -> k' < n_subspaces s ->
    exists i, i < n /\ lookup_basis_state s i = k /\ forall j, j < n -> lookup_basis_state s j = k' -> i < j.
  Proof.
    intros I Hkk Hk'. destruct (lookup_onto n s k I) as (x & Hx & ex); [lia|].
    destruct (lookup_onto n s k' I Hk') as (y & Hy & ey).
    pose proof (lookup_nth n s x I Hx) as Ex. pose proof (lookup_nth n s y I Hy) as Ey. rewrite ex in Ex. rewrite ey in Ey.
    pose proof I as (_ & _ & _ & EK). rewrite EK in Ex, Ey.
    destruct (keys_order (subspaces s) n k k' _ _ Ex Ey Hkk) as (i & Hi & e & Ho).
    exists i. split; [exact Hi|]. split.
    - rewrite <- ex. apply (lookup_same n s i x I Hi Hx). exact e.
    - intros j Hj Hl. apply Ho; [exact Hj|]. apply (lookup_same n s j y I Hj Hy). congruence.
  Qed.

  Variable norm : labels -> labels.
  Hypothesis N : norm_ok norm.
  Lemma update_indexed n l m ks : length l = n -> valid l ->
    indexed n (update_index A norm (mkSp n l m ks)) /\
    forall x y, x < n -> y < n -> (same (subspaces (update_index A norm (mkSp n l m ks))) x y <-> same l x y).
  Proof.
    intros L V. destruct (N l V) as (L' & V' & K). cbn. split.
    - split; [reflexivity|]. split; [cbn; rewrite L'; exact L|]. split; [exact V'|reflexivity].
    - intros x y Hx Hy. rewrite <- L in Hx, Hy. apply K; assumption.
  Qed.
End Done.

(** ---- C20 ---- *)
Section C20.
  Variable A : Type.
  Variable is_zero : A -> bool.
  Variable choose : labels -> nat -> nat -> bool.
  Variable norm : labels -> labels.
  Hypothesis N : norm_ok norm.
  Variable n : nat.
  Variable h : cols A.
  Variable hyb : option (cols A).
  Variable store : bool.
  Hypothesis Hin : in_space A n h.
  Hypothesis Hyin : match hyb with Some hy => in_space A n hy | None => True end.

  Notation conn := (connected A is_zero n h hyb).
  Lemma new_indexed : let s := sp_new A is_zero choose norm n h store hyb in
    indexed A n s /\ forall x y, x < n -> y < n -> (same (subspaces s) x y <-> conn x y).
  Proof.
    unfold sp_new.
    destruct (phase_good choose A is_zero n conn) with (h := h) (hyb := hyb) (store := store) (is := seq 0 n)
      (st := (singletons n, @nil ((nat * nat) * A))) as (G & L & S); try assumption.
    { intros; apply rst_sym; assumption. } { intros; eapply rst_trans; eassumption. }
    { intros; apply rst_step; assumption. }
    { apply singletons_good. intros; apply rst_refl. }
    { intros i Hi. apply in_seq in Hi. lia. }
    destruct (fold_left _ _ _) as [l m]. cbn [fst] in *.
    destruct G as (Ll & V & Sd). destruct (update_indexed A norm N n l m [] Ll V) as [I K].
    split; [exact I|]. intros x y Hx Hy. rewrite K by assumption. split; [apply Sd; assumption|].
    intros C. cut ((x < n -> same l x y) /\ (y < n <-> x < n)); [tauto|]. clear Hx Hy.
    induction C as [x y H|x|x y _ [IH1 IH2]|x y z _ [IH1 IH2] _ [IH3 IH4]].
    - destruct (h_step_bound A is_zero n h hyb Hin Hyin x y H) as [Hx Hy]. split; [|tauto].
      intros _. apply S; [apply in_seq; lia|exact H].
    - split; [intros _; reflexivity|tauto].
    - split; [|tauto]. intros Hy. symmetry. apply IH1. tauto.
    - split; [|tauto]. intros Hx. unfold same in *. rewrite IH1 by assumption. apply IH3. tauto.
  Qed.
End C20.

(** ---- the maps of matrix elements ---- *)
Section Elems.
  Variable A : Type.
  Variable is_zero : A -> bool.
  Notation nonzero := (nonzero A is_zero).
  Lemma key_eqb_spec p q : reflect (p = q) (key_eqb p q).
  Proof.
    destruct p as [a b], q as [c d]. unfold key_eqb. cbn.
    destruct (Nat.eqb_spec a c), (Nat.eqb_spec b d); cbn; constructor; congruence.
  Qed.
  Lemma e_get_put (m : elems A) k a k' : e_get (e_put A m k a) k' = if key_eqb k k' then Some a else e_get m k'.
  Proof.
    induction m as [|[q b] m IH]; cbn [e_put e_get].
    - reflexivity.
    - destruct (key_eqb_spec q k) as [e|e]; cbn [e_get].
      + subst q. destruct (key_eqb k k'); reflexivity.
      + rewrite IH. destruct (key_eqb_spec q k') as [e'|e'], (key_eqb_spec k k') as [e''|e'']; try reflexivity. congruence.
  Qed.

  (** entry (i, f) after visiting the columns of a list of states *)
  Definition put_col (i : nat) (m : elems A) (fa : nat * A) : elems A :=
    if is_zero (snd fa) then m else e_put A m (i, fst fa) (snd fa).
  Lemma put_col_other i es m k : fst k <> i -> e_get (fold_left (put_col i) es m) k = e_get m k.
  Proof.
    revert m. induction es as [|[f a] es IH]; intros m Hk; [reflexivity|]. cbn [fold_left]. rewrite IH by exact Hk.
    unfold put_col. cbn. destruct (is_zero a); [reflexivity|]. rewrite e_get_put.
    destruct (key_eqb_spec (i, f) k) as [e|e]; [subst k; cbn in Hk; congruence|reflexivity].
  Qed.
  Lemma put_col_notin i es m f : ~ In f (map fst es) -> e_get (fold_left (put_col i) es m) (i, f) = e_get m (i, f).
  Proof.
    revert m. induction es as [|[g a] es IH]; intros m Hk; [reflexivity|]. cbn [fold_left]. cbn in Hk.
    rewrite IH by tauto. unfold put_col. cbn. destruct (is_zero a); [reflexivity|]. rewrite e_get_put.
    destruct (key_eqb_spec (i, g) (i, f)) as [e|e]; [|reflexivity]. injection e as ->. tauto.
  Qed.
  Lemma put_col_in i es m f a : NoDup (map fst es) -> In (f, a) es -> is_zero a = false ->
    e_get (fold_left (put_col i) es m) (i, f) = Some a.
  Proof.
    revert m. induction es as [|[g b] es IH]; intros m ND HI Hz; [destruct HI|]. cbn [fold_left map fst] in *.
    inversion ND; subst. destruct HI as [e|HI].
    - injection e as -> ->. rewrite put_col_notin by assumption. unfold put_col. cbn. rewrite Hz, e_get_put.
      destruct (key_eqb_spec (i, f) (i, f)); [reflexivity|congruence].
    - apply IH; assumption.
  Qed.
  Lemma put_col_zero i es m f : (forall a, In (f, a) es -> is_zero a = true) ->
    e_get (fold_left (put_col i) es m) (i, f) = e_get m (i, f).
  Proof.
    revert m. induction es as [|[g b] es IH]; intros m H; [reflexivity|]. cbn [fold_left]. rewrite IH.
    2:{ intros a Ha. apply H. right; exact Ha. }
    unfold put_col. cbn. destruct (is_zero b) eqn:E; [reflexivity|]. rewrite e_get_put.
    destruct (key_eqb_spec (i, g) (i, f)) as [e|e]; [|reflexivity]. injection e as ->.
    rewrite (H b) in E; [discriminate|left; reflexivity].
  Qed.

  Definition put_cols (op : cols A) (is : list nat) (m : elems A) : elems A :=
    fold_left (fun m i => fold_left (put_col i) (op i) m) is m.
  Lemma put_cols_other op is m i f : ~ In i is -> e_get (put_cols op is m) (i, f) = e_get m (i, f).
  Proof.
    revert m. induction is as [|j is IH]; intros m H; [reflexivity|]. cbn in H. unfold put_cols in *. cbn [fold_left].
    rewrite IH by tauto. apply put_col_other. cbn. intros e. subst. tauto.
  Qed.
  Lemma put_cols_spec op is i f a : NoDup is -> NoDup (map fst (op i)) ->
    (e_get (put_cols op is []) (i, f) = Some a <-> In i is /\ In (f, a) (op i) /\ is_zero a = false).
  Proof.
    intros ND NC.
    assert (G : forall m, e_get m (i, f) = None ->
      (e_get (put_cols op is m) (i, f) = Some a <-> In i is /\ In (f, a) (op i) /\ is_zero a = false)).
    { induction is as [|j is IH]; intros m Hm.
      - cbn. rewrite Hm. split; [discriminate|tauto].
      - inversion ND; subst. unfold put_cols. cbn [fold_left]. fold (put_cols op is).
        destruct (Nat.eq_dec j i) as [->|Hne].
        + change (fold_left _ is ?x) with (put_cols op is x). rewrite put_cols_other by assumption.
          destruct (e_get (fold_left (put_col i) (op i) m) (i, f)) as [b|] eqn:E.
          * assert (HB : In (f, b) (op i) /\ is_zero b = false).
            { destruct (in_dec Nat.eq_dec f (map fst (op i))) as [Hin|Hni].
              2:{ rewrite put_col_notin in E by exact Hni. congruence. }
              apply in_map_iff in Hin. destruct Hin as ([g c] & e & Hc). cbn in e. subst g.
              destruct (is_zero c) eqn:Ez.
              - rewrite put_col_zero in E; [congruence|]. intros a' Ha'.
                assert (a' = c); [|congruence]. clear -Ha' Hc NC. induction (op i) as [|[g d] es IHe]; [destruct Hc|].
                inversion NC; subst. destruct Hc as [e|Hc], Ha' as [e'|Ha'].
                + congruence. + injection e as -> ->. exfalso. apply H1. apply in_map_iff. exists (f, a'); auto.
                + injection e' as -> ->. exfalso. apply H1. apply in_map_iff. exists (f, c); auto.
                + apply IHe; assumption.
              - rewrite (put_col_in i (op i) m f c NC Hc Ez) in E. injection E as <-. auto. }
            split.
            -- intros e. injection e as <-. split; [left; reflexivity|exact HB].
            -- intros (_ & Ha & Hz). rewrite (put_col_in i (op i) m f a NC Ha Hz) in E. congruence.
          * split; [discriminate|]. intros (_ & Ha & Hz). rewrite (put_col_in i (op i) m f a NC Ha Hz) in E. discriminate.
        + change (fold_left _ is ?x) with (put_cols op is x). rewrite IH.
          * split; intros (H & K); (split; [|exact K]); [right; exact H|destruct H; [congruence|assumption]].
          * assumption.
          * rewrite put_col_other by (cbn; congruence). exact Hm. }
    apply G. reflexivity.
  Qed.
End Elems.
