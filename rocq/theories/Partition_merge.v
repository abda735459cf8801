(** Proofs about merge_subspaces. *)
From Coq Require Import List Arith Bool Lia Relations.
From Verif Require Import Base Partition PartitionSpec Partition_proofs.
Import ListNotations.

(** ---- multimaps ---- *)
Lemma c_find_none k cn : c_find k cn = None -> forall v, ~ In (k, v) cn.
Proof.
  induction cn as [|[k' v'] cn IH]; cbn; [tauto|]. destruct (Nat.eqb_spec k' k); [discriminate|].
  intros H v [e|HI]; [congruence|]. exact (IH H v HI).
Qed.
Lemma c_find_some k cn f : c_find k cn = Some f ->
  (forall e, In e cn <-> In e (c_erase k cn) \/ e = (k, f)) /\ length cn = S (length (c_erase k cn)).
Proof.
  induction cn as [|[k' v'] cn IH]; cbn; [discriminate|]. destruct (Nat.eqb_spec k' k) as [->|Hne].
  - intros H. injection H as ->. split; [|reflexivity]. intros e. split; [intros [<-|H]; auto|intros [H|H]; auto].
  - intros H. destruct (IH H) as [IH1 IH2]. split.
    + intros e. cbn. rewrite IH1. tauto.
    + cbn. lia.
Qed.
Lemma c_begin_in cn e : c_begin cn = Some e -> In e cn.
Proof.
  revert e. induction cn as [|[k v] cn IH]; cbn [c_begin]; [discriminate|]. intros e.
  destruct (c_begin cn) as [[k' v']|].
  - destruct (k' <? k); intros H; injection H as <-; [right; apply IH; reflexivity|left; reflexivity].
  - intros H; injection H as <-. left; reflexivity.
Qed.
Lemma c_begin_none cn : c_begin cn = None -> cn = [].
Proof.
  destruct cn as [|[k v] cn]; [reflexivity|]. cbn [c_begin]. destruct (c_begin cn) as [[k' v']|]; [destruct (k' <? k)|]; discriminate.
Qed.
Definition pair_dec (e e' : nat * nat) : {e = e'} + {e <> e'}.
Proof. decide equality; apply Nat.eq_dec. Defined.

Definition ent (z : zst) (s : bool) (k v : nat) : Prop := In (k, v) (z_side s z).
Arguments ent : simpl never.
Lemma ent_dec z s k v : {ent z s k v} + {~ ent z s k v}.
Proof. apply in_dec. apply pair_dec. Defined.

Section Zig.
  Variable choose : labels -> nat -> nat -> bool.
  Notation link := (link choose).
  Variable n : nat.
  (** the relation the final sets must stay inside *)
  Variable R : nat -> nat -> Prop.
  Hypothesis Rsym : forall x y, R x y -> R y x.
  Hypothesis Rtrans : forall x y z, R x y -> R y z -> R x z.
  Variable Z : nat * bool -> nat * bool -> Prop.
  Hypothesis Zsym : forall x y, Z x y -> Z y x.
  Hypothesis Ztrans : forall x y z, Z x y -> Z y z -> Z x z.
  Hypothesis ZR : forall x y b, Z (x, b) (y, b) -> R x y.
  Notation good := (good n R).
  Notation le := (le n).

  Definition bounded (z : zst) : Prop := forall s k v, ent z s k v -> k < n /\ v < n.
  Definition edges (z : zst) : Prop := forall s k v, ent z s k v -> Z (k, negb s) (v, s).

  Section Trav.
    Variables lower upper : nat.
    Definition anc (s : bool) : nat := if s then lower else upper.
    Hypothesis Ba : forall s, anc s < n.
    Hypothesis Za : Z (lower, false) (upper, true).
    Hypothesis Zr : forall x, Z x x.

    Lemma Za2 s : Z (anc s, negb s) (anc (negb s), s).
    Proof. destruct s; cbn; [exact Za|apply Zsym, Za]. Qed.

    Definition zz_post (z z' : zst) : Prop :=
      good (z_lab z') /\ le (z_lab z) (z_lab z') /\
      (forall s, length (z_side s z') <= length (z_side s z)) /\
      (forall s k v, ent z' s k v -> ent z s k v) /\
      (forall s k, (forall v, ~ ent z' s k v) \/ (forall v, ent z' s k v <-> ent z s k v)) /\
      (forall s k v, ent z s k v -> ~ ent z' s k v ->
         (forall w, ~ ent z' (negb s) v w) /\ same (z_lab z') k (anc s) /\ same (z_lab z') v (anc (negb s))).

    Lemma zigzag_ok : forall fuel z i up,
      z_count z < fuel -> good (z_lab z) -> bounded z -> edges z -> i < n ->
      Z (i, negb up) (anc up, negb up) -> same (z_lab z) i (anc up) ->
      exists z', zigzag choose fuel lower upper i up z = Some z' /\ zz_post z z' /\
        (forall v, ~ ent z' up i v) /\
        ((exists f, ent z up i f) -> length (z_side up z') < length (z_side up z)).
    Proof.
      induction fuel as [|fuel IH]; intros z i up Hf G B E Hi HZ HS; [lia|].
      cbn [zigzag]. destruct (c_find i (z_side up z)) as [f|] eqn:EF.
      2:{ exists z. split; [reflexivity|]. pose proof (c_find_none _ _ EF) as HN. split; [|split].
          - split; [exact G|]. split; [apply le_refl|]. split; [auto|]. split; [auto|]. split.
            + intros s k. right. tauto.
            + intros s k v H H'. tauto.
          - exact HN.
          - intros [f H]. destruct (HN f H). }
      destruct (c_find_some _ _ _ EF) as [EI EL].
      set (l := link (z_lab z) f (if up then upper else lower)).
      set (z1 := if up then mkZ l (c_erase i (z_cd z)) (z_c z) else mkZ l (z_cd z) (c_erase i (z_c z))).
      assert (Ent0 : ent z up i f) by (apply EI; right; reflexivity).
      destruct (B up i f Ent0) as [_ Hfn].
      assert (HZf : Z (f, up) (anc (negb up), up)).
      { apply Ztrans with (i, negb up); [apply Zsym, E, Ent0|]. apply Ztrans with (anc up, negb up); [exact HZ|apply Za2]. }
      assert (El : l = link (z_lab z) f (anc (negb up))) by (destruct up; reflexivity).
      assert (Lab1 : z_lab z1 = l) by (destruct up; reflexivity).
      assert (Sd1 : z_side up z1 = c_erase i (z_side up z)) by (destruct up; reflexivity).
      assert (Sd2 : z_side (negb up) z1 = z_side (negb up) z) by (destruct up; reflexivity).
      destruct (link_good choose n R Rsym Rtrans (z_lab z) f (anc (negb up)) G Hfn (Ba _)) as (G1 & L1 & S1).
      { eapply ZR. exact HZf. }
      rewrite <- El, <- Lab1 in G1, L1, S1.
      assert (EN : forall s k v, ent z s k v <-> ent z1 s k v \/ (s = up /\ k = i /\ v = f)).
      { intros s k v. unfold ent. destruct (bool_dec s up) as [->|Hs].
        - rewrite Sd1, EI. split; intros [H|H]; auto.
          + injection H; auto.
          + destruct H as (_ & -> & ->). auto.
        - assert (s = negb up) by (clear -Hs; destruct s, up; cbn; congruence). subst s. rewrite Sd2. tauto. }
      assert (Len1 : z_count z1 < fuel).
      { assert (z_count z1 < z_count z); [|lia]. unfold z_count.
        destruct up; cbn in *; lia. }
      destruct (IH z1 f (negb up) Len1 G1) as (z2 & -> & (G2 & L2 & N2 & I2 & A2 & C2) & K2 & _).
      { intros s k v H. apply (B s). apply EN; auto. }
      { intros s k v H. apply (E s). apply EN; auto. }
      { exact Hfn. }
      { rewrite negb_involutive. exact HZf. }
      { exact S1. }
      assert (NL : forall s, length (z_side s z1) <= length (z_side s z)).
      { intros s. destruct (bool_dec s up) as [->|Hs]; [rewrite Sd1; lia|].
        assert (s = negb up) by (clear -Hs; destruct s, up; cbn; congruence). subst s. rewrite Sd2. lia. }
      destruct (IH z2 i up) as (z3 & -> & (G3 & L3 & N3 & I3 & A3 & C3) & K3 & _).
      { assert (z_count z2 <= z_count z1); [|lia]. unfold z_count.
        pose proof (N2 true); pose proof (N2 false). cbn in *. lia. }
      { exact G2. }
      { intros s k v H. apply (B s). apply EN. left. apply I2, H. }
      { intros s k v H. apply (E s). apply EN. left. apply I2, H. }
      { exact Hi. }
      { exact HZ. }
      { apply L2; [exact Hi|apply Ba|]. apply L1; [exact Hi|apply Ba|exact HS]. }
      exists z3. split; [reflexivity|].
      assert (Le03 : le (z_lab z) (z_lab z3)) by (eapply le_trans; [exact L1|]; eapply le_trans; eassumption).
      split; [|split].
      - split; [exact G3|]. split; [exact Le03|]. split.
        { intros s. specialize (N2 s); specialize (N3 s); specialize (NL s). lia. }
        split.
        { intros s k v H. apply EN. left. apply I2, I3, H. }
        split.
        + intros s k. destruct (bool_dec s up) as [->|Hs]; [destruct (Nat.eq_dec k i) as [->|Hk]|].
          * left. exact K3.
          * destruct (A3 up k) as [H|H]; [left; exact H|]. destruct (A2 up k) as [H'|H'].
            { left. intros v Hv. apply (H' v). apply H, Hv. }
            right. intros v. rewrite H, H', EN. split; [auto|]. intros [Hv|(_ & -> & _)]; [exact Hv|congruence].
          * destruct (A3 s k) as [H|H]; [left; exact H|]. destruct (A2 s k) as [H'|H'].
            { left. intros v Hv. apply (H' v). apply H, Hv. }
            right. intros v. rewrite H, H', EN. split; [auto|]. intros [Hv|(-> & _)]; [exact Hv|congruence].
        + intros s k v H0 H3. destruct (ent_dec z1 s k v) as [H1|H1].
          * destruct (ent_dec z2 s k v) as [H2|H2].
            { apply C3; assumption. }
            destruct (C2 s k v H1 H2) as (Q1 & Q2 & Q3). destruct (B s k v H0) as [Bk Bv]. split.
            { intros w Hw. apply (Q1 w), I3, Hw. }
            split; apply L3; auto.
          * apply EN in H0. destruct H0 as [H0|(-> & -> & ->)]; [tauto|]. split.
            { intros w Hw. apply (K2 w), I3, Hw. }
            split; [apply Le03; auto|]. apply L3; [exact Hfn|apply Ba|]. apply L2; [exact Hfn|apply Ba|exact S1].
      - exact K3.
      - intros _. specialize (N2 up); specialize (N3 up). rewrite Sd1 in N2. unfold ent in *. lia.
    Qed.
  End Trav.

  (** ---- the outer loop ---- *)
  (** the connections of the first operator at the start *)
  Variable E : nat * nat -> Prop.
  Definition share (e e' : nat * nat) : Prop := E e /\ E e' /\ (fst e = fst e' \/ snd e = snd e').
  Definition chain : nat * nat -> nat * nat -> Prop := clos_refl_trans (nat * nat) share.
  Hypothesis EB : forall e, E e -> fst e < n /\ snd e < n.
  Hypothesis EZ : forall e, E e -> Z (fst e, false) (snd e, true).
  Hypothesis Zr : forall x, Z x x.

  Definition linv (z : zst) : Prop :=
    good (z_lab z) /\
    (forall k v, ent z true k v -> E (k, v)) /\
    (forall k v, ent z true k v <-> ent z false v k) /\
    (forall e e', E e -> ~ ent z true (fst e) (snd e) -> share e e' -> ~ ent z true (fst e') (snd e')) /\
    (forall e e', E e -> ~ ent z true (fst e) (snd e) -> chain e e' ->
       same (z_lab z) (fst e) (fst e') /\ same (z_lab z) (snd e) (snd e')).

  Lemma chain_E e e' : E e -> chain e e' -> E e'.
  Proof. intros H C. induction C; auto. destruct H0 as (_ & H0 & _); exact H0. Qed.

  Lemma loop_ok : forall fuel z, length (z_cd z) < fuel -> linv z ->
    exists z', zz_loop choose fuel z = Some z' /\ linv z' /\ z_cd z' = [] /\ le (z_lab z) (z_lab z').
  Proof.
    induction fuel as [|fuel IH]; intros z Hf Inv; [lia|]. cbn [zz_loop].
    destruct (c_begin (z_cd z)) as [[lower upper]|] eqn:EB'.
    2:{ exists z. split; [reflexivity|]. split; [exact Inv|]. split; [apply c_begin_none, EB'|apply le_refl]. }
    pose proof Inv as (G & I & T & Cl & D).
    apply c_begin_in in EB'. change (ent z true lower upper) in EB'.
    pose proof (I _ _ EB') as El. destruct (EB _ El) as [Bl Bu]. cbn in Bl, Bu.
    assert (Bz : bounded z).
    { intros s k v H. destruct s; [apply (EB (k, v)), I, H|]. apply T in H. apply I, EB in H. cbn in H. tauto. }
    assert (Ez : edges z).
    { intros s k v H. destruct s; [apply (EZ (k, v)), I, H|]. apply T in H. apply I, EZ in H. apply Zsym; exact H. }
    destruct (zigzag_ok lower upper) with (fuel := S (z_count z)) (z := z) (i := lower) (up := true)
      as (z' & -> & (G' & L' & N' & I' & A' & C') & K' & Lt').
    { intros [|]; assumption. } { apply (EZ _ El). } { lia. } { exact G. } { exact Bz. } { exact Ez. } { exact Bl. }
    { apply Zr. } { reflexivity. }
    assert (Cl' : forall e e', E e -> ~ ent z' true (fst e) (snd e) -> share e e' -> ~ ent z' true (fst e') (snd e')).
    { intros [k v] [k' v'] He Hn Sh H'. cbn in *.
      destruct (ent_dec z true k v) as [H0|H0].
      2:{ apply (Cl _ _ He H0 Sh). apply I', H'. }
      destruct (C' true k v H0 Hn) as (Q1 & _ & _). cbn in Q1.
      destruct Sh as (_ & _ & [Sk|Sv]); cbn in *; subst.
      - destruct (A' true k') as [W|W]; [exact (W _ H')|]. apply Hn, W, H0.
      - pose proof (I' _ _ _ H') as H1. apply T in H1.
        destruct (C' false v' k' H1 (Q1 k')) as (Q2 & _ & _). exact (Q2 v' H'). }
    assert (Inv' : linv z').
    { split; [exact G'|]. split; [intros k v H; apply I, I', H|]. split.
      { intros k v. split; intros H; pose proof (I' _ _ _ H) as H0; apply T in H0.
        - destruct (ent_dec z' false v k) as [|Hn]; [assumption|]. destruct (C' _ _ _ H0 Hn) as (Q & _). destruct (Q _ H).
        - destruct (ent_dec z' true k v) as [|Hn]; [assumption|]. destruct (C' _ _ _ H0 Hn) as (Q & _). destruct (Q _ H). }
      split; [exact Cl'|].
      intros e e' He Hn Ch. pose proof (chain_E e e' He Ch) as He'. destruct (EB e He) as [B1 B2], (EB e' He') as [B3 B4].
      destruct (ent_dec z true (fst e) (snd e)) as [H0|H0].
      2:{ destruct (D e e' He H0 Ch) as [D1 D2]. split; apply L'; auto. }
      assert (P : ent z true (fst e') (snd e') /\ ~ ent z' true (fst e') (snd e')).
      { apply Operators_Properties.clos_rt_rt1n in Ch. clear He' B3 B4.
        revert He Hn H0 B1 B2. induction Ch as [e|e e1 e2 Sh Ch IHc]; intros He Hn H0 B1 B2; [tauto|].
        pose proof Sh as (_ & He1 & _). destruct (EB e1 He1). apply IHc; auto.
        - exact (Cl' e e1 He Hn Sh).
        - destruct (ent_dec z true (fst e1) (snd e1)) as [|Hc]; [assumption|]. exfalso.
          apply (Cl e1 e He1 Hc); [|exact H0]. destruct Sh as (Q1 & Q2 & [Q3|Q3]); (split; [exact Q2|]); (split; [exact Q1|]); auto. }
      destruct P as [P1 P2].
      destruct (C' _ _ _ H0 Hn) as (_ & X1 & X2), (C' _ _ _ P1 P2) as (_ & Y1 & Y2). unfold same in *. split; congruence. }
    destruct (IH z') as (z'' & -> & Inv'' & Em & L''); [|exact Inv'|].
    { specialize (Lt' (ex_intro _ upper EB')). unfold z_side in Lt'. lia. }
    exists z''. split; [reflexivity|]. split; [exact Inv''|]. split; [exact Em|]. eapply le_trans; eassumption.
  Qed.
End Zig.

(** ---- fill_conn ---- *)
Section Fill.
  Variable A : Type.
  Variable is_zero : A -> bool.
  Variable store : bool.
  Variable l : labels.
  Variable op : cols A.
  Lemma fill_col i es st :
    let r := fold_left (fun (st : conns * elems A) (fa : nat * A) =>
                 let '(cn, m) := st in
                 if is_zero (snd fa) then st
                 else (cn ++ [(rep l i, rep l (fst fa))], if store then e_put A m (i, fst fa) (snd fa) else m)) es st in
    (forall e, In e (fst r) <-> In e (fst st) \/ exists f a, In (f, a) es /\ is_zero a = false /\ e = (rep l i, rep l f)) /\
    snd r = if store then fold_left (put_col A is_zero i) es (snd st) else snd st.
  Proof.
    revert st. induction es as [|[f a] es IH]; intros [cn m]; cbn [fold_left fst snd].
    - split; [|destruct store; reflexivity]. intros e. split; [auto|]. intros [H|(f & a & [] & _)]; exact H.
    - destruct (IH (if is_zero a then (cn, m) else (cn ++ [(rep l i, rep l f)], if store then e_put A m (i, f) a else m))) as [I1 I2].
      cbv zeta. split.
      + intros e. rewrite I1. destruct (is_zero a) eqn:Ez; cbn [fst].
        * split; (intros [H|(f' & a' & H & Hz & Q)]; [left; exact H|right; exists f', a']).
          { split; [right; exact H|auto]. }
          { destruct H as [H|H]; [|auto]. injection H as -> ->. congruence. }
        * rewrite in_app_iff. cbn [In]. split.
          { intros [[H|[<-|[]]]|(f' & a' & H & Hz & Q)]; [left; exact H|right; exists f, a; auto|right; exists f', a'; auto]. }
          { intros [H|(f' & a' & [H|H] & Hz & Q)]; [auto| |right; exists f', a'; auto]. injection H as -> ->. subst; auto. }
      + rewrite I2. change (put_col A is_zero i m (f, a)) with (if is_zero a then m else e_put A m (i, f) a). destruct (is_zero a); cbn [snd]; destruct store; reflexivity.
  Qed.

  Lemma fill_cols is st :
    let r := fold_left (fill_conn A is_zero store l op) is st in
    (forall e, In e (fst r) <-> In e (fst st) \/
       exists i f, In i is /\ nonzero A is_zero op i f /\ e = (rep l i, rep l f)) /\
    snd r = if store then put_cols A is_zero op is (snd st) else snd st.
  Proof.
    revert st. induction is as [|i is IH]; intros st; cbn [fold_left].
    - split; [|destruct store; reflexivity]. intros e. split; [auto|]. intros [H|(f & a & [] & _)]; exact H.
    - destruct (fill_col i (op i) st) as [J1 J2]. cbv zeta in *. fold (fill_conn A is_zero store l op st i) in *.
      destruct (IH (fill_conn A is_zero store l op st i)) as [I1 I2].
      split.
      + intros e. rewrite I1, J1. split.
        * intros [[H|(f & a & H & Hz & Q)]|(j & f & H & Hz & Q)]; [left; exact H|right|right; exists j, f; cbn; auto].
          exists i, f. cbn. split; [auto|]. split; [exists a; auto|exact Q].
        * intros [H|(j & f & [H|H] & Hz & Q)]; [auto| |right; exists j, f; auto].
          subst j. destruct Hz as (a & Ha & Hz). left; right. exists f, a; auto.
      + rewrite I2, J2. destruct store; reflexivity.
  Qed.
End Fill.

(** ---- merge_subspaces ---- *)
Section Merge.
  Variable A : Type.
  Variable is_zero : A -> bool.
  Variable choose : labels -> nat -> nat -> bool.
  Variable norm : labels -> labels.
  Hypothesis N : norm_ok norm.
  Notation nonzero := (nonzero A is_zero).
  Variable n : nat.
  Variable s : sp A.
  Variables cd c : cols A.
  Variable store : bool.
  Hypothesis I : indexed A n s.
  Hypothesis Icd : in_space A n cd.
  Hypothesis Ic : in_space A n c.
  Hypothesis Cj : conjugate A is_zero n cd c.

  Let l0 := subspaces s.
  Let S0 : nat -> nat -> Prop := fun i j => lookup_basis_state s i = lookup_basis_state s j.
  Notation ZL := (zlinked A is_zero n S0 cd c).
  Notation ZM := (zmerged A is_zero n S0 cd c).

  Let E (e : nat * nat) : Prop := exists i f, i < n /\ nonzero cd i f /\ e = (rep l0 i, rep l0 f).

  Lemma rep0 x : x < n -> rep l0 x < n /\ same l0 x (rep l0 x).
  Proof.
    intros H. destruct I as (_ & L & V & _). fold l0 in L, V. rewrite <- L in H. destruct (V x H) as [B e].
    rewrite L in B. split; [exact B|]. unfold same. congruence.
  Qed.
  Lemma S0_same x y : x < n -> y < n -> (S0 x y <-> same l0 x y).
  Proof. apply lookup_same; exact I. Qed.
  Lemma nz_bound op i f : in_space A n op -> i < n -> nonzero op i f -> f < n.
  Proof. intros H Hi (a & Ha & _). eapply H; eassumption. Qed.

  Lemma E_bound e : E e -> fst e < n /\ snd e < n.
  Proof.
    intros (i & f & Hi & Hn & ->). cbn. split; apply rep0; [exact Hi|]. exact (nz_bound cd i f Icd Hi Hn).
  Qed.
  Lemma Zrep x b : x < n -> ZL (rep l0 x, b) (x, b).
  Proof.
    intros H. destruct (rep0 x H) as [B Q]. apply rst_step. constructor; [exact B|exact H|].
    apply S0_same; [assumption|assumption|]. unfold same in *. congruence.
  Qed.
  Lemma E_Z e : E e -> ZL (fst e, false) (snd e, true).
  Proof.
    intros (i & f & Hi & Hn & ->). cbn. pose proof (nz_bound cd i f Icd Hi Hn) as Hf.
    eapply rst_trans; [apply Zrep, Hi|]. eapply rst_trans; [apply rst_step; apply zup; eassumption|].
    apply rst_sym, Zrep, Hf.
  Qed.

  (** chains of zigzag moves in terms of connections *)
  Notation Chain := (chain E).
  Lemma chain_sym e e' : Chain e e' -> Chain e' e.
  Proof.
    induction 1 as [x y (H1 & H2 & H3)| |]; [apply rt_step|apply rt_refl|eapply rt_trans; eassumption].
    split; [exact H2|]. split; [exact H1|]. destruct H3; auto.
  Qed.
  Definition at_node (e : nat * nat) (x : nat * bool) : Prop := rep l0 (fst x) = if snd x then snd e else fst e.
  Definition K (x y : nat * bool) : Prop :=
    x = y \/ (fst x < n /\ fst y < n /\
      ((snd x = snd y /\ same l0 (fst x) (fst y)) \/
       exists e e', E e /\ E e' /\ Chain e e' /\ at_node e x /\ at_node e' y)).
  Lemma K_sym x y : K x y -> K y x.
  Proof.
    intros [->|(H1 & H2 & [[H3 H4]|(e & e' & H3 & H4 & H5 & H6 & H7)])]; [left; reflexivity| |]; right; (split; [exact H2|]); (split; [exact H1|]).
    - left. split; [congruence|]. unfold same in *. congruence.
    - right. exists e', e. split; [exact H4|]. split; [exact H3|]. split; [apply chain_sym, H5|auto].
  Qed.
  Lemma K_trans x y z : K x y -> K y z -> K x z.
  Proof.
    intros [->|(H1 & H2 & H)]; [auto|]. intros [<-|(_ & H3 & H')]; [right; auto|].
    right. split; [exact H1|]. split; [exact H3|].
    destruct H as [[Q1 Q2]|(e & e' & Q1 & Q2 & Q3 & Q4 & Q5)], H' as [[P1 P2]|(d & d' & P1 & P2 & P3 & P4 & P5)].
    - left. split; [congruence|]. unfold same in *. congruence.
    - right. exists d, d'. split; [exact P1|]. split; [exact P2|]. split; [exact P3|]. split; [|exact P5].
      unfold at_node, same in *. rewrite Q1, Q2. exact P4.
    - right. exists e, e'. split; [exact Q1|]. split; [exact Q2|]. split; [exact Q3|]. split; [exact Q4|].
      unfold at_node, same in *. rewrite <- P1, <- P2. exact Q5.
    - right. exists e, d'. split; [exact Q1|]. split; [exact P2|]. split; [|auto].
      eapply rt_trans; [exact Q3|]. eapply rt_trans; [|exact P3]. apply rt_step. split; [exact Q2|]. split; [exact P1|].
      unfold at_node in *. destruct (snd y); [right|left]; congruence.
  Qed.
  Lemma Z_K x y : ZL x y -> K x y.
  Proof.
    induction 1 as [x y H|x|x y _ IH|x y z _ IH1 _ IH2].
    - destruct H as [i j b Hi Hj Hs|i f Hi Hn|i f Hi Hn].
      + right. cbn. split; [exact Hi|]. split; [exact Hj|]. left. split; [reflexivity|]. apply S0_same; assumption.
      + pose proof (nz_bound cd i f Icd Hi Hn) as Hf. right. cbn. split; [exact Hi|]. split; [exact Hf|]. right.
        assert (HE : E (rep l0 i, rep l0 f)) by (exists i, f; auto).
        exists (rep l0 i, rep l0 f), (rep l0 i, rep l0 f). split; [exact HE|]. split; [exact HE|]. split; [apply rt_refl|].
        split; reflexivity.
      + pose proof (nz_bound c i f Ic Hi Hn) as Hf. right. cbn. split; [exact Hi|]. split; [exact Hf|]. right.
        assert (HE : E (rep l0 f, rep l0 i)).
        { exists f, i. split; [exact Hf|]. split; [|reflexivity]. apply Cj; assumption. }
        exists (rep l0 f, rep l0 i), (rep l0 f, rep l0 i). split; [exact HE|]. split; [exact HE|]. split; [apply rt_refl|].
        split; reflexivity.
    - left; reflexivity.
    - apply K_sym, IH.
    - eapply K_trans; eassumption.
  Qed.

  Lemma ZM_bound i j : ZM i j -> (i < n <-> j < n).
  Proof.
    induction 1 as [x y (b & H)|x|x y _ IH|x y z _ IH1 _ IH2]; try tauto.
    apply Z_K in H. destruct H as [H|(H1 & H2 & _)]; [injection H as ->|]; tauto.
  Qed.

  Lemma merge_ok : exists s' m m', merge_subspaces A is_zero choose norm s cd c store = Some (s', (m, m')) /\
    indexed A n s' /\ matrix_elements s' = matrix_elements s /\
    m = (if store then put_cols A is_zero cd (seq 0 n) [] else []) /\
    m' = (if store then put_cols A is_zero c (seq 0 n) [] else []) /\
    forall x y, x < n -> y < n -> (lookup_basis_state s' x = lookup_basis_state s' y <-> ZM x y).
  Proof.
    pose proof I as (Id & L & V & _). unfold merge_subspaces. rewrite Id. fold l0 in L, V |- *.
    pose proof (fill_cols A is_zero store l0 cd (seq 0 n) ([], [])) as [F1 M1].
    pose proof (fill_cols A is_zero store l0 c (seq 0 n) ([], [])) as [F2 M2].
    destruct (fold_left (fill_conn A is_zero store l0 cd) (seq 0 n) ([], [])) as [cn1 m1].
    destruct (fold_left (fill_conn A is_zero store l0 c) (seq 0 n) ([], [])) as [cn2 m2].
    cbn [fst snd] in *.
    assert (G1 : forall e, In e cn1 <-> E e).
    { intros e. rewrite F1. split.
      - intros [[]|(i & f & Hi & Hn & ->)]. apply in_seq in Hi. exists i, f. split; [lia|auto].
      - intros (i & f & Hi & Hn & ->). right. exists i, f. split; [apply in_seq; lia|auto]. }
    assert (G2 : forall k v, In (v, k) cn2 <-> E (k, v)).
    { intros k v. rewrite F2. split.
      - intros [[]|(i & f & Hi & Hn & e)]. apply in_seq in Hi. assert (Hi' : i < n) by lia.
        pose proof (nz_bound c i f Ic Hi' Hn). injection e as -> ->. exists f, i. split; [assumption|]. split; [|reflexivity].
        apply Cj; assumption.
      - intros (i & f & Hi & Hn & e). pose proof (nz_bound cd i f Icd Hi Hn). injection e as -> ->. right. exists f, i.
        split; [apply in_seq; lia|]. split; [|reflexivity]. apply Cj; assumption. }
    assert (Rs : forall x y, ZM x y -> ZM y x) by (intros; apply rst_sym; assumption).
    assert (Rt : forall x y z, ZM x y -> ZM y z -> ZM x z) by (intros; eapply rst_trans; eassumption).
    destruct (loop_ok choose n ZM Rs Rt ZL) with (E := E) (fuel := S (length cn1)) (z := mkZ l0 cn1 cn2)
      as (z' & EQ & (Gd & _ & _ & _ & D) & Em & Le).
    { intros; apply rst_sym; assumption. } { intros; eapply rst_trans; eassumption. }
    { intros x y b H. apply rst_step. exists b. exact H. }
    { exact E_bound. } { exact E_Z. } { intros; apply rst_refl. }
    { cbn. lia. }
    { split; [|split; [|split; [|split]]].
      - split; [exact L|]. split; [exact V|]. intros u v Hu Hv H. apply rst_step. exists false. apply rst_step.
        constructor; auto. apply S0_same; assumption.
      - intros k v H. apply G1, H.
      - intros k v. unfold ent. cbn. rewrite G1, G2. tauto.
      - intros [k v] e' He Hn. exfalso. apply Hn. apply G1, He.
      - intros [k v] e' He Hn. exfalso. apply Hn. apply G1, He. }
    rewrite EQ. destruct Gd as (L' & V' & Sd).
    destruct (update_indexed A norm N n (z_lab z') (matrix_elements s) (rep_index s) L' V') as [I' K'].
    eexists _, m1, m2. split; [reflexivity|]. split; [exact I'|]. split; [reflexivity|].
    split; [exact M1|]. split; [exact M2|].
    intros x y Hx Hy. rewrite (lookup_same A n _ x y I' Hx Hy), K' by assumption. split; [apply Sd; assumption|].
    intros H. cut (x < n -> same (z_lab z') x y); [auto|]. clear Hx Hy.
    induction H as [x y (b & H)|x|x y H IH|x y z H1 IH1 H2 IH2]; intros Hx.
    - apply Z_K in H. destruct H as [H|(_ & Hy & [[_ H]|(e & e' & H1 & H2 & H3 & H4 & H5)])].
      + injection H as ->. reflexivity.
      + apply Le; assumption.
      + cbn in Hy.
        destruct (D e e' H1) as [D1 D2].
        { unfold ent, z_side. rewrite Em. intros []. }
        { exact H3. }
        unfold at_node in *. cbn in H4, H5.
        destruct (rep0 x Hx) as [Bx Qx], (rep0 y Hy) as [By Qy].
        apply (Le _ _ Hx Bx) in Qx. apply (Le _ _ Hy By) in Qy. unfold same in *. cbn in Qx, Qy.
        rewrite Qx, Qy, H4, H5. destruct b; assumption.
    - reflexivity.
    - symmetry. apply IH. apply (ZM_bound x y H), Hx.
    - assert (y < n) by (apply (ZM_bound x y H1), Hx). unfold same in *. rewrite IH1 by assumption. apply IH2; assumption.
  Qed.
End Merge.
