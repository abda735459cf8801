(** Proofs about the operator map and normal ordering. *)
From Coq Require Import ZArith NArith List Bool Lia Ring Permutation Sorted.
From Verif Require Import Base Indices Scalar Fock FockFacts OpModel OpExpr.
Import ListNotations.

(** ---- orders ---- *)
Lemma ccmp_ok : order_ok ccmp.
Proof.
  pose proof icmp_ok as H. split.
  - intros [dx ix] [dy iy]. unfold ccmp; cbn [dag ind]. destruct dx, dy; try (split; congruence);
      rewrite (oc_eq _ H); split; congruence.
  - intros [dx ix] [dy iy]. unfold ccmp; cbn [dag ind]. destruct dx, dy; try reflexivity; apply (oc_anti _ H).
  - intros [dx ix] [dy iy] [dz iz]. unfold ccmp; cbn [dag ind].
    destruct dx, dy, dz; try congruence; intros H1 H2.
    + exact (oc_trans _ H _ _ _ H1 H2).
    + exact (oc_trans _ H _ _ _ H2 H1).
Qed.

Lemma mcmp_ok : order_ok mcmp.
Proof.
  pose proof (lex_ok _ ccmp_ok) as H. split.
  - intros x y. unfold mcmp. destruct (Nat.compare_spec (length x) (length y)) as [E|E|E].
    + apply (oc_eq _ H).
    + split; [congruence|]. intros ->. lia.
    + split; [congruence|]. intros ->. lia.
  - intros x y. unfold mcmp. rewrite (Nat.compare_antisym (length x)).
    destruct (Nat.compare (length x) (length y)); simpl; try reflexivity. apply (oc_anti _ H).
  - intros x y z. unfold mcmp.
    destruct (Nat.compare_spec (length x) (length y)) as [E1|E1|E1];
    destruct (Nat.compare_spec (length y) (length z)) as [E2|E2|E2];
    destruct (Nat.compare_spec (length x) (length z)) as [E3|E3|E3]; try congruence; try lia; try (intros; reflexivity).
    apply (oc_trans _ H).
Qed.

Lemma cop_eq_dec (x y : cop) : {x = y} + {x <> y}.
Proof. destruct (ccmp x y) eqn:E; [left; apply (oc_eq _ ccmp_ok); auto | right | right];
  intros ->; rewrite (oc_refl _ ccmp_ok) in E; congruence. Qed.

Section Maps.
  Context (S : scalar_ops).
  Lemma m_find_none_Forall m (t : omap S) : keys_sorted t -> m_find m t = None -> Forall (fun mc => fst mc <> m) t.
  Proof.
    induction t as [|[m' c'] t IH]; intros Hs Hf; constructor; inversion Hs as [|? ? Hs' Hall]; subst; simpl in *.
    - intros ->. rewrite (oc_refl _ mcmp_ok) in Hf. congruence.
    - destruct (mcmp m m') eqn:E; [congruence| |auto].
      eapply Forall_impl; [|exact Hall]. intros [m2 c2] H2 <-. unfold klt in H2; simpl in *.
      pose proof (oc_trans _ mcmp_ok _ _ _ E H2) as H3. rewrite (oc_refl _ mcmp_ok) in H3. congruence.
  Qed.
  Lemma m_find_some_In m c (t : omap S) : m_find m t = Some c -> In (m, c) t.
  Proof.
    induction t as [|[m' c'] t IH]; simpl; [congruence|].
    destruct (mcmp m m') eqn:E; try congruence; [|auto].
    intros H; injection H as ->. apply (oc_eq _ mcmp_ok) in E. subst. auto.
  Qed.
  Lemma m_find_In_sorted m c (t : omap S) : keys_sorted t -> In (m, c) t -> m_find m t = Some c.
  Proof.
    induction t as [|[m' c'] t IH]; simpl; [tauto|]. intros Hs HIn.
    inversion Hs as [|? ? Hs' Hall]; subst.
    destruct HIn as [E|HIn].
    - injection E as -> ->. rewrite (oc_refl _ mcmp_ok). reflexivity.
    - rewrite Forall_forall in Hall. pose proof (Hall _ HIn) as H. unfold klt in H; simpl in H.
      assert (Hgt : mcmp m m' = Gt) by (apply (oc_gt_lt _ mcmp_ok); exact H).
      rewrite Hgt. auto.
  Qed.

  Lemma m_put_In m c (t : omap S) x : In x (m_put m c t) -> x = (m, c) \/ In x t.
  Proof.
    induction t as [|[m' c'] t IH]; simpl; [intuition|].
    destruct (mcmp m m') eqn:E; simpl; intuition.
    apply (oc_eq _ mcmp_ok) in E. subst. auto.
  Qed.
  Lemma m_erase_In m (t : omap S) x : In x (m_erase m t) -> In x t.
  Proof.
    induction t as [|[m' c'] t IH]; simpl; [intuition|].
    destruct (mcmp m m') eqn:E; simpl; intuition.
  Qed.

  Lemma m_put_sorted m c (t : omap S) : keys_sorted t -> keys_sorted (m_put m c t).
  Proof.
    induction t as [|[m' c'] t IH]; simpl; intros Hs.
    - constructor; [constructor|constructor].
    - inversion Hs as [|? ? Hs' Hall]; subst. destruct (mcmp m m') eqn:E.
      + constructor; [exact Hs'|]. exact Hall.
      + constructor; [exact Hs|]. constructor; [exact E|].
        eapply Forall_impl; [|exact Hall]. intros [m2 c2] H2. unfold klt in *; simpl in *.
        exact (oc_trans _ mcmp_ok _ _ _ E H2).
      + constructor; [apply IH; exact Hs'|]. apply Forall_forall. intros x Hx.
        apply m_put_In in Hx. destruct Hx as [->|Hx].
        * unfold klt; simpl. apply (oc_gt_lt _ mcmp_ok). exact E.
        * rewrite Forall_forall in Hall. auto.
  Qed.
  Lemma m_erase_sorted m (t : omap S) : keys_sorted t -> keys_sorted (m_erase m t).
  Proof.
    unfold keys_sorted. induction t as [|[m' c'] t IH]; simpl; intros Hs; [constructor|].
    inversion Hs as [|? ? Hs' Hall]; subst. destruct (mcmp m m') eqn:E; auto.
    constructor; [auto|]. apply Forall_forall. intros x Hx. apply m_erase_In in Hx.
    rewrite Forall_forall in Hall. auto.
  Qed.

  Lemma wf_nil : wf ([] : omap S). Proof. split; constructor. Qed.
  Lemma wf_put m c (t : omap S) : wf t -> normal m -> c <> k0 -> wf (m_put m c t).
  Proof.
    intros [Hs Hf] Hm Hc. split; [apply m_put_sorted; auto|].
    apply Forall_forall. intros x Hx. apply m_put_In in Hx. rewrite Forall_forall in Hf.
    destruct Hx as [->|Hx]; simpl; auto.
  Qed.
  Lemma wf_erase m (t : omap S) : wf t -> wf (m_erase m t).
  Proof.
    intros [Hs Hf]. split; [apply m_erase_sorted; auto|].
    apply Forall_forall. intros x Hx. apply m_erase_In in Hx. rewrite Forall_forall in Hf. auto.
  Qed.

  Lemma op_on_put P m c (t : omap S) : op_on P t -> mono_on P m -> op_on P (m_put m c t).
  Proof.
    intros Hf Hm. apply Forall_forall. intros x Hx. apply m_put_In in Hx. unfold op_on in Hf. rewrite Forall_forall in Hf.
    destruct Hx as [->|Hx]; simpl; auto.
  Qed.
  Lemma op_on_erase P m (t : omap S) : op_on P t -> op_on P (m_erase m t).
  Proof. intros Hf. apply Forall_forall. intros x Hx. apply m_erase_In in Hx. unfold op_on in Hf. rewrite Forall_forall in Hf. auto. Qed.
End Maps.

Section Normal.
  Context (S : scalar_ops) (L : scalar_laws S).
  Local Open Scope K_scope.
  Add Ring Kring2 : (sl_ring S L).

  Lemma put_or_wf upd m (c : S) t : wf t -> normal m -> c <> k0 -> wf (put_or upd m c t).
  Proof.
    intros Ht Hm Hc. unfold put_or. destruct (m_find m t) as [c0|] eqn:E.
    - destruct (kisz (upd c0)) eqn:Ez; [apply wf_erase; auto|].
      apply wf_put; auto. apply (kisz_false S L). exact Ez.
    - apply wf_put; auto.
  Qed.
  Lemma put_or_on P upd m (c : S) t : op_on P t -> mono_on P m -> op_on P (put_or upd m c t).
  Proof.
    intros Ht Hm. unfold put_or. destruct (m_find m t) as [c0|] eqn:E.
    - destruct (kisz (upd c0)) eqn:Ez; [apply op_on_erase; auto|]. apply op_on_put; auto.
    - apply op_on_put; auto.
  Qed.

  Section Sem.
  Variable pos : indices -> nat.
  Notation mel := (@mel pos S).
  Notation mel_mono := (@mel_mono pos S).

  Lemma mel_put_new m (c : S) t f g : m_find m t = None -> mel (m_put m c t) f g = mel t f g + c * mel_mono m f g.
  Proof.
    induction t as [|[m' c'] t IH]; simpl; intros H; [ring|].
    destruct (mcmp m m') eqn:E; simpl; [congruence|ring|]. rewrite IH by auto. ring.
  Qed.
  Lemma mel_put_old m (c c0 : S) t f g : m_find m t = Some c0 -> mel (m_put m c t) f g = mel t f g + (c - c0) * mel_mono m f g.
  Proof.
    induction t as [|[m' c'] t IH]; simpl; intros H; [congruence|].
    destruct (mcmp m m') eqn:E; simpl; [|congruence|].
    - injection H as ->. apply (oc_eq _ mcmp_ok) in E. subst. ring.
    - rewrite IH by auto. ring.
  Qed.
  Lemma mel_erase m (c0 : S) t f g : m_find m t = Some c0 -> mel (m_erase m t) f g = mel t f g - c0 * mel_mono m f g.
  Proof.
    induction t as [|[m' c'] t IH]; simpl; intros H; [congruence|].
    destruct (mcmp m m') eqn:E; simpl; [|congruence|].
    - injection H as ->. apply (oc_eq _ mcmp_ok) in E. subst. ring.
    - rewrite IH by auto. ring.
  Qed.
  Lemma mel_put_or upd m (c d : S) t f g :
    c = d -> (forall c0, upd c0 = c0 + d) -> mel (put_or upd m c t) f g = mel t f g + d * mel_mono m f g.
  Proof.
    intros -> Hu. unfold put_or. destruct (m_find m t) as [c0|] eqn:E.
    - rewrite Hu. destruct (kisz (c0 + d)) eqn:Ez.
      + rewrite (mel_erase _ _ _ _ _ E). apply (sl_isz S L) in Ez.
        assert (c0 = - d) as ->. { transitivity (c0 + d - d); [ring|]. rewrite Ez. ring. } ring.
      + rewrite (mel_put_old _ _ _ _ _ _ E). ring.
    - rewrite (mel_put_new _ _ _ _ _ E). reflexivity.
  Qed.
  End Sem.

  (** ---- one pass ---- *)
  Lemma flip_facts x y : ccmp x y = Gt -> x = flip y -> dag x = false /\ dag y = true /\ ind x = ind y.
  Proof.
    intros Hg ->. destruct y as [[|] i]; simpl in *; auto. unfold ccmp in Hg; simpl in Hg. congruence.
  Qed.

  Section PassProofs.
    Variable rec : monomial -> S -> omap S -> option (omap S).

    Lemma pass_perm pre x rest c t sw m' c' t' sw' :
      pass rec pre x rest c t sw = PDone m' c' t' sw' -> Permutation m' (rev pre ++ x :: rest).
    Proof.
      revert pre x c t sw. induction rest as [|y rest IH]; intros pre x c t sw; simpl.
      - intros H; injection H as <- _ _ _. reflexivity.
      - destruct (ccmp x y); [congruence| |].
        + intros H. apply IH in H. simpl in H. rewrite <- app_assoc in H. exact H.
        + destruct (if cmp_eqb ccmp x (flip y) then _ else _); [|congruence].
          intros H. apply IH in H. simpl in H. rewrite <- app_assoc in H. rewrite H. simpl.
          apply Permutation_app_head. apply perm_swap.
    Qed.

    Lemma pass_coef pre x rest c t sw m' c' t' sw' :
      pass rec pre x rest c t sw = PDone m' c' t' sw' -> c <> k0 -> c' <> k0.
    Proof.
      revert pre x c t sw. induction rest as [|y rest IH]; intros pre x c t sw; simpl.
      - intros H; injection H as _ <- _ _. auto.
      - destruct (ccmp x y); [congruence| |].
        + apply IH.
        + destruct (if cmp_eqb ccmp x (flip y) then _ else _); [|congruence].
          intros H Hc. eapply IH; [exact H|]. intros E. apply Hc. apply (kopp_0 S L). exact E.
    Qed.

    (** without any swap the monomial is unchanged and strictly increasing *)
    Lemma pass_swapped_mono pre x rest c t sw m' c' t' :
      pass rec pre x rest c t sw = PDone m' c' t' false -> sw = false.
    Proof.
      revert pre x c t sw. induction rest as [|y rest IH]; intros pre x c t sw; simpl.
      - congruence.
      - destruct (ccmp x y); [congruence|apply IH|].
        destruct (if cmp_eqb ccmp x (flip y) then _ else _); [|congruence].
        intros H. apply IH in H. congruence.
    Qed.
    Lemma pass_noswap pre x rest c t m' c' t' :
      pass rec pre x rest c t false = PDone m' c' t' false ->
      m' = rev pre ++ x :: rest /\ c' = c /\ t' = t /\ Sorted clt (x :: rest).
    Proof.
      revert pre x. induction rest as [|y rest IH]; intros pre x; simpl.
      - intros H; injection H as <- <- <-. repeat split; auto.
      - destruct (ccmp x y) eqn:E; [congruence| |].
        + intros H. apply IH in H. destruct H as (-> & -> & -> & Hs). simpl. rewrite <- app_assoc.
          repeat split; auto.
        + destruct (if cmp_eqb ccmp x (flip y) then _ else _); [|congruence].
          intros H. apply pass_swapped_mono in H. congruence.
    Qed.

    (** semantics of a pass *)
    Section PassSem.
      Variable pos : indices -> nat.
      Variable P : indices -> Prop.
      Hypothesis Hinj : forall i j, P i -> P j -> pos i = pos j -> i = j.
      Notation mel := (@mel pos S).
      Notation mel_mono := (@mel_mono pos S).
      Variable n : nat.
      Hypothesis Hrec : forall m c t t', (Datatypes.length m + 2 = n)%nat -> mono_on P m -> rec m c t = Some t' ->
        forall f g, mel t' f g = mel t f g + c * mel_mono m f g.

      Lemma pass_sem pre x rest c t sw :
        Datatypes.length (rev pre ++ x :: rest) = n -> mono_on P (rev pre ++ x :: rest) ->
        forall f g,
        match pass rec pre x rest c t sw with
        | PZero t' => mel t' f g = mel t f g + c * mel_mono (rev pre ++ x :: rest) f g
        | PDone m' c' t' _ => mel t' f g + c' * mel_mono m' f g = mel t f g + c * mel_mono (rev pre ++ x :: rest) f g
        | PFuel => True
        end.
      Proof.
        revert pre x c t sw. induction rest as [|y rest IH]; intros pre x c t sw Hn HP f g; simpl; [reflexivity|].
        destruct (ccmp x y) eqn:E.
        - apply (oc_eq _ ccmp_ok) in E. subst y.
          rewrite (mel_ctx_zero pos S x x) by reflexivity. ring.
        - specialize (IH (x :: pre) y c t sw). simpl in IH. rewrite <- app_assoc in IH. apply IH; auto.
        - assert (HPxy : P (ind x) /\ P (ind y)).
          { unfold mono_on in HP. rewrite Forall_app in HP. destruct HP as [_ HP].
            inversion HP as [|? ? Hx HP']; subst. inversion HP' as [|? ? Hy _]; subst. auto. }
          assert (Hn' : Datatypes.length (rev (y :: pre) ++ x :: rest) = n).
          { simpl. rewrite <- app_assoc. simpl. rewrite <- Hn, !app_length. reflexivity. }
          assert (HP' : mono_on P (rev (y :: pre) ++ x :: rest)).
          { simpl. rewrite <- app_assoc. simpl. unfold mono_on in *. rewrite Forall_app in *.
            destruct HP as [H1 H2]. split; auto. inversion H2 as [|? ? Hx H3]; subst. inversion H3; subst.
            constructor; auto. }
          destruct (cmp_eqb ccmp x (flip y)) eqn:Ef.
          + apply (cmp_eqb_eq _ ccmp_ok) in Ef. destruct (flip_facts _ _ E Ef) as (Hx & Hy & Hi).
            destruct (rec (rev pre ++ rest) c t) as [t1|] eqn:Er; [|exact I].
            assert (Ht1 : mel t1 f g = mel t f g + c * mel_mono (rev pre ++ rest) f g).
            { apply (Hrec _ _ _ _) with (3 := Er).
              - rewrite app_length in *. simpl in Hn. lia.
              - unfold mono_on in *. rewrite Forall_app in *. destruct HP as [H1 H2]. split; auto.
                inversion H2 as [|? ? _ H3]; subst. inversion H3; subst. auto. }
            assert (Hc : mel_mono (rev pre ++ x :: y :: rest) f g =
                         mel_mono (rev pre ++ rest) f g - mel_mono (rev pre ++ y :: x :: rest) f g).
            { destruct x as [dx ix], y as [dy iy]; simpl in *; subst. apply (mel_ctx_contract pos S L). }
            specialize (IH (y :: pre) x (- c) t1 true Hn' HP' f g). simpl in IH. rewrite <- app_assoc in IH. simpl in IH.
            destruct (pass rec (y :: pre) x rest (- c) t1 true); auto; rewrite IH, Ht1, Hc; ring.
          + assert (Hneq : mel_mono (rev pre ++ x :: y :: rest) f g = - mel_mono (rev pre ++ y :: x :: rest) f g).
            { apply (mel_ctx_neg pos S L). intros Hp. apply Hinj in Hp; try tauto.
              assert (x = flip y).
              { destruct x as [dx ix], y as [dy iy]; simpl in *; subst. unfold flip; simpl.
                destruct dx, dy; simpl; auto; exfalso; unfold ccmp in E; simpl in E; rewrite (oc_refl _ icmp_ok) in E; congruence. }
              apply (cmp_eqb_eq _ ccmp_ok) in H. congruence. }
            specialize (IH (y :: pre) x (- c) t true Hn' HP' f g). simpl in IH. rewrite <- app_assoc in IH. simpl in IH.
            destruct (pass rec (y :: pre) x rest (- c) t true); auto; rewrite IH, Hneq; ring.
      Qed.
    End PassSem.

    (** preservation of an invariant of the target map *)
    Lemma pass_inv (I : omap S -> Prop) (Q : cop -> Prop) pre x rest c t sw :
      (forall m c t t', Forall Q m -> c <> k0 -> I t -> rec m c t = Some t' -> I t') ->
      Forall Q (rev pre ++ x :: rest) -> c <> k0 -> I t ->
      match pass rec pre x rest c t sw with
      | PZero t' => I t'
      | PDone _ _ t' _ => I t'
      | PFuel => True
      end.
    Proof.
      intros Hrec. revert pre x c t sw. induction rest as [|y rest IH]; intros pre x c t sw HQ Hc Ht; simpl; [auto|].
      destruct (ccmp x y) eqn:E; auto.
      - apply IH; auto. simpl. rewrite <- app_assoc. exact HQ.
      - assert (HQ' : Forall Q (rev (y :: pre) ++ x :: rest)).
        { simpl. rewrite <- app_assoc. simpl. rewrite Forall_app in *.
          destruct HQ as [H1 H2]. split; auto. inversion H2 as [|? ? Hx H3]; subst. inversion H3; subst.
          constructor; auto. }
        assert (Hc' : - c <> k0) by (intros E2; apply (kopp_0 S L) in E2; auto).
        destruct (cmp_eqb ccmp x (flip y)).
        + destruct (rec (rev pre ++ rest) c t) as [t1|] eqn:Er; [|exact I0 || trivial].
          apply IH; auto. eapply Hrec; [| |exact Ht|exact Er]; auto.
          rewrite Forall_app in *. destruct HQ as [H1 H2]. split; auto.
          inversion H2 as [|? ? _ H3]; subst. inversion H3; auto.
        + apply IH; auto.
    Qed.

    (** the recursion budget suffices *)
    Lemma pass_total pre x rest c t sw n :
      Datatypes.length (rev pre ++ x :: rest) = n ->
      (forall m c t, (Datatypes.length m + 2 = n)%nat -> rec m c t <> None) ->
      pass rec pre x rest c t sw <> PFuel.
    Proof.
      intros Hn Hrec. revert pre x c t sw Hn. induction rest as [|y rest IH]; intros pre x c t sw Hn; simpl; [congruence|].
      assert (Hn' : Datatypes.length (rev (y :: pre) ++ x :: rest) = n).
      { simpl. rewrite <- app_assoc. simpl. rewrite <- Hn, !app_length. reflexivity. }
      destruct (ccmp x y) eqn:E; [congruence| |].
      - apply IH. simpl. rewrite <- app_assoc. exact Hn.
      - destruct (cmp_eqb ccmp x (flip y)).
        + destruct (rec (rev pre ++ rest) c t) as [t1|] eqn:Er; [apply IH; auto|].
          exfalso. eapply Hrec; [|exact Er]. rewrite app_length in *. simpl in Hn. lia.
        + apply IH; auto.
    Qed.
  End PassProofs.

  (** ---- number of inversions: bubble sort terminates ---- *)
  Definition cgtb (x y : cop) : bool := match ccmp x y with Gt => true | _ => false end.
  Fixpoint inversions (m : monomial) : nat :=
    match m with
    | [] => 0
    | x :: m' => (Datatypes.length (filter (cgtb x) m') + inversions m')%nat
    end.
  Lemma filter_length_le {A} (p : A -> bool) l : Datatypes.length (filter p l) <= Datatypes.length l.
  Proof. induction l as [|x l IH]; simpl; [lia|]. destruct (p x); simpl; lia. Qed.
  Lemma filter_length_perm {A} (p : A -> bool) l l' : Permutation l l' -> Datatypes.length (filter p l) = Datatypes.length (filter p l').
  Proof.
    induction 1; simpl; auto.
    - destruct (p x); simpl; auto.
    - destruct (p x), (p y); simpl; auto.
    - congruence.
  Qed.
  Lemma inversions_bound m : (inversions m <= Datatypes.length m * Datatypes.length m)%nat.
  Proof.
    induction m as [|x m IH]; simpl; [lia|].
    pose proof (filter_length_le (cgtb x) m). nia.
  Qed.
  Lemma inversions_swap pre x y post : ccmp x y = Gt ->
    inversions (pre ++ x :: y :: post) = Datatypes.S (inversions (pre ++ y :: x :: post)).
  Proof.
    intros E. induction pre as [|z pre IH]; simpl.
    - assert (E2 : ccmp y x = Lt) by (apply (oc_gt_lt _ ccmp_ok); exact E).
      assert (cgtb x y = true) as -> by (unfold cgtb; rewrite E; reflexivity).
      assert (cgtb y x = false) as -> by (unfold cgtb; rewrite E2; reflexivity). simpl. lia.
    - rewrite IH. rewrite (filter_length_perm (cgtb z) (pre ++ x :: y :: post) (pre ++ y :: x :: post)); [lia|].
      apply Permutation_app_head. apply perm_swap.
  Qed.
  Lemma pass_inversions rec pre x rest (c : S) t sw m' c' t' sw' :
    pass rec pre x rest c t sw = PDone m' c' t' sw' ->
    inversions m' <= inversions (rev pre ++ x :: rest) /\
    (sw = false -> sw' = true -> inversions m' < inversions (rev pre ++ x :: rest)).
  Proof.
    revert pre x c t sw. induction rest as [|y rest IH]; intros pre x c t sw; simpl.
    - intros H; injection H as <- _ _ <-. split; [lia|congruence].
    - destruct (ccmp x y) eqn:E; [congruence| |].
      + intros H. apply IH in H. simpl in H. rewrite <- app_assoc in H. exact H.
      + destruct (if cmp_eqb ccmp x (flip y) then _ else _); [|congruence].
        intros H. apply IH in H. simpl in H. rewrite <- app_assoc in H. simpl in H.
        rewrite (inversions_swap _ _ _ _ E). split; intros; lia.
  Qed.

  Lemma passes_total rec fuel m (c : S) t :
    inversions m < fuel ->
    (forall m' c t, (Datatypes.length m' + 2 = Datatypes.length m)%nat -> rec m' c t <> None) ->
    passes rec fuel m c t <> None.
  Proof.
    revert m c t. induction fuel as [|fuel IH]; intros m c t Hf Hrec; [lia|]. simpl.
    destruct m as [|x rest]; [congruence|].
    destruct (pass rec [] x rest c t false) as [t'|m' c' t' sw|] eqn:E.
    - congruence.
    - destruct sw; [|congruence].
      pose proof (pass_inversions _ _ _ _ _ _ _ _ _ _ _ E) as [_ Hlt]. simpl in Hlt.
      pose proof (pass_perm _ _ _ _ _ _ _ _ _ _ _ E) as Hp. simpl in Hp.
      apply IH; [simpl in Hf; specialize (Hlt eq_refl eq_refl); lia|].
      intros m2 c2 t2 Hl. apply Hrec. rewrite (Permutation_length Hp) in Hl. exact Hl.
    - exfalso. eapply pass_total; [| |exact E]; [reflexivity|]. exact Hrec.
  Qed.

  Lemma normalize_fuel_total d m (c : S) t : Datatypes.length m <= d -> normalize_fuel d m c t <> None.
  Proof.
    revert m c t. induction d as [|d IH]; intros m c t Hd; cbn [normalize_fuel];
      (apply passes_total; [pose proof (inversions_bound m); lia|]); intros m' c' t' Hl.
    - lia.
    - apply IH. lia.
  Qed.

  (** ---- semantics of normal ordering ---- *)
  Section Sem2.
    Variable pos : indices -> nat.
    Variable P : indices -> Prop.
    Hypothesis Hinj : forall i j, P i -> P j -> pos i = pos j -> i = j.
    Notation mel := (@mel pos S).
    Notation mel_mono := (@mel_mono pos S).

    Lemma passes_sem rec fuel m (c : S) t t' :
      (forall m' c t t', (Datatypes.length m' + 2 = Datatypes.length m)%nat -> mono_on P m' -> rec m' c t = Some t' ->
         forall f g, mel t' f g = mel t f g + c * mel_mono m' f g) ->
      mono_on P m -> passes rec fuel m c t = Some t' ->
      forall f g, mel t' f g = mel t f g + c * mel_mono m f g.
    Proof.
      revert m c t. induction fuel as [|fuel IH]; intros m c t Hrec HP; simpl; [congruence|].
      destruct m as [|x rest].
      - intros H f g; injection H as <-. apply mel_put_or; auto.
      - pose proof (pass_sem rec pos P Hinj _ Hrec [] x rest c t false eq_refl HP) as Hps.
        destruct (pass rec [] x rest c t false) as [t1|m1 c1 t1 sw|] eqn:E; [| |congruence].
        + intros H; injection H as <-. exact Hps.
        + pose proof (pass_perm _ _ _ _ _ _ _ _ _ _ _ E) as Hp. simpl in Hp, Hps.
          destruct sw.
          * intros H f g. rewrite <- Hps. eapply IH; [| |exact H].
            -- intros m2 c2 t2 t2' Hl. apply Hrec. rewrite (Permutation_length Hp) in Hl. exact Hl.
            -- unfold mono_on. rewrite Hp. exact HP.
          * intros H f g; injection H as <-. rewrite <- Hps. apply mel_put_or; auto.
    Qed.

    Lemma normalize_fuel_sem d m (c : S) t t' :
      mono_on P m -> normalize_fuel d m c t = Some t' ->
      forall f g, mel t' f g = mel t f g + c * mel_mono m f g.
    Proof.
      revert m c t t'. induction d as [|d IH]; intros m c t t' HP; cbn [normalize_fuel]; intros H.
      - eapply passes_sem; [| exact HP | exact H]. intros; congruence.
      - eapply passes_sem; [| exact HP | exact H]. intros; eapply IH; eauto.
    Qed.
  End Sem2.

  (** ---- normal form is reached ---- *)
  Lemma passes_inv (I : omap S -> Prop) (Q : cop -> Prop) rec fuel m (c : S) t t' :
    (forall m c t t', Forall Q m -> c <> k0 -> I t -> rec m c t = Some t' -> I t') ->
    (forall m (c : S) t, Forall Q m -> normal m -> c <> k0 -> I t -> I (put_or (fun c0 => c0 + c) m c t)) ->
    Forall Q m -> c <> k0 -> I t -> passes rec fuel m c t = Some t' -> I t'.
  Proof.
    intros Hrec Hput. revert m c t. induction fuel as [|fuel IH]; intros m c t HQ Hc Ht; simpl; [congruence|].
    destruct m as [|x rest].
    - intros H; injection H as <-. apply Hput; auto. constructor.
    - pose proof (pass_inv rec I Q [] x rest c t false Hrec HQ Hc Ht) as Hi.
      destruct (pass rec [] x rest c t false) as [t1|m1 c1 t1 sw|] eqn:E; [| |congruence].
      + intros H; injection H as <-. exact Hi.
      + pose proof (pass_perm _ _ _ _ _ _ _ _ _ _ _ E) as Hp. simpl in Hp.
        pose proof (pass_coef _ _ _ _ _ _ _ _ _ _ _ E Hc) as Hc1.
        assert (HQ1 : Forall Q m1) by (rewrite Hp; exact HQ).
        destruct sw.
        * intros H. eapply IH; [| | |exact H]; auto.
        * intros H; injection H as <-. apply Hput; auto.
          apply pass_noswap in E. destruct E as (-> & -> & -> & Hs). simpl.
          apply Sorted_StronglySorted; [|exact Hs]. intros u v w. apply (oc_trans _ ccmp_ok).
  Qed.
  Lemma normalize_fuel_inv (I : omap S -> Prop) (Q : cop -> Prop) d m (c : S) t t' :
    (forall m (c : S) t, Forall Q m -> normal m -> c <> k0 -> I t -> I (put_or (fun c0 => c0 + c) m c t)) ->
    Forall Q m -> c <> k0 -> I t -> normalize_fuel d m c t = Some t' -> I t'.
  Proof.
    intros Hput. revert m c t t'. induction d as [|d IH]; intros m c t t' HQ Hc Ht; cbn [normalize_fuel]; intros H;
      (eapply passes_inv; [| exact Hput | exact HQ | exact Hc | exact Ht | exact H]); intros; [congruence|eauto].
  Qed.

  (** summary for normalize_and_insert *)
  Lemma normalize_total m (c : S) t : exists t', normalize_and_insert m c t = Some t'.
  Proof.
    unfold normalize_and_insert. destruct (normalize_fuel (Datatypes.length m) m c t) as [t'|] eqn:E; [eauto|].
    exfalso. eapply normalize_fuel_total; [|exact E]. lia.
  Qed.
  Lemma normalize_wf m (c : S) t t' : c <> k0 -> wf t -> normalize_and_insert m c t = Some t' -> wf t'.
  Proof.
    intros Hc Ht H.
    eapply (normalize_fuel_inv wf (fun _ => True)); [| |exact Hc|exact Ht|exact H].
    - intros. apply put_or_wf; auto.
    - apply Forall_forall. auto.
  Qed.
  Lemma normalize_on P m (c : S) t t' : c <> k0 -> mono_on P m -> op_on P t -> normalize_and_insert m c t = Some t' -> op_on P t'.
  Proof.
    intros Hc Hm Ht H.
    eapply (normalize_fuel_inv (op_on P) (fun o => P (ind o))); [|exact Hm|exact Hc|exact Ht|exact H].
    intros. apply put_or_on; auto.
  Qed.
  Lemma normalize_sem pos (P : indices -> Prop) m (c : S) t t' :
    (forall i j, P i -> P j -> pos i = pos j -> i = j) ->
    mono_on P m -> normalize_and_insert m c t = Some t' ->
    forall f g, mel pos t' f g = mel pos t f g + c * mel_mono pos m f g.
  Proof. intros Hinj Hm H. eapply normalize_fuel_sem; eauto. Qed.
End Normal.
