(** Proofs for the operator algebra (C07 - C13). *)
From Coq Require Import ZArith NArith List Bool Lia Ring Permutation Sorted.
From Verif Require Import Base Indices Scalar Fock FockFacts OpModel OpExpr OpNormal OpUnique.
Import ListNotations.

Section Sums.
  Context (S : scalar_ops) (L : scalar_laws S).
  Local Open Scope K_scope.
  Add Ring Kring5 : (sl_ring S L).

  (** sum over the terms of an operator *)
  Fixpoint lsum (F : monomial -> S) (a : omap S) : S :=
    match a with [] => k0 | (m, c) :: a' => c * F m + lsum F a' end.
  Lemma mel_lsum pos a f g : mel pos a f g = lsum (fun m => mel_mono pos m f g) a.
  Proof. induction a as [|[m c] a IH]; simpl; [reflexivity|]. rewrite IH. reflexivity. Qed.
  Lemma lsum_ext F G a : (forall m, F m = G m) -> lsum F a = lsum G a.
  Proof. intros H. induction a as [|[m c] a IH]; simpl; [reflexivity|]. rewrite H, IH. reflexivity. Qed.
  Lemma lsum_ext_in F G (a : omap S) : (forall m c, In (m, c) a -> F m = G m) -> lsum F a = lsum G a.
  Proof. intros H. induction a as [|[m c] a IH]; simpl; [reflexivity|]. rewrite (H m c) by (left; auto). rewrite IH; auto. intros; eapply H; right; eauto. Qed.
  Lemma lsum_put_new F m (c : S) t : m_find m t = None -> lsum F (m_put m c t) = lsum F t + c * F m.
  Proof.
    induction t as [|[m' c'] t IH]; simpl; intros H; [ring|].
    destruct (mcmp m m') eqn:E; simpl; [congruence|ring|]. rewrite IH by auto. ring.
  Qed.
  Lemma lsum_add F G a : lsum (fun m => F m + G m) a = lsum F a + lsum G a.
  Proof. induction a as [|[m c] a IH]; simpl; [ring|]. rewrite IH. ring. Qed.
  Lemma lsum_scal x F a : lsum (fun m => x * F m) a = x * lsum F a.
  Proof. induction a as [|[m c] a IH]; simpl; [ring|]. rewrite IH. ring. Qed.
  Lemma lsum_zero a : lsum (fun _ => k0) a = k0.
  Proof. induction a as [|[m c] a IH]; simpl; [ring|]. rewrite IH. ring. Qed.
  Lemma lsum_exchange (F : monomial -> monomial -> S) a b :
    lsum (fun m => lsum (fun m' => F m m') b) a = lsum (fun m' => lsum (fun m => F m m') a) b.
  Proof.
    induction a as [|[m c] a IH]; simpl.
    - symmetry. apply lsum_zero.
    - rewrite IH. rewrite lsum_add, lsum_scal. reflexivity.
  Qed.

  (** vectors with the same amplitudes are interchangeable *)
  Definition veq (v w : list (S * N)) : Prop := forall g, amp v g = amp w g.
  Fixpoint dsum (F : N -> S) (v : list (S * N)) (D : list N) : S :=
    match D with [] => k0 | g :: D' => amp v g * F g + dsum F v D' end.
  Lemma dsum_cons_out F x f v D : ~ In f D -> dsum F ((x, f) :: v) D = dsum F v D.
  Proof.
    induction D as [|g D IH]; simpl; intros H; [reflexivity|].
    rewrite IH by tauto. destruct (N.eqb_spec f g); [exfalso; apply H; auto|]. ring.
  Qed.
  Lemma dsum_cons_in F x f v D : NoDup D -> In f D -> dsum F ((x, f) :: v) D = x * F f + dsum F v D.
  Proof.
    induction D as [|g D IH]; simpl; intros Hn H; [tauto|]. inversion Hn as [|? ? Hni Hn']; subst.
    destruct (N.eqb_spec f g) as [->|Hne].
    - rewrite dsum_cons_out by auto. ring.
    - rewrite IH by (auto; destruct H; congruence). ring.
  Qed.
  Lemma vsum_dsum F v D : NoDup D -> (forall x f, In (x, f) v -> In f D) -> vsum S F v = dsum F v D.
  Proof.
    intros Hn. induction v as [|[x f] v IH]; simpl; intros H.
    - clear H Hn. induction D as [|g D IHD]; simpl; [reflexivity|]. rewrite <- IHD. ring.
    - rewrite dsum_cons_in; auto; [|eapply H; left; eauto]. rewrite IH; [reflexivity|]. intros; eapply H; right; eauto.
  Qed.
  Lemma dsum_ext F v w D : veq v w -> dsum F v D = dsum F w D.
  Proof. intros H. induction D as [|g D IH]; simpl; [reflexivity|]. rewrite IH, (H g). reflexivity. Qed.
  Lemma vsum_veq F v w : veq v w -> vsum S F v = vsum S F w.
  Proof.
    intros H. set (D := nodup N.eq_dec (map snd (v ++ w))).
    assert (HD : forall x f, In (x, f) (v ++ w) -> In f D).
    { intros x f Hin. apply nodup_In. apply (in_map snd) in Hin. exact Hin. }
    rewrite (vsum_dsum F v D), (vsum_dsum F w D); try apply NoDup_nodup.
    - apply dsum_ext. exact H.
    - intros x f Hin. apply (HD x). apply in_or_app. auto.
    - intros x f Hin. apply (HD x). apply in_or_app. auto.
  Qed.
  Lemma apply_veq pos (a : omap S) v w : veq v w -> veq (apply pos a v) (apply pos a w).
  Proof. intros H g. rewrite !(amp_apply pos S L). apply vsum_veq. exact H. Qed.
  Lemma apply_mono_veq pos m (c : S) v w : veq v w -> veq (apply_mono pos m c v) (apply_mono pos m c w).
  Proof. intros H g. rewrite !(amp_apply_mono pos S L). f_equal. apply vsum_veq. exact H. Qed.
  Lemma amp_scale (x : S) v g : amp (scale x v) g = x * amp v g.
  Proof. unfold scale. induction v as [|[y f] v IH]; simpl; [ring|]. rewrite IH. destruct (N.eqb f g); ring. Qed.
  Lemma scale_veq (x : S) v w : veq v w -> veq (scale x v) (scale x w).
  Proof. intros H g. rewrite !amp_scale, (H g). reflexivity. Qed.
  Lemma app_veq v v' w w' : veq v v' -> veq w w' -> veq (v ++ w) (v' ++ w').
  Proof. intros H1 H2 g. rewrite !(amp_app S L), (H1 g), (H2 g). reflexivity. Qed.
  Lemma amp_vsum (v : list (S*N)) g : amp v g = vsum S (fun f => if N.eqb f g then k1 else k0) v.
  Proof. induction v as [|[x f] v IH]; simpl; [reflexivity|]. rewrite IH. destruct (N.eqb f g); ring. Qed.

  (** apply a (apply b v) *)
  Lemma apply_apply pos (a b : omap S) v g :
    amp (apply pos a (apply pos b v)) g =
    vsum S (fun f => lsum (fun m => lsum (fun m' => mel_mono pos (m ++ m') f g) b) a) v.
  Proof.
    unfold apply at 1. induction a as [|[m c] a IH]; simpl.
    - symmetry. apply (vsum_zero S L).
    - rewrite (amp_app S L), IH. rewrite (vsum_add S L). f_equal. clear IH a.
      unfold apply. induction b as [|[m' c'] b IH]; simpl.
      + transitivity (vsum S (fun _ => k0) v); [symmetry; apply (vsum_zero S L) | apply vsum_ext; intros; ring].
      + unfold apply_mono at 1. rewrite flat_map_app. fold (apply_mono pos m c (apply_mono pos m' c' v)).
        rewrite (amp_app S L). fold (apply_mono pos m c (flat_map (fun mc => apply_mono pos (fst mc) (snd mc) v) b)).
        rewrite IH. rewrite <- (apply_mono_comp pos S L), (amp_apply_mono pos S L).
        rewrite <- (vsum_scal S L), <- (vsum_add S L). apply vsum_ext. intros f. ring.
  Qed.
End Sums.
Arguments veq {S} v w.

Section Ops.
  Context (S : scalar_ops) (L : scalar_laws S).
  Local Open Scope K_scope.
  Add Ring Kring6 : (sl_ring S L).

  Lemma normal_nil : normal []. Proof. constructor. Qed.
  Lemma normal_one o : normal [o]. Proof. repeat constructor. Qed.
  Lemma kopp_nz (c : S) : c <> k0 -> - c <> k0.
  Proof. intros H E. apply H. apply (kopp_0 S L). exact E. Qed.

  (** ---- well-formedness ---- *)
  Lemma op_scalar_wf (x : S) : wf (op_scalar x).
  Proof.
    unfold op_scalar. destruct (kisz x) eqn:E; [apply wf_nil|]. simpl.
    apply (wf_put S [] x []); [apply wf_nil|apply normal_nil|apply (kisz_false S L); auto].
  Qed.
  Lemma op_canonical_wf d i : wf (op_canonical S d i).
  Proof. unfold op_canonical. simpl. apply (wf_put S [mkCop d i] k1 []); [apply wf_nil|apply normal_one|apply (sl_nontrivial S L)]. Qed.
  Lemma op_neg_wf (a : omap S) : wf a -> wf (op_neg a).
  Proof.
    intros [Hs Hf]. split.
    - clear Hf. unfold keys_sorted in *. induction Hs as [|x a Hs IH Hall]; simpl; constructor; auto.
      apply Forall_forall. intros y Hy. apply in_map_iff in Hy. destruct Hy as (z & <- & Hz).
      rewrite Forall_forall in Hall. exact (Hall z Hz).
    - unfold op_neg. rewrite Forall_map. eapply Forall_impl; [|exact Hf]. simpl. intros mc [H1 H2]. split; auto using kopp_nz.
  Qed.
  Lemma op_mul_scalar_wf (a : omap S) x : wf a -> wf (op_mul_scalar a x).
  Proof.
    intros [Hs Hf]. unfold op_mul_scalar. destruct (kisz x) eqn:E; [apply wf_nil|].
    apply (kisz_false S L) in E. split.
    - clear Hf. unfold keys_sorted in *. induction Hs as [|y a Hs IH Hall]; simpl; constructor; auto.
      apply Forall_forall. intros y' Hy. apply in_map_iff in Hy. destruct Hy as (z & <- & Hz).
      rewrite Forall_forall in Hall. exact (Hall z Hz).
    - rewrite Forall_map. eapply Forall_impl; [|exact Hf]. simpl. intros mc [H1 H2]. split; auto.
      intros E2. destruct (sl_integral S L _ _ E2); auto.
  Qed.
  Lemma op_add_scalar_wf (a : omap S) x : wf a -> wf (op_add_scalar a x).
  Proof.
    intros H. unfold op_add_scalar. destruct (kisz x) eqn:E; auto. apply (kisz_false S L) in E.
    apply (put_or_wf S L); auto using normal_nil.
  Qed.
  Lemma op_add_wf (a b : omap S) : wf a -> wf b -> wf (op_add a b).
  Proof.
    intros Ha [_ Hb]. unfold op_add. revert a Ha. induction b as [|[m c] b IH]; simpl; intros a Ha; auto.
    inversion Hb as [|? ? [H1 H2] Hb']; subst. apply IH; auto. apply (put_or_wf S L); auto.
  Qed.
  Lemma op_sub_wf (a b : omap S) : wf a -> wf b -> wf (op_sub a b).
  Proof.
    intros Ha [_ Hb]. unfold op_sub. revert a Ha. induction b as [|[m c] b IH]; simpl; intros a Ha; auto.
    inversion Hb as [|? ? [H1 H2] Hb']; subst. apply IH; auto. apply (put_or_wf S L); auto using kopp_nz.
  Qed.

  (** products: the double loop *)
  Definition mul_row (m : monomial) (c : S) (b : omap S) (t : option (omap S)) : option (omap S) :=
    fold_left (fun t mc' => match t with
        | None => None
        | Some t => normalize_and_insert (m ++ fst mc') (c * snd mc') t
        end) b t.
  Lemma mul_row_spec m (c : S) b t : c <> k0 -> Forall (fun mc => snd mc <> k0) b -> wf t ->
    exists t', mul_row m c b (Some t) = Some t' /\ wf t' /\
      (forall P : indices -> Prop, mono_on P m -> op_on P b -> op_on P t -> op_on P t') /\
      (forall (pos : indices -> nat) (P : indices -> Prop), (forall i j, P i -> P j -> pos i = pos j -> i = j) -> mono_on P m -> op_on P b ->
         forall f g, mel pos t' f g = mel pos t f g + c * lsum S (fun m' => mel_mono pos (m ++ m') f g) b).
  Proof.
    intros Hc. unfold mul_row. revert t. induction b as [|[m' c'] b IH]; intros t Hb Ht; simpl.
    - exists t. repeat split; try apply Ht; auto. intros. ring.
    - inversion Hb as [|? ? Hc' Hb']; subst. simpl in Hc'.
      destruct (normalize_total S (m ++ m') (c * c') t) as (t1 & E1). rewrite E1.
      assert (Hcc : c * c' <> k0) by (intros E; destruct (sl_integral S L _ _ E); auto).
      pose proof (normalize_wf S L _ _ _ _ Hcc Ht E1) as Ht1.
      destruct (IH t1 Hb' Ht1) as (t2 & E2 & Ht2 & Hon & Hsem). exists t2.
      assert (Hmm : forall P : indices -> Prop, mono_on P m -> mono_on P m' -> mono_on P (m ++ m')).
      { intros P H1 H2. unfold mono_on. rewrite Forall_app. auto. }
      repeat split; auto; try apply Ht2.
      + intros P HPm HPb HPt. inversion HPb as [|? ? HPm' HPb']; subst. simpl in HPm'. apply Hon; auto.
        exact (normalize_on S L P _ _ _ _ Hcc (Hmm P HPm HPm') HPt E1).
      + intros pos P Hinj HPm HPb f g. inversion HPb as [|? ? HPm' HPb']; subst. simpl in HPm'.
        rewrite (Hsem pos P) by auto.
        rewrite (normalize_sem S L pos P _ _ _ _ Hinj (Hmm P HPm HPm') E1). ring.
  Qed.
  Lemma op_mul_spec (a b : omap S) : wf a -> wf b ->
    exists t', op_mul a b = Some t' /\ wf t' /\
      (forall P : indices -> Prop, op_on P a -> op_on P b -> op_on P t') /\
      (forall (pos : indices -> nat) (P : indices -> Prop), (forall i j, P i -> P j -> pos i = pos j -> i = j) -> op_on P a -> op_on P b ->
         forall f g, mel pos t' f g = lsum S (fun m => lsum S (fun m' => mel_mono pos (m ++ m') f g) b) a).
  Proof.
    intros [_ Ha] [_ Hb].
    assert (Hb0 : Forall (fun mc : monomial * S => snd mc <> k0) b) by (eapply Forall_impl; [|exact Hb]; simpl; tauto).
    change (op_mul a b) with (fold_left (fun t mc => mul_row (fst mc) (snd mc) b t) a (Some [])).
    assert (G : forall t, wf t -> exists t', fold_left (fun t mc => mul_row (fst mc) (snd mc) b t) a (Some t) = Some t' /\ wf t' /\
      (forall P : indices -> Prop, op_on P a -> op_on P b -> op_on P t -> op_on P t') /\
      (forall (pos : indices -> nat) (P : indices -> Prop), (forall i j, P i -> P j -> pos i = pos j -> i = j) -> op_on P a -> op_on P b ->
         forall f g, mel pos t' f g = mel pos t f g + lsum S (fun m => lsum S (fun m' => mel_mono pos (m ++ m') f g) b) a)).
    { induction a as [|[m c] a IH]; intros t Ht.
      - exists t. repeat split; try apply Ht; auto. intros. simpl. ring.
      - inversion Ha as [|? ? [_ Hc] Ha']; subst. simpl in Hc.
        destruct (mul_row_spec m c b t Hc Hb0 Ht) as (t1 & E1 & Ht1 & Hon1 & Hsem1).
        destruct (IH Ha' t1 Ht1) as (t2 & E2 & Ht2 & Hon2 & Hsem2). exists t2.
        cbn [fold_left fst snd]. rewrite E1. repeat split; auto; try apply Ht2.
        + intros P HPa HPb HPt. inversion HPa as [|? ? HPm HPa']; subst. apply Hon2; auto.
        + intros pos P Hinj HPa HPb f g. inversion HPa as [|? ? HPm HPa']; subst. simpl in HPm.
          rewrite (Hsem2 pos P) by auto. rewrite (Hsem1 pos P) by auto. simpl. ring. }
    destruct (G [] (wf_nil S)) as (t' & E & Ht' & Hon & Hsem). exists t'. repeat split; auto; try apply Ht'.
    - intros. apply Hon; auto. constructor.
    - intros. rewrite (Hsem pos P) by auto. simpl. ring.
  Qed.

  (** ---- matrix elements of the linear operations ---- *)
  Section Lin.
    Variable pos : indices -> nat.
    Notation mel := (@mel pos S).
    Lemma mel_scalar x f g : mel (op_scalar x) f g = if N.eqb f g then x else k0.
    Proof.
      unfold op_scalar. destruct (kisz x) eqn:E; simpl.
      - apply (sl_isz S L) in E. subst. destruct (N.eqb f g); reflexivity.
      - unfold mel_mono; simpl. destruct (N.eqb f g); ring.
    Qed.
    Lemma mel_canonical d i f g : mel (op_canonical S d i) f g = mel_mono pos [mkCop d i] f g.
    Proof. simpl. ring. Qed.
    Lemma mel_neg a f g : mel (op_neg a) f g = - mel a f g.
    Proof. unfold op_neg. induction a as [|[m c] a IH]; simpl; [ring|]. rewrite IH. ring. Qed.
    Lemma mel_mul_scalar a x f g : mel (op_mul_scalar a x) f g = x * mel a f g.
    Proof.
      unfold op_mul_scalar. destruct (kisz x) eqn:E.
      - apply (sl_isz S L) in E. subst. simpl. ring.
      - induction a as [|[m c] a IH]; simpl; [ring|]. rewrite IH. ring.
    Qed.
    Lemma mel_add_scalar a x f g : mel (op_add_scalar a x) f g = mel a f g + (if N.eqb f g then x else k0).
    Proof.
      unfold op_add_scalar. destruct (kisz x) eqn:E.
      - apply (sl_isz S L) in E. subst. destruct (N.eqb f g); ring.
      - rewrite (mel_put_or S L pos _ [] x x); auto. unfold mel_mono; simpl. destruct (N.eqb f g); ring.
    Qed.
    Lemma mel_add a b f g : mel (op_add a b) f g = mel a f g + mel b f g.
    Proof.
      unfold op_add. revert a. induction b as [|[m c] b IH]; intros a; simpl; [ring|].
      rewrite IH, (mel_put_or S L pos _ m c c); auto. ring.
    Qed.
    Lemma mel_sub a b f g : mel (op_sub a b) f g = mel a f g - mel b f g.
    Proof.
      unfold op_sub. revert a. induction b as [|[m c] b IH]; intros a; simpl; [ring|].
      rewrite IH, (mel_put_or S L pos _ m (- c) (- c)); auto; [ring|]. intros; ring.
    Qed.
  End Lin.

  (** ---- indices ---- *)
  Lemma op_scalar_on P (x : S) : op_on P (op_scalar x).
  Proof. unfold op_scalar. destruct (kisz x); simpl; repeat constructor. Qed.
  Lemma op_canonical_on (P : indices -> Prop) d i : P i -> op_on P (op_canonical S d i).
  Proof. intros. simpl. repeat constructor. auto. Qed.
  Lemma op_neg_on P (a : omap S) : op_on P a -> op_on P (op_neg a).
  Proof. unfold op_on, op_neg. rewrite Forall_map. auto. Qed.
  Lemma op_mul_scalar_on P (a : omap S) x : op_on P a -> op_on P (op_mul_scalar a x).
  Proof. unfold op_on, op_mul_scalar. destruct (kisz x); [constructor|]. rewrite Forall_map. auto. Qed.
  Lemma op_add_scalar_on P (a : omap S) x : op_on P a -> op_on P (op_add_scalar a x).
  Proof. intros. unfold op_add_scalar. destruct (kisz x); auto. apply put_or_on; auto. constructor. Qed.
  Lemma op_add_on P (a b : omap S) : op_on P a -> op_on P b -> op_on P (op_add a b).
  Proof.
    intros Ha Hb. unfold op_add. revert a Ha. induction b as [|[m c] b IH]; simpl; intros a Ha; auto.
    inversion Hb as [|? ? H1 Hb']; subst. apply IH; auto. apply put_or_on; auto.
  Qed.
  Lemma op_sub_on P (a b : omap S) : op_on P a -> op_on P b -> op_on P (op_sub a b).
  Proof.
    intros Ha Hb. unfold op_sub. revert a Ha. induction b as [|[m c] b IH]; simpl; intros a Ha; auto.
    inversion Hb as [|? ? H1 Hb']; subst. apply IH; auto. apply put_or_on; auto.
  Qed.

  (** ---- dagger ---- *)
  Lemma mono_dagger_mdag m : mono_dagger m = mdag m.
  Proof. reflexivity. Qed.
  Lemma flip_clt x y : clt x y -> clt (flip y) (flip x).
  Proof.
    destruct x as [dx ix], y as [dy iy]. unfold clt, ccmp, flip; cbn [dag ind].
    destruct dx, dy; simpl; auto.
  Qed.
  Lemma SSorted_app {A} (R : A -> A -> Prop) l1 l2 :
    StronglySorted R l1 -> StronglySorted R l2 -> (forall x y, In x l1 -> In y l2 -> R x y) -> StronglySorted R (l1 ++ l2).
  Proof.
    induction 1 as [|x l Hs IH Hall]; simpl; intros H2 Hc; auto. constructor.
    - apply IH; auto.
    - apply Forall_app. split; auto. apply Forall_forall. auto.
  Qed.
  Lemma normal_dagger m : normal m -> normal (mono_dagger m).
  Proof.
    unfold normal, mono_dagger. induction 1 as [|x m Hs IH Hall]; simpl; [constructor|].
    apply SSorted_app; auto; [repeat constructor|].
    intros u v Hu [<-|[]]. apply in_rev, in_map_iff in Hu. destruct Hu as (w & <- & Hw).
    apply flip_clt. rewrite Forall_forall in Hall. auto.
  Qed.
  Lemma mono_dagger_inj m m' : mono_dagger m = mono_dagger m' -> m = m'.
  Proof. intros E. rewrite <- (mdag_mdag m), <- (mdag_mdag m'). f_equal. exact E. Qed.
  Lemma mono_dagger_on P m : mono_on P m -> mono_on P (mono_dagger m).
  Proof. unfold mono_on, mono_dagger. intros H. apply Forall_rev. rewrite Forall_map. exact H. Qed.

  Lemma dagger_fold (a t : omap S) : wf a -> wf t ->
    (forall m c, In (m, c) a -> m_find (mono_dagger m) t = None) ->
    wf (fold_left (fun t mc => m_insert (mono_dagger (fst mc)) (kconj (snd mc)) t) a t) /\
    (forall F, lsum S F (fold_left (fun t mc => m_insert (mono_dagger (fst mc)) (kconj (snd mc)) t) a t) =
               lsum S F t + ksum (map (fun mc => kconj (snd mc) * F (mono_dagger (fst mc))) a)) /\
    (forall P, op_on P a -> op_on P t -> op_on P (fold_left (fun t mc => m_insert (mono_dagger (fst mc)) (kconj (snd mc)) t) a t)).
  Proof.
    intros [Hsa Hfa]. revert t. induction a as [|[m c] a IH]; intros t Ht Hfresh; simpl.
    - repeat split; try apply Ht; auto. intros. ring.
    - inversion Hsa as [|? ? Hsa' Hla]; subst. inversion Hfa as [|? ? [Hm Hc] Hfa']; subst. simpl in Hm, Hc.
      unfold m_insert at 2 4 6. rewrite (Hfresh m c) by (left; auto).
      destruct (IH Hsa' Hfa' (m_put (mono_dagger m) (kconj c) t)) as (H1 & H2 & H3).
      + apply wf_put; auto using normal_dagger. intros E. apply Hc. apply (kconj_inj S L). exact E.
      + intros m' c' Hin. rewrite m_find_put. destruct (mcmp (mono_dagger m') (mono_dagger m)) eqn:E.
        * exfalso. apply (oc_eq _ mcmp_ok), mono_dagger_inj in E. subst. rewrite Forall_forall in Hla.
          specialize (Hla _ Hin). unfold klt in Hla; simpl in Hla. rewrite (oc_refl _ mcmp_ok) in Hla. congruence.
        * apply (Hfresh m' c'). right; auto.
        * apply (Hfresh m' c'). right; auto.
      + split; [exact H1|]. split.
        * intros F. rewrite H2. rewrite (lsum_put_new S L) by (apply (Hfresh m c); left; auto). ring.
        * intros P HPa HPt. inversion HPa; subst. apply H3; auto. apply op_on_put; auto using mono_dagger_on.
  Qed.
  Lemma op_dagger_wf (a : omap S) : wf a -> wf (op_dagger a).
  Proof. intros H. apply (dagger_fold a []); auto using wf_nil. Qed.
  Lemma op_dagger_on P (a : omap S) : wf a -> op_on P a -> op_on P (op_dagger a).
  Proof. intros H HP. apply (dagger_fold a []); auto using wf_nil. constructor. Qed.
  Lemma op_dagger_lsum F (a : omap S) : wf a -> lsum S F (op_dagger a) = ksum (map (fun mc => kconj (snd mc) * F (mono_dagger (fst mc))) a).
  Proof.
    intros H. unfold op_dagger. destruct (dagger_fold a [] H (wf_nil S)) as (_ & H2 & _); [reflexivity|].
    rewrite H2. simpl. ring.
  Qed.
  Lemma ksum_conj (l : list S) : kconj (ksum l) = ksum (map kconj l).
  Proof. induction l as [|x l IH]; simpl; [apply (kconj_0 S L)|]. rewrite (sl_conj_add S L), IH. reflexivity. Qed.
  Lemma lsum_ksum F (a : omap S) : lsum S F a = ksum (map (fun mc => snd mc * F (fst mc)) a).
  Proof. induction a as [|[m c] a IH]; simpl; [reflexivity|]. rewrite IH. reflexivity. Qed.
  (** conjugate of a sum over terms *)
  Lemma lsum_dagger (F G : monomial -> S) (a : omap S) : wf a -> (forall m, F (mono_dagger m) = kconj (G m)) ->
    lsum S F (op_dagger a) = kconj (lsum S G a).
  Proof.
    intros H HFG. rewrite op_dagger_lsum by auto. rewrite lsum_ksum, ksum_conj, map_map. f_equal.
    apply map_ext. intros [m c]; simpl. rewrite (sl_conj_mul S L), HFG. reflexivity.
  Qed.
  Lemma mel_dagger pos (a : omap S) f g : wf a -> mel pos (op_dagger a) f g = kconj (mel pos a g f).
  Proof.
    intros H. rewrite !mel_lsum. apply lsum_dagger; auto. intros m.
    rewrite mono_dagger_mdag, mel_mono_adjoint. symmetry. apply (mel_mono_conj pos S L).
  Qed.

  (** ---- uniqueness ---- *)
  (** every finite set of indices has a numbering *)
  Fixpoint number (l : list indices) (i : indices) : nat :=
    match l with [] => 0%nat | j :: l' => if ieqb j i then 0%nat else Datatypes.S (number l' i) end.
  Lemma number_inj l i j : In i l -> In j l -> number l i = number l j -> i = j.
  Proof.
    induction l as [|k l IH]; simpl; [tauto|].
    destruct (ieqb k i) eqn:Ei, (ieqb k j) eqn:Ej; try (apply ieqb_eq in Ei); try (apply ieqb_eq in Ej); try congruence.
    intros [H1|H1] [H2|H2] E; try (apply ieqb_neq in Ei); try (apply ieqb_neq in Ej); try congruence. apply IH; auto.
  Qed.
  Definition op_inds (a : omap S) : list indices := flat_map (fun mc => map ind (fst mc)) a.
  Lemma op_inds_on (a : omap S) (P : indices -> Prop) : (forall i, In i (op_inds a) -> P i) -> op_on P a.
  Proof.
    intros H. apply Forall_forall. intros mc Hmc. apply Forall_forall. intros o Ho. apply H.
    unfold op_inds. apply in_flat_map. exists mc. split; auto. apply in_map. exact Ho.
  Qed.

  Lemma op_sub_nil (a b : omap S) : wf a -> wf b -> op_sub a b = [] -> a = b.
  Proof.
    intros Ha Hb E. apply (wf_coef_ext S L); auto. intros m.
    apply (ksub_0 S L). rewrite <- (coef_sub S L) by (apply Ha || apply Hb). rewrite E. reflexivity.
  Qed.
  Lemma op_sub_self_nil (a : omap S) : wf a -> op_sub a a = [].
  Proof.
    intros Ha. apply (wf_coef_ext S L); auto using op_sub_wf, wf_nil. intros m.
    rewrite (coef_sub S L) by apply Ha. unfold coef at 3. simpl. ring.
  Qed.
  Lemma op_eqb_eq (a b : omap S) : wf a -> wf b -> op_eqb a b = true <-> a = b.
  Proof.
    intros Ha Hb. unfold op_eqb. split.
    - intros H. apply op_sub_nil; auto. destruct (op_sub a b); [reflexivity|discriminate].
    - intros ->. rewrite op_sub_self_nil by auto. reflexivity.
  Qed.
  Lemma same_mel_eq pos (P : indices -> Prop) (a b : omap S) : (forall i j, P i -> P j -> pos i = pos j -> i = j) ->
    wf a -> wf b -> op_on P a -> op_on P b -> (forall f g, mel pos a f g = mel pos b f g) -> a = b.
  Proof.
    intros Hinj Ha Hb HPa HPb H. apply op_sub_nil; auto.
    apply (wf_zero_nil pos P Hinj S L); auto using op_sub_wf, op_sub_on.
    intros f g. rewrite mel_sub, H. ring.
  Qed.
  (** enough: for the canonical numbering of the indices that occur *)
  Lemma same_mel_eq' (a b : omap S) : wf a -> wf b ->
    (forall (pos : indices -> nat) (P : indices -> Prop), (forall i j, P i -> P j -> pos i = pos j -> i = j) ->
       op_on P a -> op_on P b -> forall f g, mel pos a f g = mel pos b f g) -> a = b.
  Proof.
    intros Ha Hb H. set (l := op_inds a ++ op_inds b).
    assert (Hn : forall i j, In i l -> In j l -> number l i = number l j -> i = j) by (apply number_inj).
    assert (HPa : op_on (fun i => In i l) a) by (apply op_inds_on; intros; apply in_or_app; auto).
    assert (HPb : op_on (fun i => In i l) b) by (apply op_inds_on; intros; apply in_or_app; auto).
    apply (same_mel_eq (number l) (fun i => In i l)); auto. exact (H _ _ Hn HPa HPb).
  Qed.

  (** ---- expressions ---- *)
  Lemma op_on_weaken (P Q : indices -> Prop) (a : omap S) : (forall i, P i -> Q i) -> op_on P a -> op_on Q a.
  Proof.
    intros H Ha. eapply Forall_impl; [|exact Ha]. intros mc Hmc. eapply Forall_impl; [|exact Hmc]. auto.
  Qed.
  Lemma eval_wf (e : expr S) : exists a, eval e = Some a /\ wf a /\ op_on (uses e) a.
  Proof.
    induction e as [x|i|i|i|e IH|e1 IH1 e2 IH2|e1 IH1 e2 IH2|e1 IH1 e2 IH2|e IH x|e IH x|x e IH|e IH x|e IH]; cbn [eval uses].
    - eexists; repeat split; try apply op_scalar_wf. apply op_scalar_on.
    - eexists; repeat split; try apply op_canonical_wf. apply op_canonical_on. reflexivity.
    - eexists; repeat split; try apply op_canonical_wf. apply op_canonical_on. reflexivity.
    - destruct (op_mul_spec (op_c_dag S i) (op_c S i)) as (t & E & Ht & Hon & _); try apply op_canonical_wf.
      exists t. repeat split; auto; try apply Ht. apply Hon; apply op_canonical_on; reflexivity.
    - destruct IH as (a & -> & Ha & HP). eexists; split; [reflexivity|]. auto using op_neg_wf, op_neg_on.
    - destruct IH1 as (a & -> & Ha & HPa). destruct IH2 as (b & -> & Hb & HPb). eexists; split; [reflexivity|].
      split; [auto using op_add_wf|]. apply op_add_on; [apply (op_on_weaken (uses e1))|apply (op_on_weaken (uses e2))]; auto.
    - destruct IH1 as (a & -> & Ha & HPa). destruct IH2 as (b & -> & Hb & HPb). eexists; split; [reflexivity|].
      split; [auto using op_sub_wf|]. apply op_sub_on; [apply (op_on_weaken (uses e1))|apply (op_on_weaken (uses e2))]; auto.
    - destruct IH1 as (a & -> & Ha & HPa). destruct IH2 as (b & -> & Hb & HPb).
      destruct (op_mul_spec a b Ha Hb) as (t & E & Ht & Hon & _). exists t. repeat split; auto; try apply Ht.
      apply Hon; [apply (op_on_weaken (uses e1))|apply (op_on_weaken (uses e2))]; auto.
    - destruct IH as (a & -> & Ha & HP). eexists; split; [reflexivity|]. auto using op_add_scalar_wf, op_add_scalar_on.
    - destruct IH as (a & -> & Ha & HP). eexists; split; [reflexivity|]. unfold op_sub_scalar. auto using op_add_scalar_wf, op_add_scalar_on.
    - destruct IH as (a & -> & Ha & HP). eexists; split; [reflexivity|]. unfold op_scalar_sub. auto using op_add_scalar_wf, op_add_scalar_on, op_neg_wf, op_neg_on.
    - destruct IH as (a & -> & Ha & HP). eexists; split; [reflexivity|]. auto using op_mul_scalar_wf, op_mul_scalar_on.
    - destruct IH as (a & -> & Ha & HP). eexists; split; [reflexivity|]. auto using op_dagger_wf, op_dagger_on.
  Qed.

  Section Den.
    Variable pos : indices -> nat.
    Lemma den_veq adj e v w : veq v w -> veq (@den S pos adj e v) (den pos adj e w).
    Proof.
      revert adj v w. induction e as [x|i|i|i|e IH|e1 IH1 e2 IH2|e1 IH1 e2 IH2|e1 IH1 e2 IH2|e IH x|e IH x|x e IH|e IH x|e IH];
        intros adj v w H; cbn [den]; unfold act1; auto using scale_veq, apply_mono_veq, app_veq.
      destruct adj; auto.
    Qed.

    (** the vector semantics of one operator, from its matrix elements *)
    Definition represents (a : omap S) (F : list (S * N) -> list (S * N)) : Prop := forall v, veq (apply pos a v) (F v).
    Lemma represents_intro a F : (forall v g, amp (F v) g = vsum S (fun f => mel pos a f g) v) -> represents a F.
    Proof. intros H v g. rewrite (amp_apply pos S L). symmetry. apply H. Qed.
    Lemma represents_amp a F v g : represents a F -> amp (F v) g = vsum S (fun f => mel pos a f g) v.
    Proof. intros H. rewrite <- (amp_apply pos S L). symmetry. apply H. Qed.

    Lemma vsum_neg F v : vsum S (fun f => - F f) v = - vsum S F v.
    Proof. induction v as [|[x f] v IH]; simpl; [ring|]. rewrite IH. ring. Qed.
    Lemma amp_eq_vsum x v g : x * amp v g = vsum S (fun f => if N.eqb f g then x else k0) v.
    Proof. induction v as [|[y f] v IH]; simpl; [ring|]. rewrite <- IH. destruct (N.eqb f g); ring. Qed.

    Definition conj_mel (adj : bool) (a : omap S) (f g : N) : S := if adj then kconj (mel pos a g f) else mel pos a f g.

    Lemma conj_mel_lsum_comp (adj : bool) (a b : omap S) (t : omap S) : wf a -> wf b ->
      (forall f g, mel pos t f g = lsum S (fun m => lsum S (fun m' => mel_mono pos (m ++ m') f g) b) a) ->
      forall v g, vsum S (fun f => conj_mel adj t f g) v =
      if adj then amp (apply pos (op_dagger b) (apply pos (op_dagger a) v)) g
      else amp (apply pos a (apply pos b v)) g.
    Proof.
      intros Ha Hb H v g. destruct adj; rewrite (apply_apply S L); apply vsum_ext; intros f; unfold conj_mel; rewrite H; auto.
      rewrite (lsum_exchange S L). symmetry. apply (lsum_dagger _ (fun m' => lsum S (fun m => mel_mono pos (m ++ m') g f) a)); auto.
      intros m'. apply (lsum_dagger _ (fun m => mel_mono pos (m ++ m') g f)); auto.
      intros m. rewrite !mono_dagger_mdag. rewrite (mel_mono_conj pos S L).
      transitivity (mel_mono pos (mdag (m ++ m')) f g : S); [|apply mel_mono_adjoint].
      f_equal. unfold mdag. rewrite map_app, rev_app_distr. reflexivity.
    Qed.

    Lemma eval_den (e : expr S) (Hinj : forall i j, uses e i -> uses e j -> pos i = pos j -> i = j) :
      forall a, eval e = Some a -> forall adj v g, amp (den pos adj e v) g = vsum S (fun f => conj_mel adj a f g) v.
    Proof.
      induction e as [x|i|i|i|e IH|e1 IH1 e2 IH2|e1 IH1 e2 IH2|e1 IH1 e2 IH2|e IH x|e IH x|x e IH|e IH x|e IH]; cbn [eval uses] in *; intros a Ea adj v g.
      - injection Ea as <-. cbn [den]. rewrite (amp_scale S L), amp_eq_vsum. apply vsum_ext. intros f. unfold conj_mel, cj.
        destruct adj; rewrite mel_scalar; [rewrite N.eqb_sym|]; destruct (N.eqb _ _); auto. symmetry. apply (kconj_0 S L).
      - injection Ea as <-. cbn [den]. unfold act1. rewrite (amp_apply_mono pos S L), <- (vsum_scal S L). apply vsum_ext. intros f.
        unfold conj_mel, op_c. destruct adj; rewrite mel_canonical; [|ring].
        rewrite (mel_mono_conj pos S L), <- mel_mono_adjoint. unfold mdag; simpl. ring.
      - injection Ea as <-. cbn [den]. unfold act1. rewrite (amp_apply_mono pos S L), <- (vsum_scal S L). apply vsum_ext. intros f.
        unfold conj_mel, op_c_dag. destruct adj; rewrite mel_canonical; [|simpl; ring].
        rewrite (mel_mono_conj pos S L), <- mel_mono_adjoint. unfold mdag; simpl. ring.
      - destruct (op_mul_spec (op_c_dag S i) (op_c S i)) as (t & E & Ht & Hon & Hsem); try apply op_canonical_wf.
        unfold op_n in Ea. rewrite E in Ea. injection Ea as ->.
        assert (Hon' : forall d, op_on (fun j => i = j) (op_canonical S d i)) by (intros; apply op_canonical_on; reflexivity).
        cbn [den]. unfold act1. rewrite <- (apply_mono_comp pos S L), (amp_apply_mono pos S L), <- (vsum_scal S L).
        apply vsum_ext. intros f. unfold conj_mel.
        specialize (Hsem pos (fun j => i = j) Hinj (Hon' _) (Hon' _)).
        destruct adj; rewrite Hsem; simpl.
        + transitivity (kconj (mel_mono pos [mkCop true i; mkCop false i] g f : S)); [|f_equal; ring].
          rewrite (mel_mono_conj pos S L), <- mel_mono_adjoint. unfold mdag; simpl. ring.
        + ring.
      - destruct (eval e) as [b|]; [|discriminate]. injection Ea as <-. cbn [den].
        rewrite (amp_scale S L), (IH Hinj b eq_refl), <- (vsum_scal S L). apply vsum_ext. intros f. unfold conj_mel.
        destruct adj; rewrite mel_neg; [rewrite (kconj_opp S L)|]; ring.
      - destruct (eval e1) as [b1|]; [|discriminate]. destruct (eval e2) as [b2|]; [|discriminate]. injection Ea as <-. cbn [den].
        rewrite (amp_app S L), (IH1 ltac:(auto) b1 eq_refl), (IH2 ltac:(auto) b2 eq_refl), <- (vsum_add S L).
        apply vsum_ext. intros f. unfold conj_mel. destruct adj; rewrite mel_add; [rewrite (sl_conj_add S L)|]; reflexivity.
      - destruct (eval e1) as [b1|]; [|discriminate]. destruct (eval e2) as [b2|]; [|discriminate]. injection Ea as <-. cbn [den].
        rewrite (amp_app S L), (amp_scale S L), (IH1 ltac:(auto) b1 eq_refl), (IH2 ltac:(auto) b2 eq_refl), <- (vsum_scal S L), <- (vsum_add S L).
        apply vsum_ext. intros f. unfold conj_mel. destruct adj; rewrite mel_sub; [|ring].
        assert (X : forall x y : S, x - y = x + - y) by (intros; ring). rewrite X, (sl_conj_add S L), (kconj_opp S L). ring.
      - destruct (eval_wf e1) as (b1 & E1 & Hb1 & HP1). destruct (eval_wf e2) as (b2 & E2 & Hb2 & HP2).
        rewrite E1, E2 in Ea.
        destruct (op_mul_spec b1 b2 Hb1 Hb2) as (t & E & Ht & Hon & Hsem). rewrite E in Ea. injection Ea as ->.
        specialize (IH1 ltac:(auto) b1 E1). specialize (IH2 ltac:(auto) b2 E2).
        rewrite (conj_mel_lsum_comp adj b1 b2 a); auto.
        2: { apply (Hsem pos (fun j => uses e1 j \/ uses e2 j)); auto; [apply (op_on_weaken (uses e1))|apply (op_on_weaken (uses e2))]; auto. }
        assert (R1 : forall v', veq (den pos adj e1 v') (apply pos (if adj then op_dagger b1 else b1) v')).
        { intros v' g'. rewrite IH1, (amp_apply pos S L). apply vsum_ext. intros f. unfold conj_mel.
          destruct adj; [rewrite mel_dagger by auto|]; reflexivity. }
        assert (R2 : forall v', veq (den pos adj e2 v') (apply pos (if adj then op_dagger b2 else b2) v')).
        { intros v' g'. rewrite IH2, (amp_apply pos S L). apply vsum_ext. intros f. unfold conj_mel.
          destruct adj; [rewrite mel_dagger by auto|]; reflexivity. }
        cbn [den]. destruct adj.
        + rewrite (R2 _ g). apply (apply_veq S L). intros g'. apply R1.
        + rewrite (R1 _ g). apply (apply_veq S L). intros g'. apply R2.
      - destruct (eval e) as [b|]; [|discriminate]. injection Ea as <-. cbn [den].
        rewrite (amp_app S L), (amp_scale S L), (IH Hinj b eq_refl), amp_eq_vsum, <- (vsum_add S L). apply vsum_ext. intros f. unfold conj_mel, cj.
        destruct adj; rewrite mel_add_scalar; [rewrite (sl_conj_add S L), N.eqb_sym|reflexivity].
        destruct (N.eqb _ _); [reflexivity|]. rewrite (kconj_0 S L). reflexivity.
      - destruct (eval e) as [b|]; [|discriminate]. injection Ea as <-. cbn [den].
        rewrite (amp_app S L), (amp_scale S L), (IH Hinj b eq_refl), amp_eq_vsum, <- (vsum_add S L). apply vsum_ext. intros f. unfold conj_mel, cj, op_sub_scalar.
        destruct adj; rewrite mel_add_scalar; [rewrite (sl_conj_add S L), N.eqb_sym|reflexivity].
        destruct (N.eqb _ _); [rewrite (kconj_opp S L); reflexivity|]. rewrite (kconj_0 S L). reflexivity.
      - destruct (eval e) as [b|]; [|discriminate]. injection Ea as <-. cbn [den].
        rewrite (amp_app S L), !(amp_scale S L), (IH Hinj b eq_refl), amp_eq_vsum, <- (vsum_scal S L), <- (vsum_add S L). apply vsum_ext. intros f.
        unfold conj_mel, cj, op_scalar_sub.
        destruct adj; rewrite mel_add_scalar, mel_neg; [rewrite (sl_conj_add S L), N.eqb_sym, (kconj_opp S L)|destruct (N.eqb _ _); ring].
        destruct (N.eqb _ _); [ring|]. rewrite (kconj_0 S L). ring.
      - destruct (eval e) as [b|]; [|discriminate]. injection Ea as <-. cbn [den].
        rewrite (amp_scale S L), (IH Hinj b eq_refl), <- (vsum_scal S L). apply vsum_ext. intros f. unfold conj_mel, cj.
        destruct adj; rewrite mel_mul_scalar; [rewrite (sl_conj_mul S L)|]; ring.
      - destruct (eval_wf e) as (b & E & Hb & _). rewrite E in Ea. injection Ea as <-. cbn [den].
        rewrite (IH Hinj b E). apply vsum_ext. intros f. unfold conj_mel.
        destruct adj; simpl; rewrite mel_dagger by auto; [rewrite (sl_conj_conj S L)|]; reflexivity.
    Qed.
  End Den.
End Ops.

Section Theorems.
  Context (S : scalar_ops) (L : scalar_laws S).
  Local Open Scope K_scope.
  Add Ring Kring7 : (sl_ring S L).

  Lemma thm_normal_order (pos : indices -> nat) (m : list cop) (c : S) :
    modes_distinct pos (fun i => In i (map ind m)) ->
    exists a, op_term m c = Some a /\ (c <> k0 -> wf a) /\
      forall v g, amp (apply pos a v) g = amp (apply_mono pos m c v) g.
  Proof.
    intros Hinj. destruct (normalize_total S m c []) as (a & E). exists a. split; [exact E|]. split.
    - intros Hc. eapply (normalize_wf S L); [exact Hc|apply wf_nil|exact E].
    - intros v g. rewrite (amp_apply pos S L), (amp_apply_mono pos S L), <- (vsum_scal S L). apply vsum_ext. intros f.
      rewrite (normalize_sem S L pos _ m c [] a Hinj); [simpl; ring| |exact E].
      apply Forall_forall. intros o Ho. apply in_map. exact Ho.
  Qed.

  Lemma conj_mel_false pos a f g : conj_mel S pos false a f g = mel pos a f g.
  Proof. reflexivity. Qed.

  Lemma thm_expr (e : expr S) (pos : indices -> nat) : modes_distinct pos (uses e) ->
    exists a, eval e = Some a /\ wf a /\ forall v g, amp (apply pos a v) g = amp (meaning pos e v) g.
  Proof.
    intros Hinj. destruct (eval_wf S L e) as (a & E & Hw & _). exists a. repeat split; auto; try apply Hw.
    intros v g. unfold meaning. rewrite (eval_den S L pos e Hinj a E false v g), (amp_apply pos S L). reflexivity.
  Qed.

  Lemma meaning_mel (e : expr S) pos a : modes_distinct pos (uses e) -> eval e = Some a ->
    forall f g, mel pos a f g = amp (meaning pos e [(k1, f)]) g.
  Proof.
    intros Hinj E f g. unfold meaning. rewrite (eval_den S L pos e Hinj a E false). simpl. unfold conj_mel. ring.
  Qed.

  Lemma thm_unique (e1 e2 : expr S) (pos : indices -> nat) a b :
    modes_distinct pos (fun i => uses e1 i \/ uses e2 i) -> eval e1 = Some a -> eval e2 = Some b ->
    (op_eqb a b = true <-> a = b) /\
    (a = b <-> forall v g, amp (meaning pos e1 v) g = amp (meaning pos e2 v) g).
  Proof.
    intros Hinj E1 E2.
    destruct (eval_wf S L e1) as (a' & Ea & Ha & HPa). rewrite E1 in Ea. injection Ea as <-.
    destruct (eval_wf S L e2) as (b' & Eb & Hb & HPb). rewrite E2 in Eb. injection Eb as <-.
    assert (H1 : modes_distinct pos (uses e1)) by (intros i j ? ?; apply Hinj; auto).
    assert (H2 : modes_distinct pos (uses e2)) by (intros i j ? ?; apply Hinj; auto).
    split; [apply (op_eqb_eq S L); auto|]. split.
    - intros <- v g. unfold meaning. rewrite (eval_den S L pos e1 H1 a E1 false), (eval_den S L pos e2 H2 a E2 false). reflexivity.
    - intros H. apply (same_mel_eq S L pos _ a b Hinj); auto.
      + apply (op_on_weaken S (uses e1)); auto.
      + apply (op_on_weaken S (uses e2)); auto.
      + intros f g. rewrite (meaning_mel e1 pos a), (meaning_mel e2 pos b) by auto. apply H.
  Qed.

  (** equal meanings for one (any) numbering: equal stored operators *)
  Lemma thm_same_meaning (e1 e2 : expr S) :
    (forall pos v g, modes_distinct pos (fun i => uses e1 i \/ uses e2 i) -> amp (meaning pos e1 v) g = amp (meaning pos e2 v) g) ->
    eval e1 = eval e2.
  Proof.
    intros H. destruct (eval_wf S L e1) as (a & Ea & Ha & HPa). destruct (eval_wf S L e2) as (b & Eb & Hb & HPb).
    rewrite Ea, Eb. f_equal. set (l := op_inds S a ++ op_inds S b).
    (* finite support of the indices used *)
    assert (HU : exists l, forall i, uses e1 i \/ uses e2 i -> In i l).
    { assert (G : forall e : expr S, exists l, forall i, uses e i -> In i l).
      { induction e as [x|i|i|i|e IH|e3 IH1 e4 IH2|e3 IH1 e4 IH2|e3 IH1 e4 IH2|e IH x|e IH x|x e IH|e IH x|e IH]; cbn [uses]; auto;
          try (exists [i]; simpl; auto; fail); try (destruct IH1 as [l1 H1]; destruct IH2 as [l2 H2]; exists (l1 ++ l2); intros; apply in_or_app; intuition; fail).
        exists []. tauto. }
      destruct (G e1) as [l1 H1], (G e2) as [l2 H2]. exists (l1 ++ l2). intros; apply in_or_app; intuition. }
    destruct HU as [l' Hl'].
    assert (Hinj : modes_distinct (number l') (fun i => uses e1 i \/ uses e2 i)).
    { intros i j Hi Hj. apply number_inj; auto. }
    apply (proj2 (proj2 (thm_unique e1 e2 (number l') a b Hinj Ea Eb))). auto.
  Qed.

  Lemma thm_car_cc i j : eval (EAdd (EMul (EC i) (EC j)) (EMul (EC j) (EC i)) : expr S) = Some [].
  Proof.
    change (@Some (omap S) []) with (eval (ESub (EC i) (EC i) : expr S)) || idtac.
    transitivity (eval (EScal k0 : expr S)).
    2: { simpl. unfold op_scalar. assert (kisz (k0 : S) = true) as -> by (apply (sl_isz S L); reflexivity). reflexivity. }
    apply thm_same_meaning. intros pos v g Hinj. unfold meaning; cbn [den]. unfold act1.
    rewrite (amp_app S L), (amp_scale S L), <- !(apply_mono_comp pos S L), !(amp_apply_mono pos S L). simpl app.
    destruct (Nat.eq_dec (pos i) (pos j)) as [E|E].
    - rewrite !(vsum_ext S (fun f => mel_mono pos [_; _] f g) (fun _ => k0)).
      + rewrite (vsum_zero S L). simpl; ring.
      + intros f. apply (mel_ctx_zero pos S _ _ [] []); simpl; auto.
      + intros f. apply (mel_ctx_zero pos S _ _ [] []); simpl; auto.
    - rewrite (vsum_ext S (fun f => mel_mono pos [mkCop false i; mkCop false j] f g) (fun f => - mel_mono pos [mkCop false j; mkCop false i] f g)).
      + rewrite (vsum_neg S L). simpl; ring.
      + intros f. apply (mel_ctx_neg pos S L _ _ [] []); simpl; auto.
  Qed.
  Lemma thm_car_cdcd i j : eval (EAdd (EMul (ECdag i) (ECdag j)) (EMul (ECdag j) (ECdag i)) : expr S) = Some [].
  Proof.
    transitivity (eval (EScal k0 : expr S)).
    2: { simpl. unfold op_scalar. assert (kisz (k0 : S) = true) as -> by (apply (sl_isz S L); reflexivity). reflexivity. }
    apply thm_same_meaning. intros pos v g Hinj. unfold meaning; cbn [den negb]. unfold act1.
    rewrite (amp_app S L), (amp_scale S L), <- !(apply_mono_comp pos S L), !(amp_apply_mono pos S L). simpl app.
    destruct (Nat.eq_dec (pos i) (pos j)) as [E|E].
    - rewrite !(vsum_ext S (fun f => mel_mono pos [_; _] f g) (fun _ => k0)).
      + rewrite (vsum_zero S L). simpl; ring.
      + intros f. apply (mel_ctx_zero pos S _ _ [] []); simpl; auto.
      + intros f. apply (mel_ctx_zero pos S _ _ [] []); simpl; auto.
    - rewrite (vsum_ext S (fun f => mel_mono pos [mkCop true i; mkCop true j] f g) (fun f => - mel_mono pos [mkCop true j; mkCop true i] f g)).
      + rewrite (vsum_neg S L). simpl; ring.
      + intros f. apply (mel_ctx_neg pos S L _ _ [] []); simpl; auto.
  Qed.
  Lemma thm_car_ccd i j : eval (EAdd (EMul (EC i) (ECdag j)) (EMul (ECdag j) (EC i)) : expr S) =
    eval (EScal (if ieqb i j then k1 else k0) : expr S).
  Proof.
    apply thm_same_meaning. intros pos v g Hinj. unfold meaning; cbn [den negb]. unfold act1.
    rewrite (amp_app S L), (amp_scale S L), <- !(apply_mono_comp pos S L), !(amp_apply_mono pos S L). simpl app. unfold cj.
    destruct (ieqb i j) eqn:Eij.
    - apply ieqb_eq in Eij. subst j.
      rewrite (vsum_ext S (fun f => mel_mono pos [mkCop false i; mkCop true i] f g)
                 (fun f => mel_mono pos [] f g + - mel_mono pos [mkCop true i; mkCop false i] f g)).
      + rewrite (vsum_add S L), (vsum_neg S L).
        assert (E : vsum S (fun f => mel_mono pos [] f g) v = amp v g).
        { rewrite (amp_vsum S L). apply vsum_ext. intros f. unfold mel_mono; simpl. reflexivity. }
        rewrite E. ring.
      + intros f. pose proof (mel_ctx_contract pos S L i [] [] f g) as H. simpl app in H. rewrite H. ring.
    - apply ieqb_neq in Eij.
      assert (E : pos i <> pos j). { intros E. apply Eij. apply Hinj; auto; simpl; auto. }
      rewrite (vsum_ext S (fun f => mel_mono pos [mkCop false i; mkCop true j] f g) (fun f => - mel_mono pos [mkCop true j; mkCop false i] f g)).
      + rewrite (vsum_neg S L). ring.
      + intros f. apply (mel_ctx_neg pos S L _ _ [] []); simpl; auto.
  Qed.

  (** ring laws, as equality of the stored operators *)
  Ltac same_meaning := apply thm_same_meaning; intros pos v g _; unfold meaning; cbn [den negb cj];
    repeat first [rewrite (amp_app S L) | rewrite (amp_scale S L)].
  Lemma den_app pos adj (e : expr S) v w g : modes_distinct pos (uses e) ->
    amp (den pos adj e (v ++ w)) g = amp (den pos adj e v) g + amp (den pos adj e w) g.
  Proof.
    intros Hinj. destruct (eval_wf S L e) as (a & E & _).
    rewrite !(eval_den S L pos e Hinj a E). generalize (fun f => conj_mel S pos adj a f g). intros F.
    induction v as [|[x f] v IH]; simpl; [ring|]. rewrite IH. ring.
  Qed.
  Lemma thm_ring_laws (a b c : expr S) :
    eval (EAdd a b) = eval (EAdd b a) /\
    eval (EAdd (EAdd a b) c) = eval (EAdd a (EAdd b c)) /\
    eval (EMul (EMul a b) c) = eval (EMul a (EMul b c)) /\
    eval (EMul a (EAdd b c)) = eval (EAdd (EMul a b) (EMul a c)) /\
    eval (EMul (EAdd a b) c) = eval (EAdd (EMul a c) (EMul b c)) /\
    eval (ESub a b) = eval (EAdd a (ENeg b)) /\
    eval (ESub a a) = Some [].
  Proof.
    repeat split.
    - same_meaning. ring.
    - same_meaning. ring.
    - same_meaning. reflexivity.
    - apply thm_same_meaning; intros pos v g H; unfold meaning; cbn [den]. rewrite (amp_app S L). apply den_app.
      intros i j ? ?; apply H; simpl; auto.
    - same_meaning. reflexivity.
    - same_meaning. reflexivity.
    - transitivity (eval (EScal k0 : expr S)).
      2: { simpl. unfold op_scalar. assert (kisz (k0 : S) = true) as -> by (apply (sl_isz S L); reflexivity). reflexivity. }
      same_meaning. ring.
  Qed.

  Lemma thm_dagger (e : expr S) (pos : indices -> nat) a : modes_distinct pos (uses e) -> eval e = Some a ->
    (forall f g, amp (apply pos (op_dagger a) [(k1, f)]) g = kconj (amp (apply pos a [(k1, g)]) f)) /\
    op_dagger (op_dagger a) = a /\
    (op_is_hermitian (fun _ => false) a = true <->
       forall f g, amp (apply pos a [(k1, f)]) g = kconj (amp (apply pos a [(k1, g)]) f)).
  Proof.
    intros Hinj E. destruct (eval_wf S L e) as (a' & Ea & Ha & HPa). rewrite E in Ea. injection Ea as <-.
    assert (Hm : forall x f g, amp (apply pos x [(k1, f)]) g = mel pos x f g :> S).
    { intros. symmetry. apply (mel_amp pos S L). }
    pose proof (op_dagger_wf S L a Ha) as Hd. pose proof (op_dagger_on S L (uses e) a Ha HPa) as HPd.
    repeat split.
    - intros f g. rewrite !Hm. apply (mel_dagger S L). exact Ha.
    - apply (same_mel_eq S L pos (uses e) _ _ Hinj); auto using (op_dagger_wf S L), (op_dagger_on S L).
      intros f g. rewrite !(mel_dagger S L) by auto. apply (sl_conj_conj S L).
    - intros H f g. rewrite !Hm. rewrite <- (mel_dagger S L) by auto.
      unfold op_is_hermitian, op_almost_zero in H. assert (op_sub (op_dagger a) a = []) as Hz.
      { destruct (op_sub (op_dagger a) a); [reflexivity|discriminate]. }
      apply (op_sub_nil S L) in Hz; auto. rewrite Hz. reflexivity.
    - intros H. unfold op_is_hermitian, op_almost_zero.
      assert (op_dagger a = a) as ->.
      { apply (same_mel_eq S L pos (uses e) _ _ Hinj); auto.
        intros f g. rewrite (mel_dagger S L) by auto. rewrite <- !Hm. symmetry. apply H. }
      rewrite (op_sub_self_nil S L) by auto. reflexivity.
  Qed.
  Lemma thm_dagger_mul (a b : expr S) : eval (EDag (EMul a b)) = eval (EMul (EDag b) (EDag a)) /\
    eval (EDag (EAdd a b)) = eval (EAdd (EDag a) (EDag b)) /\
    forall x, eval (EDag (EMulS a x)) = eval (EMulS (EDag a) (kconj x)).
  Proof. repeat split; intros; apply thm_same_meaning; intros; reflexivity. Qed.

  Lemma thm_add_exact (a b : expr S) x y z m : eval a = Some x -> eval b = Some y -> eval (EAdd a b) = Some z ->
    coef S m z = coef S m x + coef S m y.
  Proof.
    intros Ea Eb Ez. destruct (eval_wf S L a) as (x' & E1 & Hx & _). destruct (eval_wf S L b) as (y' & E2 & Hy & _).
    rewrite Ea in E1. injection E1 as <-. rewrite Eb in E2. injection E2 as <-.
    cbn [eval] in Ez. rewrite Ea, Eb in Ez. injection Ez as <-. apply (coef_add S L); [apply Hx|apply Hy].
  Qed.

  Lemma thm_alias_sub (a : omap S) : wf a -> a <> [] -> op_sub_self a = UB.
  Proof.
    intros _ Hn. destruct a as [|[m c] a]; [congruence|]. unfold op_sub_self; simpl.
    assert (kisz (c - c) = true) as -> by (apply (sl_isz S L); ring). reflexivity.
  Qed.
  Lemma thm_alias_add (a : omap S) : (forall x : S, x + x = k0 -> x = k0) -> wf a -> op_add_self a = Ok (op_add a a).
  Proof.
    intros H2 Ha.
    assert (E : op_add_self a = Ok (map (fun mc => (fst mc, snd mc + snd mc)) a)).
    { destruct Ha as [_ Ha]. unfold op_add_self. induction a as [|[m c] a IH]; simpl; [reflexivity|].
      inversion Ha as [|? ? [_ Hc] Ha']; subst. simpl in Hc.
      assert (kisz (c + c) = false) as ->. { apply (kisz_false S L). intros E. apply Hc. auto. }
      rewrite IH by auto. reflexivity. }
    rewrite E. f_equal. apply (wf_coef_ext S L).
    - destruct Ha as [Hs Hf]. split.
      + clear Hf E. unfold keys_sorted in *. induction Hs as [|x a Hs IH Hall]; simpl; constructor; auto.
        apply Forall_forall. intros y Hy. apply in_map_iff in Hy. destruct Hy as (z & <- & Hz).
        rewrite Forall_forall in Hall. exact (Hall z Hz).
      + rewrite Forall_map. eapply Forall_impl; [|exact Hf]. simpl. intros mc [H1 H3]. split; auto.
    - apply (op_add_wf S L); auto.
    - intros m. rewrite (coef_add S L) by apply Ha. unfold coef. clear E Ha.
      induction a as [|[m' c] a IH]; simpl; [ring|]. destruct (mcmp m m'); auto; ring.
  Qed.
End Theorems.

(** With a tolerant zero test: what addition does, term by term (only ring laws). *)
Section Tolerant.
  Context (S : scalar_ops) (R : Ring_theory.ring_theory (@k0 S) k1 kadd kmul ksub kopp eq).
  Local Open Scope K_scope.
  Add Ring Kring8 : R.

  Lemma tol_put m m' (c : S) t : keys_sorted t ->
    let t' := put_or (fun c0 => c0 + c) m' c t in
    match mcmp m m' with
    | Eq => coef S m t' = coef S m t + c \/ (coef S m t' = k0 /\ kisz (coef S m t + c) = true)
    | _ => coef S m t' = coef S m t
    end.
  Proof.
    intros Hs. cbv zeta. unfold coef, put_or. destruct (m_find m' t) as [c0|] eqn:E.
    - destruct (kisz (c0 + c)) eqn:Ez.
      + rewrite m_find_erase by auto. destruct (mcmp m m') eqn:Em; try reflexivity.
        apply (oc_eq _ mcmp_ok) in Em. subst. rewrite E. auto.
      + rewrite m_find_put. destruct (mcmp m m') eqn:Em; try reflexivity.
        apply (oc_eq _ mcmp_ok) in Em. subst. rewrite E. auto.
    - rewrite m_find_put. destruct (mcmp m m') eqn:Em; try reflexivity.
      apply (oc_eq _ mcmp_ok) in Em. subst. rewrite E. left. ring.
  Qed.
  Lemma tol_coef_cons_lt m m1 (c1 : S) b : keys_sorted ((m1, c1) :: b) -> mcmp m m1 = Eq -> coef S m b = k0.
  Proof.
    intros Hs E. inversion Hs as [|? ? Hs' Hall]; subst. unfold coef. rewrite m_find_lt_all; [reflexivity|].
    apply (oc_eq _ mcmp_ok) in E. subst. eapply Forall_impl; [|exact Hall]. intros [m3 c3] H3. exact H3.
  Qed.
  Lemma tol_add m a b : keys_sorted a -> keys_sorted b ->
    coef S m (op_add a b) = coef S m a + coef S m b \/
    (coef S m (op_add a b) = k0 /\ kisz (coef S m a + coef S m b) = true).
  Proof.
    unfold op_add. revert a. induction b as [|[m1 c1] b IH]; intros a Ha Hb; cbn [fold_left fst snd].
    - left. unfold coef at 3. simpl. ring.
    - assert (Hb' : keys_sorted b) by (inversion Hb; auto).
      pose proof (tol_put m m1 c1 a Ha) as Hp. cbv zeta in Hp.
      destruct (IH (put_or (fun c0 => c0 + c1) m1 c1 a)) as [H|[H1 H2]]; auto; [apply put_or_sorted; auto| |].
      + destruct (mcmp m m1) eqn:E.
        * assert (Hz : coef S m b = k0) by (eapply tol_coef_cons_lt; eauto).
          assert (Hc : coef S m ((m1, c1) :: b) = c1) by (unfold coef; simpl; rewrite E; reflexivity).
          rewrite Hc. rewrite Hz in H. rewrite H. destruct Hp as [Hp|[Hp1 Hp2]]; [left; rewrite Hp; ring|].
          right. rewrite Hp1. split; [ring|exact Hp2].
        * left. rewrite H, Hp. f_equal. unfold coef; simpl. rewrite E. 
          inversion Hb as [|? ? _ Hall]; subst. rewrite m_find_lt_all; [reflexivity|].
          eapply Forall_impl; [|exact Hall]. intros [m3 c3] H3. exact (oc_trans _ mcmp_ok _ _ _ E H3).
        * left. rewrite H, Hp. f_equal. unfold coef; simpl. rewrite E. reflexivity.
      + destruct (mcmp m m1) eqn:E.
        * assert (Hz : coef S m b = k0) by (eapply tol_coef_cons_lt; eauto).
          assert (Hc : coef S m ((m1, c1) :: b) = c1) by (unfold coef; simpl; rewrite E; reflexivity).
          rewrite Hc. rewrite Hz in H2.
          destruct Hp as [Hp|[Hp1 Hp2]]; [|right; split; [exact H1|exact Hp2]].
          right. split; [exact H1|]. rewrite <- Hp. rewrite <- H2. f_equal. ring.
        * right. split; [exact H1|]. rewrite <- H2, Hp. f_equal. f_equal. unfold coef; simpl. rewrite E. 
          inversion Hb as [|? ? _ Hall]; subst. rewrite m_find_lt_all; [reflexivity|].
          eapply Forall_impl; [|exact Hall]. intros [m3 c3] H3. exact (oc_trans _ mcmp_ok _ _ _ E H3).
        * right. split; [exact H1|]. rewrite <- H2, Hp. f_equal. f_equal. unfold coef; simpl. rewrite E. reflexivity.
  Qed.
End Tolerant.
