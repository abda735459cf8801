(** Proofs: diagonal_part, real and imaginary parts of operators. *)
From Coq Require Import ZArith NArith String List Bool Reals Lia Lra Setoid Morphisms Ring Sorted.
From Coquelicot Require Import Complex.
From Verif Require Import Base Indices Scalar Fock FockFacts OpModel OpExpr OpUnique OpNormal Op_proofs RealAtom UMatrix OpUtil OpUtilSpec OpAlg.
Import ListNotations.

Section Balance.
  Variable pos : indices -> nat.
  Variable P : indices -> Prop.
  Hypothesis Hinj : forall i j, P i -> P j -> pos i = pos j -> i = j.
  Lemma act_cres_free l f s f' : Forall (fun o => dag o = true) l -> act pos l f = Some (s, f') -> forall k, In k (posl pos l) -> N.testbit f (N.of_nat k) = false.
  Proof.
    revert s f'. induction l as [|o l IH]; intros s f' Hd; cbn [act posl map]; [intros _ k []|].
    inversion Hd as [|? ? Ho Hd']; subst. destruct (act pos l f) as [[s1 f1]|] eqn:Ea; [|congruence]. pose proof (act_cres_spec pos _ _ _ _ Hd' Ea) as H2.
    unfold act_cop. rewrite Ho. destruct (N.testbit f1 (N.of_nat (pos (ind o)))) eqn:E; [congruence|]. intros _ k [<-|Hk].
    - rewrite H2 in E. apply orb_false_iff in E. tauto.
    - apply (IH _ _ Hd' eq_refl k Hk).
  Qed.
  Lemma n_type_iff m : n_type m = true <-> (forall i, In i (map ind (anns m)) <-> In i (map ind (cres m))).
  Proof.
    assert (E1 : inds_of true m = map ind (cres m)). { unfold inds_of, cres. apply f_equal. apply filter_ext. intros o. destruct (dag o); reflexivity. }
    assert (E2 : inds_of false m = map ind (anns m)). { unfold inds_of, anns. apply f_equal. apply filter_ext. intros o. destruct (dag o); reflexivity. }
    unfold n_type. rewrite E1, E2, andb_true_iff. unfold subset. rewrite !forallb_forall. split.
    - intros [H1 H2] i. split; intros Hi; [specialize (H1 i Hi); apply existsb_exists in H1; destruct H1 as (j & Hj & E)|specialize (H2 i Hi); apply existsb_exists in H2; destruct H2 as (j & Hj & E)]; apply ieqb_eq in E; subst; exact Hj.
    - intros H. split; intros i Hi; apply existsb_exists; exists i; split; try (apply H; exact Hi); apply ieqb_eq; reflexivity.
  Qed.
  Lemma posl_In m k : In k (posl pos m) <-> exists i, In i (map ind m) /\ pos i = k.
  Proof.
    unfold posl. rewrite in_map_iff. split.
    - intros (o & <- & Ho). exists (ind o). split; [apply in_map; exact Ho|reflexivity].
    - intros (i & Hi & <-). apply in_map_iff in Hi. destruct Hi as (o & <- & Ho). exists o. auto.
  Qed.
  Lemma sub_on p m : mono_on P m -> forall i, In i (map ind (filter p m)) -> P i.
  Proof. unfold mono_on. rewrite Forall_forall. intros H i Hi. apply in_map_iff in Hi. destruct Hi as (o & <- & Ho). apply filter_In in Ho. apply H. tauto. Qed.
  Lemma balance m f s f' : normal m -> mono_on P m -> act pos m f = Some (s, f') -> (f' = f <-> n_type m = true).
  Proof.
    intros Hn HP. rewrite (normal_split m Hn) at 1. rewrite act_app. destruct (act pos (anns m) f) as [[s1 f1]|] eqn:E1; [|discriminate].
    destruct (act pos (cres m) f1) as [[s2 f2]|] eqn:E2; [|discriminate]. intros E. injection E as _ <-.
    destruct (act_anns_spec pos _ _ _ _ (anns_dag m) E1) as [A1 A2]. pose proof (act_cres_spec pos _ _ _ _ (cres_dag m) E2) as C2.
    pose proof (act_cres_free _ _ _ _ (cres_dag m) E2) as C1. rewrite n_type_iff. split.
    - intros -> i. split; intros Hi.
      + assert (Hk : In (pos i) (posl pos (anns m))) by (apply posl_In; eauto). specialize (A1 _ Hk). specialize (C2 (pos i)). rewrite A2, A1 in C2.
        replace (inb (pos i) (posl pos (anns m))) with true in C2 by (symmetry; apply inb_In; exact Hk). cbn [andb negb orb] in C2. symmetry in C2. apply inb_In in C2.
        apply posl_In in C2. destruct C2 as (j & Hj & Ej). apply Hinj in Ej; [subst; exact Hj|exact (sub_on _ m HP j Hj)|exact (sub_on _ m HP i Hi)].
      + assert (Hk : In (pos i) (posl pos (cres m))) by (apply posl_In; eauto). specialize (C1 _ Hk). specialize (C2 (pos i)). rewrite C1 in C2. cbn [orb] in C2.
        replace (inb (pos i) (posl pos (cres m))) with true in C2 by (symmetry; apply inb_In; exact Hk). rewrite A2, C2 in C1. cbn [andb] in C1. apply negb_false_iff in C1. apply inb_In in C1.
        apply posl_In in C1. destruct C1 as (j & Hj & Ej). apply Hinj in Ej; [subst; exact Hj|exact (sub_on _ m HP j Hj)|exact (sub_on _ m HP i Hi)].
    - intros H. apply testbit_eq_N. intros k. rewrite C2, A2.
      assert (Ei : inb k (posl pos (anns m)) = inb k (posl pos (cres m))).
      { apply eq_true_iff_eq. rewrite !inb_In, !posl_In. split; intros (i & Hi & Ek); exists i; (split; [apply H; exact Hi|exact Ek]). }
      rewrite <- Ei. destruct (inb k (posl pos (anns m))) eqn:Ea.
      + apply inb_In in Ea. rewrite (A1 k Ea). reflexivity.
      + destruct (N.testbit f (N.of_nat k)); reflexivity.
  Qed.
End Balance.

Section Diag.
  Context (S : scalar_ops) (L : scalar_laws S).
  Local Open Scope K_scope.
  Add Ring KringDg : (sl_ring S L).
  Lemma den_mono pos (m : monomial) (e : expr S) v g :
    amp (den pos false (fold_left (fun e o => EMul e (if dag o then ECdag (ind o) else EC (ind o))) m e) v) g = amp (den pos false e (apply_mono pos m k1 v)) g.
  Proof.
    revert e v g. induction m as [|o m IH]; intros e v g; cbn [fold_left].
    - apply (den_veq S L). intros g'. induction v as [|[x f] v IHv]; [reflexivity|]. cbn [apply_mono flat_map act app amp fst snd] in *. unfold apply_mono in IHv. cbn [act] in IHv. rewrite IHv. cbn [sgn]. destruct (N.eqb f g'); ring.
    - rewrite IH. cbn [den]. apply (den_veq S L). intros g'.
      assert (E : den pos false (if dag o then ECdag (ind o) else EC (ind o)) (apply_mono pos m k1 v) = apply_mono pos [o] k1 (apply_mono pos m k1 v)).
      { destruct o as [d i]. cbn [dag ind]. destruct d; reflexivity. }
      rewrite E, <- (apply_mono_comp pos S L [o] m). cbn [app]. f_equal. f_equal. ring.
  Qed.
  Lemma amp_mono pos m f g : amp (meaning pos (mono_op m : expr S) [(k1, f)]) g = mel_mono pos m f g.
  Proof.
    unfold meaning, mono_op. rewrite den_mono. cbn [den cj]. rewrite (amp_scale S L), (amp_apply_mono pos S L). cbn [vsum]. ring.
  Qed.
  Lemma uses_mono m (e : expr S) i : uses (fold_left (fun e o => EMul e (if dag o then ECdag (ind o) else EC (ind o))) m e) i -> uses e i \/ In i (map ind m).
  Proof.
    revert e. induction m as [|o m IH]; intros e; cbn [fold_left map]; [auto|]. intros H. apply IH in H. cbn [uses] in H. destruct H as [[H|H]|H]; auto; [|right; right; exact H].
    right. left. destruct (dag o); exact H.
  Qed.
  Lemma uses_diag (a : omap S) (P : indices -> Prop) : op_on P a -> forall i, uses (diagonal_part a) i -> P i.
  Proof.
    intros HP. unfold diagonal_part. assert (G : forall e : expr S, (forall i, uses e i -> P i) -> forall i, uses (fold_left (fun n_part mc => if n_type (fst mc) then EAdd n_part (EMulS (mono_op (fst mc)) (snd mc)) else n_part) a e) i -> P i).
    { induction HP as [|[m c] a Hm HP IH]; intros e He i; cbn [fold_left]; [apply He|]. apply IH. intros j. cbn [fst snd]. destruct (n_type m); [|apply He]. cbn [uses]. intros [Hj|Hj]; [apply He; exact Hj|].
      unfold mono_op in Hj. apply uses_mono in Hj. destruct Hj as [[]|Hj]. apply in_map_iff in Hj. destruct Hj as (o & <- & Ho). cbn [fst] in Hm. unfold mono_on in Hm. rewrite Forall_forall in Hm. apply Hm. exact Ho. }
    apply G. intros i [].
  Qed.
  Lemma amp_diag pos (a : omap S) f g : amp (meaning pos (diagonal_part a) [(k1, f)]) g = mel pos (filter (fun mc => n_type (fst mc)) a) f g.
  Proof.
    unfold diagonal_part. assert (G : forall e : expr S, amp (meaning pos (fold_left (fun n_part mc => if n_type (fst mc) then EAdd n_part (EMulS (mono_op (fst mc)) (snd mc)) else n_part) a e) [(k1, f)]) g =
       amp (meaning pos e [(k1, f)]) g + mel pos (filter (fun mc => n_type (fst mc)) a) f g).
    { induction a as [|[m c] a IH]; intros e; cbn [fold_left filter]; [cbn [mel]; ring|]. rewrite IH. cbn [fst snd]. destruct (n_type m); [|reflexivity].
      cbn [mel]. unfold meaning at 1. cbn [den cj]. rewrite (amp_app S L), (amp_scale S L). fold (meaning pos (mono_op m : expr S) [(k1, f)]). rewrite amp_mono. unfold meaning. ring. }
    rewrite G. unfold meaning. cbn [den cj scale map amp fst snd]. destruct (N.eqb f g); ring.
  Qed.
  Theorem thm_diag (e : expr S) a pos : modes_distinct pos (uses e) -> eval e = Some a ->
    exists d, eval (diagonal_part a) = Some d /\ forall f g, mel pos d f g = if N.eqb f g then mel pos a f f else k0.
  Proof.
    intros HD E. destruct (eval_wf S L e) as (a' & E' & [_ Hw] & HP). rewrite E in E'. injection E' as <-.
    destruct (eval_wf S L (diagonal_part a)) as (d & Ed & _). exists d. split; [exact Ed|]. intros f g.
    rewrite (meaning_mel S L (diagonal_part a) pos d).
    2: { intros i j Hi Hj. apply HD; apply (uses_diag a (uses e) HP); assumption. }
    2: exact Ed.
    rewrite amp_diag. clear E Ed. induction a as [|[m c] a IH]; cbn [filter mel].
    - destruct (N.eqb f g); reflexivity.
    - inversion Hw as [|? ? [Hm _] Hw']; subst. inversion HP as [|? ? HPm HP']; subst. specialize (IH HP' Hw'). cbn [fst snd] in *.
      destruct (n_type m) eqn:En; cbn [mel]; rewrite IH.
      + unfold mel_mono. destruct (act pos m f) as [[s f']|] eqn:Ea; [|destruct (N.eqb f g); ring].
        rewrite (proj2 (balance pos (uses e) HD m f s f' Hm HPm Ea) En). rewrite N.eqb_refl. destruct (N.eqb f g); ring.
      + unfold mel_mono. destruct (act pos m f) as [[s f']|] eqn:Ea; [|destruct (N.eqb f g); ring].
        destruct (N.eqb_spec f' f) as [Ef|Ef]; [|destruct (N.eqb f g); ring].
        apply (balance pos (uses e) HD m f s f' Hm HPm Ea) in Ef. congruence.
  Qed.

  (** transformation of the coefficients *)
  Lemma transform_fold (F : monomial -> S -> S) (a t : omap S) : (forall x, F x k0 = k0) -> wf a -> wf t -> (forall m c, In (m, c) a -> m_find m t = None) ->
    wf (fold_left (fun t mc => let c := F (fst mc) (snd mc) in if kisz c then t else m_insert (fst mc) c t) a t) /\
    (forall m, coef S m (fold_left (fun t mc => let c := F (fst mc) (snd mc) in if kisz c then t else m_insert (fst mc) c t) a t) = coef S m t + F m (coef S m a)).
  Proof.
    intros H0 [Hsa Hfa]. revert t. induction a as [|[m c] a IH]; intros t Ht Hfresh; cbn [fold_left].
    - split; [exact Ht|]. intros m. unfold coef at 3. cbn [m_find]. rewrite H0. ring.
    - pose proof Hsa as Hsa0. inversion Hsa as [|? ? Hsa' Hla]; subst. inversion Hfa as [|? ? [Hm Hc] Hfa']; subst. cbn [fst snd] in *. cbv zeta.
      assert (Hnew : forall m' c', In (m', c') a -> mcmp m' m <> Eq).
      { intros m' c' Hin Eq. apply (oc_eq _ mcmp_ok) in Eq. subst. rewrite Forall_forall in Hla. specialize (Hla _ Hin). unfold klt in Hla. cbn [fst] in Hla. rewrite (oc_refl _ mcmp_ok) in Hla. congruence. }
      assert (Hca : forall m', coef S m' ((m, c) :: a) = match mcmp m' m with Eq => c | _ => coef S m' a end).
      { intros m'. destruct (mcmp m' m) eqn:Ec.
        - unfold coef. cbn [m_find]. rewrite Ec. reflexivity.
        - rewrite (coef_cons S L m' m c a Hsa0). rewrite Ec. ring.
        - rewrite (coef_cons S L m' m c a Hsa0). rewrite Ec. ring. }
      assert (Hma : coef S m a = k0).
      { unfold coef. rewrite (m_find_lt_all S m a); [reflexivity|]. exact Hla. }
      destruct (kisz (F m c)) eqn:Ez.
      + destruct (IH Hsa' Hfa' t Ht) as (H1 & H2); [intros m' c' Hin; apply (Hfresh m' c'); right; exact Hin|]. split; [exact H1|]. intros m'. rewrite H2, Hca.
        destruct (mcmp m' m) eqn:Ec; try reflexivity. apply (oc_eq _ mcmp_ok) in Ec. subst. rewrite Hma, H0. apply (sl_isz S L) in Ez. rewrite Ez. reflexivity.
      + unfold m_insert. rewrite (Hfresh m c) by (left; reflexivity).
        destruct (IH Hsa' Hfa' (m_put m (F m c) t)) as (H1 & H2).
        * apply wf_put; auto. intros E. apply (sl_isz S L) in E. congruence.
        * intros m' c' Hin. rewrite m_find_put. pose proof (Hnew m' c' Hin). destruct (mcmp m' m) eqn:Ec; [congruence| |]; apply (Hfresh m' c'); right; exact Hin.
        * split; [exact H1|]. intros m'. rewrite H2, Hca. unfold coef at 1. rewrite m_find_put. destruct (mcmp m' m) eqn:Ec; try reflexivity.
          apply (oc_eq _ mcmp_ok) in Ec. subst. rewrite Hma, H0. unfold coef. rewrite (Hfresh m c) by (left; reflexivity). ring.
  Qed.
  Lemma transform_coef (F : monomial -> S -> S) (a : omap S) : (forall x, F x k0 = k0) -> wf a -> wf (op_transform F a) /\ forall m, coef S m (op_transform F a) = F m (coef S m a).
  Proof.
    intros H0 Ha. destruct (transform_fold F a [] H0 Ha) as (H1 & H2); [split; constructor|reflexivity|]. split; [exact H1|]. intros m. unfold op_transform. rewrite H2. unfold coef at 1. cbn [m_find]. ring.
  Qed.
End Diag.
