(** Normal-ordered products are linearly independent; operators are determined by their action. *)
From Coq Require Import ZArith NArith List Bool Lia Ring Permutation Sorted.
From Verif Require Import Base Indices Scalar Fock FockFacts OpModel OpExpr OpNormal.
Import ListNotations.

Definition cres (m : monomial) : monomial := filter dag m.
Definition anns (m : monomial) : monomial := filter (fun o => negb (dag o)) m.

Lemma normal_split m : normal m -> m = cres m ++ anns m.
Proof.
  unfold normal, cres, anns. induction m as [|[d i] m IH]; simpl; intros H; [reflexivity|].
  inversion H as [|? ? Hs Hall]; subst. destruct d; simpl.
  - f_equal. auto.
  - assert (Hf : forall o, In o m -> dag o = false).
    { intros o Ho. rewrite Forall_forall in Hall. specialize (Hall o Ho). unfold clt, ccmp in Hall; simpl in Hall.
      destruct (dag o); congruence. }
    assert (E1 : filter dag m = []).
    { clear -Hf. induction m as [|o m IH]; simpl; [reflexivity|]. rewrite (Hf o) by (left; auto). apply IH. intros; apply Hf; right; auto. }
    rewrite E1. simpl. f_equal. rewrite (IH Hs) at 1. rewrite E1. reflexivity.
Qed.

Lemma sorted_NoDup {A} (R : A -> A -> Prop) l : (forall x, ~ R x x) -> StronglySorted R l -> NoDup l.
Proof.
  intros Hirr. induction 1 as [|x l Hs IH Hall]; constructor; auto.
  intros Hin. rewrite Forall_forall in Hall. exact (Hirr x (Hall x Hin)).
Qed.
Lemma clt_irrefl x : ~ clt x x.
Proof. unfold clt. rewrite (oc_refl _ ccmp_ok). congruence. Qed.

Lemma sorted_same_elements l1 l2 : normal l1 -> normal l2 -> (forall x, In x l1 <-> In x l2) -> l1 = l2.
Proof.
  unfold normal. revert l2. induction l1 as [|x l1 IH]; intros [|y l2] H1 H2 Hs; auto.
  - exfalso. apply (Hs y). left; auto.
  - exfalso. apply (Hs x). left; auto.
  - inversion H1 as [|? ? Hs1 Ha1]; subst. inversion H2 as [|? ? Hs2 Ha2]; subst.
    rewrite Forall_forall in Ha1, Ha2.
    assert (x = y) as ->.
    { destruct (proj1 (Hs x) (or_introl eq_refl)) as [|Hx]; auto.
      destruct (proj2 (Hs y) (or_introl eq_refl)) as [|Hy]; auto.
      exfalso. apply (clt_irrefl x). eapply (oc_trans _ ccmp_ok); [apply Ha1; exact Hy|apply Ha2; exact Hx]. }
    f_equal. apply IH; auto. intros z. specialize (Hs z). simpl in Hs. split; intros Hz.
    + destruct (proj1 Hs (or_intror Hz)) as [<-|]; auto. exfalso. exact (clt_irrefl _ (Ha1 _ Hz)).
    + destruct (proj2 Hs (or_intror Hz)) as [<-|]; auto. exfalso. exact (clt_irrefl _ (Ha2 _ Hz)).
Qed.

Section Bits.
  Variable pos : indices -> nat.
  Definition posl (m : monomial) : list nat := map (fun o => pos (ind o)) m.
  Definition inb (k : nat) (l : list nat) : bool := existsb (Nat.eqb k) l.
  Lemma inb_In k l : inb k l = true <-> In k l.
  Proof. unfold inb. rewrite existsb_exists. split; [intros (x & H & E); apply Nat.eqb_eq in E; subst; auto|].
    intros H. exists k. split; auto. apply Nat.eqb_refl. Qed.
  Definition bits (l : list nat) : N := fold_right (fun k f => N.setbit f (N.of_nat k)) 0%N l.
  Lemma bits_spec l k : N.testbit (bits l) (N.of_nat k) = inb k l.
  Proof.
    induction l as [|x l IH]; simpl; [reflexivity|].
    rewrite setbit_nat, IH. rewrite (Nat.eqb_sym x k). reflexivity.
  Qed.

  Lemma act_anns_spec l f s f' : Forall (fun o => dag o = false) l -> act pos l f = Some (s, f') ->
    (forall k, In k (posl l) -> N.testbit f (N.of_nat k) = true) /\
    (forall k, N.testbit f' (N.of_nat k) = N.testbit f (N.of_nat k) && negb (inb k (posl l))).
  Proof.
    revert s f'. induction l as [|o l IH]; intros s f' Hd; simpl.
    - intros H; injection H as <- <-. split; [tauto|]. intros k. rewrite andb_true_r. reflexivity.
    - inversion Hd as [|? ? Ho Hd']; subst.
      destruct (act pos l f) as [[s1 f1]|]; [|congruence]. destruct (IH _ _ Hd' eq_refl) as [H1 H2].
      unfold act_cop. rewrite Ho. destruct (N.testbit f1 (N.of_nat (pos (ind o)))) eqn:E; [|congruence].
      intros H; injection H as _ <-. split.
      + intros k [<-|Hk]; auto. rewrite H2 in E. apply andb_prop in E. tauto.
      + intros k. rewrite clearbit_nat, H2. rewrite (Nat.eqb_sym k). destruct (Nat.eqb (pos (ind o)) k), (N.testbit f (N.of_nat k)), (inb k (posl l)); reflexivity.
  Qed.
  Lemma act_cres_spec l f s f' : Forall (fun o => dag o = true) l -> act pos l f = Some (s, f') ->
    (forall k, N.testbit f' (N.of_nat k) = N.testbit f (N.of_nat k) || inb k (posl l)).
  Proof.
    revert s f'. induction l as [|o l IH]; intros s f' Hd; simpl.
    - intros H; injection H as <- <-. intros k. rewrite orb_false_r. reflexivity.
    - inversion Hd as [|? ? Ho Hd']; subst.
      destruct (act pos l f) as [[s1 f1]|]; [|congruence]. pose proof (IH _ _ Hd' eq_refl) as H2.
      unfold act_cop. rewrite Ho. destruct (N.testbit f1 (N.of_nat (pos (ind o)))) eqn:E; [congruence|].
      intros H; injection H as _ <-.
      intros k. rewrite setbit_nat, H2. rewrite (Nat.eqb_sym k). destruct (Nat.eqb (pos (ind o)) k), (N.testbit f (N.of_nat k)), (inb k (posl l)); reflexivity.
  Qed.
  Lemma act_anns_some l f : Forall (fun o => dag o = false) l -> NoDup (posl l) ->
    (forall k, In k (posl l) -> N.testbit f (N.of_nat k) = true) -> exists s f', act pos l f = Some (s, f').
  Proof.
    induction l as [|o l IH]; intros Hd Hn Hb; simpl; [eauto|].
    inversion Hd as [|? ? Ho Hd']; subst. simpl in Hn. inversion Hn as [|? ? Hni Hn']; subst.
    destruct IH as (s & f' & E); auto. { intros; apply Hb; right; auto. }
    rewrite E. destruct (act_anns_spec _ _ _ _ Hd' E) as [_ H2].
    unfold act_cop. rewrite Ho, H2. rewrite Hb by (left; auto).
    destruct (inb (pos (ind o)) (posl l)) eqn:Ei; [apply inb_In in Ei; tauto|]. simpl. eauto.
  Qed.
  Lemma act_cres_some l f : Forall (fun o => dag o = true) l -> NoDup (posl l) ->
    (forall k, In k (posl l) -> N.testbit f (N.of_nat k) = false) -> exists s f', act pos l f = Some (s, f').
  Proof.
    induction l as [|o l IH]; intros Hd Hn Hb; simpl; [eauto|].
    inversion Hd as [|? ? Ho Hd']; subst. simpl in Hn. inversion Hn as [|? ? Hni Hn']; subst.
    destruct IH as (s & f' & E); auto. { intros; apply Hb; right; auto. }
    rewrite E. pose proof (act_cres_spec _ _ _ _ Hd' E) as H2.
    unfold act_cop. rewrite Ho, H2. rewrite Hb by (left; auto).
    destruct (inb (pos (ind o)) (posl l)) eqn:Ei; [apply inb_In in Ei; tauto|]. simpl. eauto.
  Qed.

  Variable P : indices -> Prop.
  Hypothesis Hinj : forall i j, P i -> P j -> pos i = pos j -> i = j.

  Lemma cres_dag m : Forall (fun o => dag o = true) (cres m).
  Proof. apply Forall_forall. intros o Ho. apply filter_In in Ho. tauto. Qed.
  Lemma anns_dag m : Forall (fun o => dag o = false) (anns m).
  Proof. apply Forall_forall. intros o Ho. apply filter_In in Ho. destruct (dag o); [destruct Ho; discriminate|reflexivity]. Qed.
  Lemma NoDup_posl_group (d : bool) l : NoDup l -> mono_on P l -> Forall (fun o => dag o = d) l -> NoDup (posl l).
  Proof.
    intros Hn Hm Hd. unfold posl. induction l as [|o l IH]; simpl; constructor.
    - inversion Hn as [|? ? Hni Hn']; subst. inversion Hm as [|? ? Ho Hm']; subst. inversion Hd as [|? ? Hdo Hd']; subst.
      intros Hin. apply in_map_iff in Hin. destruct Hin as (o' & E & Ho').
      unfold mono_on in Hm'. rewrite Forall_forall in Hm', Hd'. apply Hinj in E; auto. apply Hni.
      destruct o as [d1 i1], o' as [d2 i2]; simpl in *; subst. rewrite <- (Hd' _ Ho'). exact Ho'.
    - inversion Hn; inversion Hm; inversion Hd; subst. apply IH; auto.
  Qed.
  Lemma normal_NoDup m : normal m -> NoDup m.
  Proof. apply sorted_NoDup. exact clt_irrefl. Qed.
  Lemma mono_on_filter p m : mono_on P m -> mono_on P (filter p m).
  Proof. unfold mono_on. rewrite !Forall_forall. intros H o Ho. apply filter_In in Ho. apply H. tauto. Qed.

  Lemma group_In (d : bool) l1 l2 o : mono_on P l1 -> mono_on P l2 -> Forall (fun o => dag o = d) l1 -> Forall (fun o => dag o = d) l2 ->
    In o l1 -> In (pos (ind o)) (posl l2) -> In o l2.
  Proof.
    intros M1 M2 D1 D2 Ho Hp. unfold posl in Hp. apply in_map_iff in Hp. destruct Hp as (o' & E & Ho').
    unfold mono_on in *. rewrite Forall_forall in M1, M2, D1, D2. apply Hinj in E; auto.
    destruct o as [d1 i1], o' as [d2 i2]; simpl in *. pose proof (D1 _ Ho). pose proof (D2 _ Ho'). simpl in *. subst. auto.
  Qed.

  (** the state on which m0 acts non trivially *)
  Definition src (m : monomial) : N := bits (posl (anns m)).
  Definition tgt (m : monomial) : N := bits (posl (cres m)).

  Lemma act_src m : normal m -> mono_on P m -> exists s, act pos m (src m) = Some (s, tgt m).
  Proof.
    intros Hm HP. pose proof (normal_NoDup _ Hm) as Hn.
    destruct (act_anns_some (anns m) (src m)) as (s1 & f1 & E1).
    { apply anns_dag. } { apply NoDup_posl_group with false; [apply NoDup_filter; auto|apply mono_on_filter; auto|apply anns_dag]. }
    { intros k Hk. unfold src. rewrite bits_spec. apply inb_In. exact Hk. }
    destruct (act_anns_spec _ _ _ _ (anns_dag m) E1) as [_ H1].
    assert (f1 = 0%N) as ->.
    { apply testbit_eq_N. intros k. rewrite H1. unfold src. rewrite bits_spec, N.bits_0. apply andb_negb_r. }
    destruct (act_cres_some (cres m) 0%N) as (s2 & f2 & E2).
    { apply cres_dag. } { apply NoDup_posl_group with true; [apply NoDup_filter; auto|apply mono_on_filter; auto|apply cres_dag]. }
    { intros k _. apply N.bits_0. }
    exists (xorb s1 s2). rewrite (normal_split m Hm) at 1. rewrite act_app, E1, E2. f_equal. f_equal.
    apply testbit_eq_N. intros k. rewrite (act_cres_spec _ _ _ _ (cres_dag m) E2). unfold tgt. rewrite bits_spec, N.bits_0. reflexivity.
  Qed.

  Lemma act_src_unique m m0 s : normal m -> normal m0 -> mono_on P m -> mono_on P m0 ->
    length (anns m0) <= length (anns m) -> act pos m (src m0) = Some (s, tgt m0) -> m = m0.
  Proof.
    intros Hm Hm0 HP HP0 Hl. rewrite (normal_split m Hm) at 1. rewrite act_app.
    destruct (act pos (anns m) (src m0)) as [[s1 f1]|] eqn:E1; [|congruence].
    destruct (act pos (cres m) f1) as [[s2 f2]|] eqn:E2; [|congruence].
    intros H; injection H as _ Hf2. subst f2.
    destruct (act_anns_spec _ _ _ _ (anns_dag m) E1) as [H1 H2].
    pose proof (act_cres_spec _ _ _ _ (cres_dag m) E2) as H3.
    pose proof (normal_NoDup _ Hm) as Hn. pose proof (normal_NoDup _ Hm0) as Hn0.
    assert (Hincl : incl (posl (anns m)) (posl (anns m0))).
    { intros k Hk. apply inb_In. rewrite <- bits_spec. apply H1. exact Hk. }
    assert (Hnd : NoDup (posl (anns m))).
    { apply NoDup_posl_group with false; [apply NoDup_filter; auto|apply mono_on_filter; auto|apply anns_dag]. }
    assert (Hincl2 : incl (posl (anns m0)) (posl (anns m))).
    { apply NoDup_length_incl; auto. unfold posl. rewrite !map_length. exact Hl. }
    assert (f1 = 0%N) as ->.
    { apply testbit_eq_N. intros k. rewrite H2. unfold src. rewrite bits_spec, N.bits_0.
      destruct (inb k (posl (anns m0))) eqn:Ei; [|reflexivity]. apply inb_In in Ei. apply Hincl2 in Ei. apply inb_In in Ei. rewrite Ei. reflexivity. }
    assert (Hc : forall k, In k (posl (cres m)) <-> In k (posl (cres m0))).
    { intros k. rewrite <- !inb_In. specialize (H3 k). unfold tgt in H3. rewrite bits_spec, N.bits_0 in H3. simpl in H3. rewrite H3. tauto. }
    apply sorted_same_elements; auto. intros o.
    assert (Hposl : forall l, In o l -> In (pos (ind o)) (posl l)).
    { intros l Ho. unfold posl. apply in_map_iff. eauto. }
    pose proof (mono_on_filter dag m HP) as M1. pose proof (mono_on_filter dag m0 HP0) as M2.
    pose proof (mono_on_filter (fun o => negb (dag o)) m HP) as M3. pose proof (mono_on_filter (fun o => negb (dag o)) m0 HP0) as M4.
    rewrite (normal_split m Hm), (normal_split m0 Hm0), !in_app_iff. split; intros [Ho|Ho].
    - left. apply (group_In true (cres m) (cres m0)); auto using cres_dag. apply Hc. auto.
    - right. apply (group_In false (anns m) (anns m0)); auto using anns_dag.
    - left. apply (group_In true (cres m0) (cres m)); auto using cres_dag. apply Hc. auto.
    - right. apply (group_In false (anns m0) (anns m)); auto using anns_dag.
  Qed.

  Context (S : scalar_ops) (L : scalar_laws S).
  Local Open Scope K_scope.
  Add Ring Kring3 : (sl_ring S L).

  Lemma exists_min_anns (a : omap S) : a <> [] -> exists mc, In mc a /\ forall mc', In mc' a -> (length (anns (fst mc)) <= length (anns (fst mc')))%nat.
  Proof.
    induction a as [|x a IH]; [congruence|]. intros _. destruct a as [|y a].
    - exists x. split; [left; auto|]. intros mc' [<-|[]]. lia.
    - destruct IH as (mc & Hin & Hmin); [congruence|].
      destruct (Nat.le_gt_cases (length (anns (fst x))) (length (anns (fst mc)))) as [Hle|Hgt].
      + exists x. split; [left; auto|]. intros mc' [<-|Hin']; [lia|]. specialize (Hmin _ Hin'). lia.
      + exists mc. split; [right; auto|]. intros mc' [<-|Hin']; [lia|]. auto.
  Qed.

  Lemma mel_zero_all (a : omap S) f g : (forall mc, In mc a -> mel_mono pos (fst mc) f g = k0 :> S) -> mel pos a f g = k0.
  Proof.
    induction a as [|[m c] a IH]; simpl; intros H; [reflexivity|].
    rewrite IH by (intros; apply H; right; auto). pose proof (H (m, c) (or_introl eq_refl)) as E. simpl in E. rewrite E. ring.
  Qed.
  Lemma mel_single (a : omap S) m0 c0 f g : NoDup (map fst a) -> In (m0, c0) a ->
    (forall mc, In mc a -> fst mc <> m0 -> mel_mono pos (fst mc) f g = k0 :> S) -> mel pos a f g = c0 * mel_mono pos m0 f g.
  Proof.
    induction a as [|[m c] a IH]; simpl; intros Hn Hin Hz; [tauto|].
    inversion Hn as [|? ? Hni Hn']; subst. destruct Hin as [E|Hin].
    - injection E as -> ->. rewrite mel_zero_all; [ring|].
      intros mc Hmc. apply Hz; [right; auto|]. intros E. apply Hni. rewrite <- E. apply in_map. exact Hmc.
    - rewrite IH; auto.
      pose proof (Hz (m, c) (or_introl eq_refl)) as E. simpl in E. rewrite E; [ring|].
      intros ->. apply Hni. apply (in_map fst) in Hin. exact Hin.
  Qed.

  Lemma wf_keys_NoDup (a : omap S) : keys_sorted a -> NoDup (map fst a).
  Proof.
    unfold keys_sorted. induction a as [|[m c] a IH]; simpl; intros H; constructor; inversion H as [|? ? Hs Hall]; subst; auto.
    intros Hin. apply in_map_iff in Hin. destruct Hin as ([m' c'] & E & Hin). simpl in E. subst.
    rewrite Forall_forall in Hall. specialize (Hall _ Hin). unfold klt in Hall; simpl in Hall.
    rewrite (oc_refl _ mcmp_ok) in Hall. congruence.
  Qed.

  Lemma wf_zero_nil (a : omap S) : wf a -> op_on P a -> (forall f g, mel pos a f g = k0) -> a = [].
  Proof.
    intros [Hs Hf] HP Hz. destruct a as [|x a']; [reflexivity|]. exfalso. remember (x :: a') as a.
    destruct (exists_min_anns a) as ([m0 c0] & Hin & Hmin); [subst; congruence|]. simpl in Hmin.
    unfold op_on in HP. rewrite Forall_forall in Hf, HP.
    destruct (Hf _ Hin) as [Hm0 Hc0]. pose proof (HP _ Hin) as HP0. simpl in *.
    destruct (act_src m0 Hm0 HP0) as (s & Es).
    specialize (Hz (src m0) (tgt m0)).
    rewrite (mel_single a m0 c0) in Hz; auto using wf_keys_NoDup.
    - unfold mel_mono in Hz. rewrite Es, N.eqb_refl in Hz.
      destruct (sl_integral S L _ _ Hz) as [E|E]; [tauto|]. exact (sgn_nz S L _ E).
    - intros [m c] Hin' Hne. simpl in *. unfold mel_mono.
      destruct (act pos m (src m0)) as [[s' f']|] eqn:E; [|reflexivity].
      destruct (N.eqb_spec f' (tgt m0)) as [->|]; [|reflexivity].
      exfalso. apply Hne. destruct (Hf _ Hin') as [Hm _]. simpl in Hm. apply (act_src_unique m m0 s'); auto.
      + apply (HP _ Hin').
      + apply (Hmin _ Hin').
  Qed.
End Bits.

(** ---- coefficients ---- *)
Section Coef.
  Context (S : scalar_ops) (L : scalar_laws S).
  Local Open Scope K_scope.
  Add Ring Kring4 : (sl_ring S L).
  Definition coef (m : monomial) (t : omap S) : S := match m_find m t with Some c => c | None => k0 end.

  Lemma m_find_put m m' (c : S) t : m_find m (m_put m' c t) = match mcmp m m' with Eq => Some c | _ => m_find m t end.
  Proof.
    induction t as [|[m1 c1] t IH]; simpl.
    - destruct (mcmp m m'); reflexivity.
    - destruct (mcmp m' m1) eqn:E1; simpl.
      + apply (oc_eq _ mcmp_ok) in E1. subst m1. destruct (mcmp m m') eqn:E; reflexivity.
      + destruct (mcmp m m') eqn:E; try reflexivity.
        rewrite (oc_trans _ mcmp_ok _ _ _ E E1). reflexivity.
      + rewrite IH. destruct (mcmp m m1) eqn:E2.
        * destruct (mcmp m m') eqn:E; try reflexivity.
          apply (oc_eq _ mcmp_ok) in E. subst. congruence.
        * destruct (mcmp m m') eqn:E; try reflexivity.
          apply (oc_eq _ mcmp_ok) in E. subst. congruence.
        * reflexivity.
  Qed.
  Lemma m_find_lt_all m (t : omap S) : Forall (fun mc => mcmp m (fst mc) = Lt) t -> m_find m t = None.
  Proof. destruct t as [|[m1 c1] t]; simpl; intros H; [reflexivity|]. inversion H; subst. simpl in *. rewrite H2. reflexivity. Qed.
  Lemma m_find_erase m m' (t : omap S) : keys_sorted t -> m_find m (m_erase m' t) = match mcmp m m' with Eq => None | _ => m_find m t end.
  Proof.
    unfold keys_sorted. induction t as [|[m1 c1] t IH]; simpl; intros Hs.
    - destruct (mcmp m m'); reflexivity.
    - inversion Hs as [|? ? Hs' Hall]; subst.
      assert (Hnone : forall m2, (mcmp m2 m1 = Eq \/ mcmp m2 m1 = Lt) -> m_find m2 t = None).
      { intros m2 H2. apply m_find_lt_all. eapply Forall_impl; [|exact Hall]. intros [m3 c3] H3. unfold klt in H3; simpl in *.
        destruct H2 as [H2|H2]; [apply (oc_eq _ mcmp_ok) in H2; subst; auto|]. exact (oc_trans _ mcmp_ok _ _ _ H2 H3). }
      destruct (mcmp m' m1) eqn:E1; simpl.
      + apply (oc_eq _ mcmp_ok) in E1. subst m1. destruct (mcmp m m') eqn:E; auto.
      + destruct (mcmp m m1) eqn:E2; destruct (mcmp m m') eqn:E; try reflexivity;
          apply (oc_eq _ mcmp_ok) in E; subst; congruence.
      + rewrite IH by auto. destruct (mcmp m m1) eqn:E2; destruct (mcmp m m') eqn:E; try reflexivity;
          apply (oc_eq _ mcmp_ok) in E; subst; congruence.
  Qed.

  Lemma coef_put_or upd m m' (c d : S) t : keys_sorted t -> c = d -> (forall c0, upd c0 = c0 + d) ->
    coef m (put_or upd m' c t) = match mcmp m m' with Eq => coef m t + d | _ => coef m t end.
  Proof.
    intros Hs -> Hu. unfold coef, put_or. destruct (m_find m' t) as [c0|] eqn:E.
    - rewrite Hu. destruct (kisz (c0 + d)) eqn:Ez.
      + rewrite m_find_erase by auto. destruct (mcmp m m') eqn:Em; try reflexivity.
        apply (oc_eq _ mcmp_ok) in Em. subst. rewrite E. symmetry. apply (sl_isz S L). exact Ez.
      + rewrite m_find_put. destruct (mcmp m m') eqn:Em; try reflexivity.
        apply (oc_eq _ mcmp_ok) in Em. subst. rewrite E. reflexivity.
    - rewrite m_find_put. destruct (mcmp m m') eqn:Em; try reflexivity.
      apply (oc_eq _ mcmp_ok) in Em. subst. rewrite E. ring.
  Qed.

  Lemma put_or_sorted upd m (c : S) t : keys_sorted t -> keys_sorted (put_or upd m c t).
  Proof.
    intros H. unfold put_or. destruct (m_find m t).
    - destruct (kisz _); [apply m_erase_sorted|apply m_put_sorted]; auto.
    - apply m_put_sorted; auto.
  Qed.

  Lemma coef_cons m m1 (c1 : S) t : keys_sorted ((m1, c1) :: t) ->
    coef m ((m1, c1) :: t) = (match mcmp m m1 with Eq => c1 | _ => k0 end) + coef m t.
  Proof.
    unfold keys_sorted. intros Hs. inversion Hs as [|? ? Hs' Hall]; subst. unfold coef. simpl.
    destruct (mcmp m m1) eqn:E.
    - rewrite m_find_lt_all; [ring|]. apply (oc_eq _ mcmp_ok) in E. subst.
      eapply Forall_impl; [|exact Hall]. intros [m3 c3] H3. exact H3.
    - rewrite m_find_lt_all; [ring|]. eapply Forall_impl; [|exact Hall]. intros [m3 c3] H3. unfold klt in H3; simpl in *.
      exact (oc_trans _ mcmp_ok _ _ _ E H3).
    - ring.
  Qed.

  Lemma coef_sub m a b : keys_sorted a -> keys_sorted b -> coef m (op_sub a b) = coef m a - coef m b.
  Proof.
    unfold op_sub. revert a. induction b as [|[m1 c1] b IH]; intros a Ha Hb; cbn [fold_left].
    - unfold coef at 3. simpl. ring.
    - rewrite IH; [|apply put_or_sorted; auto | inversion Hb; auto].
      rewrite (coef_put_or _ m m1 _ (- c1)); auto; [|intros; simpl; ring].
      rewrite coef_cons by auto. simpl. destruct (mcmp m m1); ring.
  Qed.
  Lemma coef_add m a b : keys_sorted a -> keys_sorted b -> coef m (op_add a b) = coef m a + coef m b.
  Proof.
    unfold op_add. revert a. induction b as [|[m1 c1] b IH]; intros a Ha Hb; cbn [fold_left].
    - unfold coef at 3. simpl. ring.
    - rewrite IH; [|apply put_or_sorted; auto | inversion Hb; auto].
      rewrite (coef_put_or _ m m1 _ c1); auto.
      rewrite coef_cons by auto. simpl. destruct (mcmp m m1); ring.
  Qed.

  Lemma wf_coef_ext (a b : omap S) : wf a -> wf b -> (forall m, coef m a = coef m b) -> a = b.
  Proof.
    revert b. induction a as [|[m1 c1] a IH]; intros [|[m2 c2] b] Ha Hb Hc; auto.
    - exfalso. specialize (Hc m2). unfold coef in Hc; simpl in Hc. rewrite (oc_refl _ mcmp_ok) in Hc.
      destruct Hb as [_ Hb]. inversion Hb; subst. simpl in *. destruct H1. congruence.
    - exfalso. specialize (Hc m1). unfold coef in Hc; simpl in Hc. rewrite (oc_refl _ mcmp_ok) in Hc.
      destruct Ha as [_ Ha]. inversion Ha; subst. simpl in *. destruct H1. congruence.
    - destruct Ha as [Hsa Hfa], Hb as [Hsb Hfb].
      inversion Hfa as [|? ? [Hn1 Hc1] Hfa']; subst. inversion Hfb as [|? ? [Hn2 Hc2] Hfb']; subst. simpl in *.
      inversion Hsa as [|? ? Hsa' Hla]; subst. inversion Hsb as [|? ? Hsb' Hlb]; subst.
      assert (Em : m1 = m2).
      { destruct (mcmp m1 m2) eqn:E.
        - apply (oc_eq _ mcmp_ok). exact E.
        - exfalso. specialize (Hc m1). unfold coef in Hc; simpl in Hc. rewrite (oc_refl _ mcmp_ok), E in Hc. congruence.
        - exfalso. apply (oc_gt_lt _ mcmp_ok) in E. specialize (Hc m2). unfold coef in Hc; simpl in Hc. rewrite (oc_refl _ mcmp_ok), E in Hc. congruence. }
      subst m2.
      assert (Ec : c1 = c2). { specialize (Hc m1). unfold coef in Hc; simpl in Hc. rewrite (oc_refl _ mcmp_ok) in Hc. exact Hc. }
      subst c2. f_equal. apply IH; try (split; auto). intros m.
      specialize (Hc m). rewrite !coef_cons in Hc by assumption.
      assert (X : forall z x y : S, z + x = z + y -> x = y).
      { intros z x y E. transitivity (z + x - z); [ring|]. rewrite E. ring. }
      exact (X _ _ _ Hc).
  Qed.
End Coef.
