(** The automatic partition as atom_diag makes it. *)
From Coq Require Import ZArith NArith List Arith Bool Lia Sorted Permutation Relations.
From Verif Require Import Base Indices Scalar Fock FockFacts OpModel OpExpr OpNormal Op_proofs Hilbert Hilbert_proofs
  State StateSpec State_proofs ImpOp ImpOp_proofs ImpOp_run ImpOp_thms Partition PartitionSpec Partition_proofs Partition_merge
  Partition_imp Partition_thms AtomDiag AtomDiagSpec AtomDiag_lists AtomDiag_terms AtomDiag_mats AtomDiag_complete.
Import ListNotations.
Local Open Scope nat_scope.

(** ---- fill_spaces ---- *)
Section Fill.
  Variable lk : nat -> nat.
  Variable ff : N -> bool.
  Variable ns : nat.
  Definition cls (is : list nat) (k : nat) : list N := map N.of_nat (filter (fun i => ff (N.of_nat i) && (lk i =? k)) is).

  Lemma fill_gen is : forall pre hs,
    (forall k h, nth_error hs k = Some h -> h = sub_adds (sub_new (Z.of_nat k)) (cls pre k)) ->
    forall k h, nth_error (fold_left (fun hs i => if ff (N.of_nat i) then upd (lk i) (fun h => sub_add h (N.of_nat i)) hs else hs) is hs) k = Some h ->
      h = sub_adds (sub_new (Z.of_nat k)) (cls (pre ++ is) k).
  Proof.
    induction is as [|i is IH]; intros pre hs H k h Hk; cbn [fold_left] in Hk.
    - rewrite app_nil_r. apply H, Hk.
    - replace (pre ++ i :: is) with ((pre ++ [i]) ++ is) by (rewrite <- app_assoc; reflexivity).
      refine (IH (pre ++ [i]) _ _ k h Hk). clear k h Hk. intros k h Hk. unfold cls. rewrite filter_app, map_app. cbn [filter].
      destruct (ff (N.of_nat i)) eqn:Ef.
      + rewrite upd_nth in Hk. cbn [andb]. destruct (Nat.eqb_spec (lk i) k) as [e|e].
        * destruct (nth_error hs k) as [h0|] eqn:E0; [|discriminate]. injection Hk as <-. rewrite (H k h0 E0). unfold sub_adds. cbn [map].
          rewrite fold_left_app. reflexivity.
        * cbn [map]. rewrite app_nil_r. apply H, Hk.
      + cbn [andb map]. rewrite app_nil_r. apply H, Hk.
  Qed.
  Lemma fill_len is hs : length (fold_left (fun hs i => if ff (N.of_nat i) then upd (lk i) (fun h => sub_add h (N.of_nat i)) hs else hs) is hs) = length hs.
  Proof. revert hs. induction is as [|i is IH]; intros hs; [reflexivity|]. cbn [fold_left]. rewrite IH. destruct (ff _); [apply upd_length|reflexivity]. Qed.

  Lemma cls_In is k f : In f (cls is k) <-> exists i, In i is /\ f = N.of_nat i /\ ff f = true /\ lk i = k.
  Proof.
    unfold cls. rewrite in_map_iff. split.
    - intros (i & <- & H). apply filter_In in H. destruct H as [H1 H2]. apply andb_true_iff in H2. destruct H2 as [H2 H3]. apply Nat.eqb_eq in H3. eauto.
    - intros (i & H1 & -> & H2 & H3). exists i. split; [reflexivity|]. apply filter_In. split; [exact H1|]. rewrite H2, H3. cbn. apply Nat.eqb_refl.
  Qed.
  Lemma cls_sorted n k : StronglySorted N.lt (cls (seq 0 n) k).
  Proof.
    unfold cls. generalize 0 as a. induction n as [|n IH]; intros a; cbn [seq filter]; [constructor|].
    destruct (ff (N.of_nat a) && (lk a =? k)); [|apply IH]. cbn [map]. constructor; [apply IH|].
    apply Forall_forall. intros f Hf. apply in_map_iff in Hf. destruct Hf as (i & <- & Hi). apply filter_In in Hi. destruct Hi as [Hi _].
    apply in_seq in Hi. lia.
  Qed.
  Lemma sorted_nodup (B : list N) : StronglySorted N.lt B -> NoDup B.
  Proof.
    induction 1 as [|x B _ IH HF]; constructor; [|exact IH]. intros H. rewrite Forall_forall in HF. specialize (HF x H). lia.
  Qed.
End Fill.

Lemma sub_adds_fields idx fs : sub_states (sub_adds (sub_new idx) fs) = fs /\ sub_index (sub_adds (sub_new idx) fs) = idx.
Proof.
  split; [rewrite sub_adds_states; reflexivity|].
  assert (G : forall fs s, sub_index (sub_adds s fs) = sub_index s).
  { clear. induction fs as [|f fs IH]; intros s; [reflexivity|]. unfold sub_adds in *. cbn [fold_left]. rewrite IH. reflexivity. }
  apply G.
Qed.

Lemma filter_sorted_map {A} (p : A -> bool) (v : A -> nat) xs : NoDup (map v xs) -> NoDup (map v (filter p xs)).
Proof.
  induction xs as [|x xs IH]; cbn; [auto|]. intros H. inversion_clear H as [|? ? H1 H2]. destruct (p x); cbn; [|auto]. constructor; [|auto].
  intros Hin. apply H1. apply in_map_iff in Hin. destruct Hin as (y & <- & Hy). apply filter_In in Hy. apply in_map, Hy.
Qed.

Section Auto.
  Context (S : scalar_ops) (L : scalar_laws S) (E : energy_ops S).
  Local Open Scope K_scope.
  Add Ring Kring5 : (sl_ring S L).

  (** ---- the matrix element maps ---- *)
  Lemma merges_melem_merges ch nm ops : forall s, 
    match merges_melem S ch nm s ops with
    | Some (s', mes) => merges S kisz ch nm s ops = Some s' /\ length mes = length ops
    | None => merges S kisz ch nm s ops = None
    end.
  Proof.
    induction ops as [|[cd c] ops IH]; intros s; cbn [merges_melem merges]; [auto|].
    destruct (merge_subspaces S kisz ch nm s cd c true) as [[s1 me]|]; [|reflexivity].
    specialize (IH s1). destruct (merges_melem S ch nm s1 ops) as [[s' mes]|]; [|exact IH]. destruct IH as [H1 H2]. cbn. auto.
  Qed.
  Lemma merges_melem_spec ch nm n : norm_ok nm -> forall ops s s' mes, op_pairs_ok S kisz n ops -> indexed S n s ->
    merges_melem S ch nm s ops = Some (s', mes) ->
    forall k cd c, nth_error ops k = Some (cd, c) -> nth_error mes k = Some (put_cols S kisz cd (seq 0 n) [], put_cols S kisz c (seq 0 n) []).
  Proof.
    intros N. induction ops as [|[cd c] ops IH]; intros s s' mes Ho I Hm k cd' c' Hk; [destruct k; discriminate|].
    cbn [merges_melem] in Hm. destruct (Ho cd c) as (H1 & H2 & H3); [left; reflexivity|].
    destruct (merge_ok S kisz ch nm N n s cd c true I H1 H2 H3) as (s1 & m & m' & E1 & I1 & _ & -> & -> & _). rewrite E1 in Hm.
    destruct (merges_melem S ch nm s1 ops) as [[s2 mes']|] eqn:E2; [|discriminate]. injection Hm as <- <-.
    destruct k as [|k]; cbn in Hk |- *; [injection Hk as -> ->; reflexivity|].
    apply (IH s1 s2 mes'); auto. intros a b Hab. apply Ho. right; exact Hab.
  Qed.

  Lemma e_get_In (m : elems S) k : (exists a, In (k, a) m) <-> exists a, e_get m k = Some a.
  Proof.
    induction m as [|[k' a'] m IH]; cbn.
    - split; intros [a H]; [destruct H|discriminate].
    - destruct (key_eqb_spec k' k) as [->|Hne].
      + split; intros _; eauto.
      + rewrite <- IH. split; intros [a H]; exists a; [destruct H as [H|H]; [congruence|exact H]|right; exact H].
  Qed.
  Lemma put_cols_In cd n i f : once S n cd -> i < n ->
    ((exists a, In ((i, f), a) (put_cols S kisz cd (seq 0 n) [])) <-> nonzero S kisz cd i f).
  Proof.
    intros Ho Hi. rewrite e_get_In. unfold nonzero. split; intros [a H]; exists a.
    - apply (put_cols_spec S kisz cd (seq 0 n) i f a) in H; [|apply seq_NoDup|apply Ho; exact Hi]. tauto.
    - apply (put_cols_spec S kisz cd (seq 0 n) i f a); [apply seq_NoDup|apply Ho; exact Hi|]. split; [apply in_seq; lia|exact H].
  Qed.
  Lemma put_cols_keys cd is m i f a : In ((i, f), a) (put_cols S kisz cd is m) -> In ((i, f), a) m \/ (In i is /\ exists a, In (f, a) (cd i)).
  Proof.
    assert (G : forall (m : elems S) k (a' : S) i f a, In ((i, f), a) (e_put S m k a') -> In ((i, f), a) m \/ (i, f) = k).
    { clear. induction m as [|[k' a''] m IH]; intros k a' i f a; cbn; [intros [H|[]]; injection H as <- _; auto|].
      destruct (key_eqb_spec k' k) as [->|Hne]; cbn; intros [H|H]; auto.
      - injection H as -> ->. auto.
      - apply IH in H. tauto. }
    assert (G1 : forall i0 es m, In ((i, f), a) (fold_left (put_col S kisz i0) es m) -> In ((i, f), a) m \/ (i = i0 /\ exists a, In (f, a) es)).
    { clear m. intros i0. induction es as [|[f0 a0] es IH]; intros m H; [auto|]. cbn [fold_left] in H. apply IH in H. destruct H as [H|(-> & a1 & H)].
      - unfold put_col in H. cbn [fst snd] in H. destruct (kisz a0); [auto|]. apply G in H. destruct H as [H|H]; [auto|]. injection H as -> ->. right. split; [reflexivity|]. exists a0. left; reflexivity.
      - right. split; [reflexivity|]. exists a1. right; exact H. }
    revert m. induction is as [|i0 is IH]; intros m H; [auto|]. unfold put_cols in *. cbn [fold_left] in H. apply IH in H. destruct H as [H|[H1 H2]].
    - apply G1 in H. destruct H as [H|[-> H]]; [auto|]. right. split; [left; reflexivity|exact H].
    - right. split; [right; exact H1|exact H2].
  Qed.

  Lemma sorted_elems_In (m : elems S) x : In x (sorted_elems S m) <-> In x m.
  Proof.
    assert (I1 : forall (m : elems S) y x, In x (k_insert S y m) <-> x = y \/ In x m).
    { clear. induction m as [|z m IH]; intros y x; cbn; [intuition|]. destruct (key_lt (fst y) (fst z)); cbn; [intuition|]. rewrite IH. intuition. }
    unfold sorted_elems. assert (G : forall (xs acc : elems S), In x (fold_left (fun m x => k_insert S x m) xs acc) <-> In x acc \/ In x xs).
    { induction xs as [|y xs IH]; intros acc; cbn [fold_left]; [cbn; tauto|]. rewrite IH, I1. cbn. intuition. }
    rewrite G. cbn. tauto.
  Qed.

  (** one row of a connection matrix *)
  Definition links (s : sp S) (kept : list nat) (m : elems S) (p q : nat) : Prop :=
    exists i f a, In ((i, f), a) m /\ pos_of kept (lookup_basis_state s i) = Some p /\ pos_of kept (lookup_basis_state s f) = Some q.
  Lemma conn_row_spec s kept m :
    length (conn_row S s kept m) = length kept /\
    forall p c, nth_error (conn_row S s kept m) p = Some c ->
      (c = (-1)%Z /\ forall q, ~ links s kept m p q) \/ (exists q, c = Z.of_nat q /\ links s kept m p q).
  Proof.
    unfold conn_row.
    set (step := fun (row : list Z) (x : (nat * nat) * S) => match pos_of kept (lookup_basis_state s (fst (fst x))), pos_of kept (lookup_basis_state s (snd (fst x))) with
                 | Some bi, Some bf => upd bi (fun _ => Z.of_nat bf) row | _, _ => row end).
    assert (L1 : forall xs row, length (fold_left step xs row) = length row).
    { induction xs as [|x xs IH]; intros row; [reflexivity|]. cbn [fold_left]. rewrite IH. unfold step.
      destruct (pos_of kept _); [|reflexivity]. destruct (pos_of kept _); [apply upd_length|reflexivity]. }
    split; [rewrite L1; apply repeat_length|].
    intros p c Hp.
    assert (G : forall xs done row, (forall p c, nth_error row p = Some c ->
        (c = (-1)%Z /\ forall q, ~ links s kept done p q) \/ (exists q, c = Z.of_nat q /\ links s kept done p q)) ->
      forall p c, nth_error (fold_left step xs row) p = Some c ->
        (c = (-1)%Z /\ forall q, ~ links s kept (done ++ xs) p q) \/ (exists q, c = Z.of_nat q /\ links s kept (done ++ xs) p q)).
    { clear p c Hp. induction xs as [|[[i f] a] xs IH]; intros done row H p c Hp; cbn [fold_left] in Hp; [rewrite app_nil_r; apply H, Hp|].
      replace (done ++ ((i, f), a) :: xs) with ((done ++ [((i, f), a)]) ++ xs) by (rewrite <- app_assoc; reflexivity).
      refine (IH (done ++ [((i, f), a)]) _ _ p c Hp). clear p c Hp. intros p c Hp.
      assert (Lk : forall p q, links s kept (done ++ [((i, f), a)]) p q <->
        links s kept done p q \/ (pos_of kept (lookup_basis_state s i) = Some p /\ pos_of kept (lookup_basis_state s f) = Some q)).
      { clear. intros p q. unfold links. split.
        - intros (i' & f' & a' & H & H1 & H2). apply in_app_iff in H. destruct H as [H|[H|[]]]; [left; eauto 6|injection H as <- <- <-; auto].
        - intros [(i' & f' & a' & H & H1)|[H1 H2]]; [exists i', f', a'; split; [apply in_app_iff; auto|exact H1]|].
          exists i, f, a. split; [apply in_app_iff; right; left; reflexivity|auto]. }
      unfold step in Hp. cbn [fst snd] in Hp.
      destruct (pos_of kept (lookup_basis_state s i)) as [bi|] eqn:Ei; [destruct (pos_of kept (lookup_basis_state s f)) as [bf|] eqn:Ef|].
      - rewrite upd_nth in Hp. destruct (Nat.eqb_spec bi p) as [<-|Hne].
        + destruct (nth_error row bi); [|discriminate]. injection Hp as <-. right. exists bf. split; [reflexivity|]. apply Lk. auto.
        + destruct (H p c Hp) as [[-> Hn]|(q & -> & Hq)].
          * left. split; [reflexivity|]. intros q Hq. apply Lk in Hq. destruct Hq as [Hq|[Hq _]]; [exact (Hn q Hq)|congruence].
          * right. exists q. split; [reflexivity|]. apply Lk. auto.
      - destruct (H p c Hp) as [[-> Hn]|(q & -> & Hq)].
        + left. split; [reflexivity|]. intros q Hq. apply Lk in Hq. destruct Hq as [Hq|[_ Hq]]; [exact (Hn q Hq)|congruence].
        + right. exists q. split; [reflexivity|]. apply Lk. auto.
      - destruct (H p c Hp) as [[-> Hn]|(q & -> & Hq)].
        + left. split; [reflexivity|]. intros q Hq. apply Lk in Hq. destruct Hq as [Hq|[Hq _]]; [exact (Hn q Hq)|congruence].
        + right. exists q. split; [reflexivity|]. apply Lk. auto. }
    assert (B : forall p c, nth_error (repeat (-1)%Z (length kept)) p = Some c ->
        (c = (-1)%Z /\ forall q, ~ links s kept [] p q) \/ (exists q, c = Z.of_nat q /\ links s kept [] p q)).
    { intros p0 c0 H0. left. apply nth_error_In, repeat_spec in H0. split; [exact H0|]. intros q (i & f & a & [] & _). }
    specialize (G (sorted_elems S m) [] _ B p c Hp). cbn [app] in G.
    assert (Q : forall q, links s kept (sorted_elems S m) p q <-> links s kept m p q).
    { intros q. unfold links. split; intros (i & f & a & H & H1); exists i, f, a; (split; [apply sorted_elems_In; exact H|exact H1]). }
    destruct G as [[-> G]|(q & -> & G)]; [left; split; [reflexivity|]; intros q Hq; apply (G q), Q, Hq|right; exists q; split; [reflexivity|apply Q, G]].
  Qed.
End Auto.
