(** Proofs about states. *)
From Coq Require Import ZArith NArith List Bool Lia FinFun.
From Verif Require Import Base Indices Scalar Fock FockFacts Hilbert Hilbert_proofs State StateSpec.
Import ListNotations.

(** ---- spaces ---- *)
Lemma seq_nth_error n i k : nth_error (seq 0 n) i = Some k <-> (i < n /\ k = i)%nat.
Proof.
  split.
  - intros H. assert (i < n)%nat by (rewrite <- (seq_length n 0); apply nth_error_Some; congruence).
    split; [assumption|]. erewrite nth_error_nth' with (d := 0%nat) in H by (rewrite seq_length; assumption).
    rewrite seq_nth in H by assumption. simpl in H. congruence.
  - intros [H ->]. rewrite nth_error_nth' with (d := 0%nat) by (rewrite seq_length; assumption).
    rewrite seq_nth by assumption. reflexivity.
Qed.
Lemma basis_full d i f : nth_error (basis (Full d)) i = Some f <-> (i < Z.to_nat d /\ f = N.of_nat i)%nat.
Proof.
  unfold basis. rewrite nth_error_map. destruct (nth_error (seq 0 (Z.to_nat d)) i) as [k|] eqn:E; simpl.
  - apply seq_nth_error in E. destruct E as [E ->]. split; [intros H; injection H as <-; auto|intros [_ ->]; reflexivity].
  - split; [discriminate|]. intros [H _]. exfalso. apply nth_error_None in E. rewrite seq_length in E. lia.
Qed.

Section Spaces.
  Variable h : space.
  Hypothesis Hok : space_ok h.

  Lemma basis_NoDup : NoDup (basis h).
  Proof.
    destruct h as [d|s]; simpl in *.
    - apply FinFun.Injective_map_NoDup; [intros a b E; apply Nat2N.inj; exact E|apply seq_NoDup].
    - destruct Hok as (idx & fs & Hd & ->). rewrite sub_adds_states. exact Hd.
  Qed.
  Lemma basis_length : sp_size h = Z.of_nat (length (basis h)).
  Proof.
    destruct h as [d|s]; simpl in *.
    - destruct Hok as (n & Hn & Ed). destruct (thm_hs_bijection n d Hn Ed) as (E & _).
      rewrite map_length, seq_length. assert (0 < d)%Z by (eapply pow30; eauto). lia.
    - reflexivity.
  Qed.
  Lemma sp_fock_spec i f : nth_error (basis h) i = Some f <-> sp_fock h i = Ok f /\ (i < length (basis h))%nat.
  Proof.
    destruct h as [d|s].
    - rewrite basis_full. destruct Hok as (n & Hn & Ed). destruct (thm_hs_bijection n d Hn Ed) as (E & _ & _ & H & _).
      assert (Hp : (0 < d <= 2 ^ 30)%Z) by (eapply pow30; eauto). cbn [basis]. rewrite map_length, seq_length. simpl.
      unfold hs_fock. split.
      + intros [H1 ->]. destruct (Z.leb_spec d (Z.of_nat i)); [lia|]. split; [|lia]. f_equal. unfold wrap64.
        rewrite Z.mod_small by (unfold two64; lia). lia.
      + intros [H1 H2]. destruct (Z.leb_spec d (Z.of_nat i)); [lia|]. injection H1 as <-. split; [lia|].
        unfold wrap64. rewrite Z.mod_small by (unfold two64; lia). lia.
    - simpl. unfold sub_fock. split.
      + intros H. rewrite H. split; [reflexivity|]. apply nth_error_Some. congruence.
      + intros [H1 H2]. destruct (nth_error (sub_states s) i); congruence.
  Qed.
  Lemma sp_index_spec i f : sp_index h f = Ok i <-> nth_error (basis h) i = Some f.
  Proof.
    destruct h as [d|s].
    - rewrite basis_full. destruct Hok as (n & Hn & Ed). destruct (thm_hs_bijection n d Hn Ed) as (E & _ & Hf & _ & Ht & _).
      assert (Hp : (0 < d <= 2 ^ 30)%Z) by (eapply pow30; eauto). simpl.
      destruct (N.lt_ge_cases f (2 ^ N.of_nat n)) as [Hl|Hl].
      + destruct (Hf f Hl) as (j & Ej & Hj & _). rewrite Ej. destruct (Z.ltb_spec j 0); [lia|].
        assert (j = Z.of_N f).
        { unfold hs_index in Ej. destruct (dim_u64 d <=? Z.of_N f)%Z; [discriminate|]. injection Ej as <-.
          apply to_int32_id. rewrite E in Hp. assert (Z.of_N f < 2 ^ Z.of_nat n)%Z by (rewrite <- nat_N_Z; change 2%Z with (Z.of_N 2); rewrite <- N2Z.inj_pow; lia). lia. }
        subst j. split; [intros H1; injection H1 as <-; lia|]. intros [H1 ->]. f_equal. lia.
      + rewrite (Ht f Hl). split; [discriminate|]. intros [H1 ->].
        assert (Z.of_N (2 ^ N.of_nat n) = d) by (rewrite N2Z.inj_pow, nat_N_Z; symmetry; exact E). lia.
    - destruct Hok as (idx & fs & Hd & ->). destruct (thm_sub_bijection idx fs Hd) as (_ & _ & _ & _ & H & _). simpl.
      rewrite H. unfold sub_fock. split.
      + destruct (nth_error (sub_states (sub_adds (sub_new idx) fs)) i); congruence.
      + intros ->. reflexivity.
  Qed.
  Lemma sp_has_spec f : sp_has h f = true <-> In f (basis h).
  Proof.
    destruct h as [d|s].
    - destruct Hok as (n & Hn & Ed). destruct (thm_hs_bijection n d Hn Ed) as (E & Hh & _). simpl. rewrite Hh.
      rewrite in_map_iff. split.
      + intros Hf. exists (N.to_nat f). split; [lia|]. apply in_seq. 
        assert (Z.of_N (2 ^ N.of_nat n) = d) by (rewrite N2Z.inj_pow, nat_N_Z; symmetry; exact E). lia.
      + intros (k & <- & Hk). apply in_seq in Hk.
        assert (Z.of_N (2 ^ N.of_nat n) = d) by (rewrite N2Z.inj_pow, nat_N_Z; symmetry; exact E). lia.
    - destruct Hok as (idx & fs & Hd & ->). destruct (thm_sub_bijection idx fs Hd) as (_ & _ & Hs & H & _). simpl.
      rewrite H, Hs. reflexivity.
  Qed.
  Lemma sp_index_In f : In f (basis h) -> exists i, sp_index h f = Ok i /\ (i < length (basis h))%nat /\ nth_error (basis h) i = Some f.
  Proof.
    intros H. apply In_nth_error in H. destruct H as [i H]. exists i. split; [apply sp_index_spec; exact H|].
    split; [apply nth_error_Some; congruence|exact H].
  Qed.
End Spaces.

Section StateProofs.
  Context (S : scalar_ops) (L : scalar_laws S).
  Local Open Scope K_scope.
  Add Ring Kring : (sl_ring S L).
  Notation state := (state S).
  Implicit Types (st s t : state) (m : list (nat * S)) (v : list S) (x a : S).

  (** ---- amplitudes ---- *)
  Lemma amp_combine (c : nat -> S) (bs : list N) k i g : NoDup bs -> nth_error bs i = Some g ->
    amp (combine (map c (seq k (length bs))) bs) g = c (k + i)%nat.
  Proof.
    revert k i. induction bs as [|b bs IH]; intros k i Hd H; [destruct i; discriminate|]. inversion_clear Hd.
    cbn [length seq map combine amp]. destruct i as [|i].
    - simpl in H. injection H as ->. rewrite N.eqb_refl, Nat.add_0_r.
      assert (E : amp (combine (map c (seq (Datatypes.S k) (length bs))) bs) g = k0).
      { clear - H0 L. generalize (Datatypes.S k). induction bs as [|b bs IH]; intros n; [reflexivity|].
        cbn [length seq map combine amp]. destruct (N.eqb_spec b g) as [->|Hn]; [exfalso; apply H0; now left|].
        rewrite IH by (intros H; apply H0; now right). ring. }
      rewrite E. ring.
    - simpl in H. destruct (N.eqb_spec b g) as [->|Hn]; [exfalso; apply H0; eapply nth_error_In; eauto|].
      rewrite (IH (Datatypes.S k) i) by assumption. rewrite Nat.add_succ_comm. ring.
  Qed.
  Lemma amp_combine_out (c : list S) (bs : list N) g : ~ In g bs -> amp (combine c bs) g = k0.
  Proof.
    revert c. induction bs as [|b bs IH]; intros [|x c] H; try reflexivity.
    cbn [combine amp]. destruct (N.eqb_spec b g) as [->|Hn]; [exfalso; apply H; now left|].
    rewrite IH by (intros H1; apply H; now right). ring.
  Qed.
  Lemma amplitude_at st i g : space_ok (st_sp st) -> nth_error (basis (st_sp st)) i = Some g -> amplitude st g = st_coef st i.
  Proof. intros Hok H. unfold amplitude, st_vec. rewrite (amp_combine _ _ 0 i) by (auto using basis_NoDup). reflexivity. Qed.
  Lemma amplitude_out st g : ~ In g (basis (st_sp st)) -> amplitude st g = k0.
  Proof. apply amp_combine_out. Qed.

  (** ---- association lists ---- *)
  Definition mcoef m i : S := match a_find i m with Some a => a | None => k0 end.
  Lemma a_find_None i m : a_find i m = None <-> ~ In i (map fst m).
  Proof.
    induction m as [|[j a] m IH]; simpl; [tauto|]. destruct (Nat.eqb_spec j i) as [->|Hn]; [split; [discriminate|tauto]|].
    rewrite IH. tauto.
  Qed.
  Lemma a_find_app i m r : a_find i (m ++ r) = match a_find i m with Some a => Some a | None => a_find i r end.
  Proof. induction m as [|[j a] m IH]; simpl; [reflexivity|]. destruct (j =? i)%nat; auto. Qed.
  Lemma a_upd_keys i u m : map fst (a_upd i u m) = map fst m.
  Proof. induction m as [|[j a] m IH]; simpl; [reflexivity|]. destruct (j =? i)%nat; simpl; congruence. Qed.
  Lemma a_find_upd i k u m : a_find k (a_upd i u m) = if (i =? k)%nat then option_map u (a_find k m) else a_find k m.
  Proof.
    induction m as [|[j a] m IH]; simpl; [destruct (i =? k)%nat; reflexivity|].
    destruct (Nat.eqb_spec j i) as [->|Hn]; simpl.
    - destruct (Nat.eqb_spec i k) as [->|Hn]; reflexivity.
    - destruct (Nat.eqb_spec j k) as [->|Hn2]; [|exact IH].
      destruct (Nat.eqb_spec i k); [congruence|reflexivity].
  Qed.
  Lemma put_or_coef i k u a m : a = u k0 -> mcoef (a_put_or i u a m) k = if (i =? k)%nat then u (mcoef m k) else mcoef m k.
  Proof.
    intros ->. unfold mcoef, a_put_or. destruct (a_find i m) as [b|] eqn:E.
    - rewrite a_find_upd. destruct (Nat.eqb_spec i k) as [->|Hn]; [rewrite E; reflexivity|reflexivity].
    - rewrite a_find_app. simpl. destruct (Nat.eqb_spec i k) as [->|Hn].
      + rewrite E. reflexivity.
      + destruct (a_find k m); reflexivity.
  Qed.
  Lemma put_or_keys i u a m : NoDup (map fst m) -> NoDup (map fst (a_put_or i u a m)).
  Proof.
    intros H. unfold a_put_or. destruct (a_find i m) eqn:E; [rewrite a_upd_keys; exact H|].
    rewrite map_app. simpl. apply a_find_None in E.
    rewrite <- (rev_involutive (map fst m ++ [i])). apply NoDup_rev. rewrite rev_app_distr. simpl.
    constructor; [rewrite <- in_rev; exact E|apply NoDup_rev; exact H].
  Qed.
  Lemma put_or_bound n i u a m : (i < n)%nat -> Forall (fun ia => (fst ia < n)%nat) m -> Forall (fun ia => (fst ia < n)%nat) (a_put_or i u a m).
  Proof.
    intros Hi H. unfold a_put_or. destruct (a_find i m) eqn:E.
    - rewrite Forall_forall in *. intros [j b] Hin. assert (In j (map fst (a_upd i u m))) by (apply in_map_iff; exists (j, b); auto).
      rewrite a_upd_keys in H0. apply in_map_iff in H0. destruct H0 as ([j' b'] & Ej & Hj). simpl in *. subst. apply (H _ Hj).
    - apply Forall_app. split; [exact H|]. constructor; [exact Hi|constructor].
  Qed.
  Lemma prune_sub m ia : In ia (prune m) -> In ia m.
  Proof. unfold prune. intros H. apply filter_In in H. apply H. Qed.
  Lemma prune_keys m : NoDup (map fst m) -> NoDup (map fst (prune m)).
  Proof.
    induction m as [|[j a] m IH]; simpl; [auto|]. intros H. inversion_clear H. destruct (kisz a); simpl; [auto|].
    constructor; [|auto]. intros Hin. apply H0. apply in_map_iff in Hin. destruct Hin as (ia & <- & Hin).
    apply in_map. apply prune_sub. exact Hin.
  Qed.
  Lemma prune_bound n m : Forall (fun ia => (fst ia < n)%nat) m -> Forall (fun ia => (fst ia < n)%nat) (prune m).
  Proof. rewrite !Forall_forall. intros H ia Hin. apply H. apply prune_sub. exact Hin. Qed.
  Lemma prune_coef m i : NoDup (map fst m) -> mcoef (prune m) i = mcoef m i.
  Proof.
    unfold mcoef. induction m as [|[j a] m IH]; intros Hd; simpl; [reflexivity|]. inversion_clear Hd.
    destruct (kisz a) eqn:E; simpl.
    - apply (sl_isz S L) in E. subst a. destruct (Nat.eqb_spec j i) as [->|Hn]; [|apply IH; assumption].
      rewrite (proj2 (a_find_None i (prune m))); [reflexivity|]. intros Hin. apply H. apply in_map_iff in Hin.
      destruct Hin as (ia & Ei & Hin). rewrite <- Ei. apply in_map. apply prune_sub. exact Hin.
    - destruct (j =? i)%nat; [reflexivity|apply IH; assumption].
  Qed.
  Lemma mcoef_cons j a m i : mcoef ((j, a) :: m) i = if (j =? i)%nat then a else mcoef m i.
  Proof. unfold mcoef. simpl. destruct (j =? i)%nat; reflexivity. Qed.
  Lemma mcoef_out m i : ~ In i (map fst m) -> mcoef m i = k0.
  Proof. intros H. unfold mcoef. apply a_find_None in H. rewrite H. reflexivity. Qed.

  (** ---- st_update ---- *)
  Lemma v_upd_spec i u v : (i < length v)%nat -> exists v', v_upd i u v = Some v' /\ length v' = length v /\
    forall k, (k < length v)%nat -> nth k v' k0 = if (i =? k)%nat then u (nth k v k0) else nth k v k0.
  Proof.
    revert i. induction v as [|a v IH]; intros i Hi; simpl in Hi; [lia|]. destruct i as [|i]; simpl.
    - exists (u a :: v). repeat split. intros [|k] _; reflexivity.
    - destruct (IH i) as (v' & -> & Hl & Hk); [lia|]. exists (a :: v'). simpl. repeat split; [congruence|].
      intros [|k] Hk'; [reflexivity|]. apply Hk. lia.
  Qed.
  Definition kind_of st : bool := match st_amps st with AMap _ => true | AVec _ => false end.
  Lemma st_update_spec i u st : st_ok st -> (i < length (basis (st_sp st)))%nat ->
    exists st', st_update i u st = Ok st' /\ st_ok st' /\ st_sp st' = st_sp st /\ kind_of st' = kind_of st /\
      forall k, (k < length (basis (st_sp st)))%nat -> st_coef st' k = if (i =? k)%nat then u (st_coef st k) else st_coef st k.
  Proof.
    destruct st as [h [m|v]]; unfold st_ok, st_update, st_coef, kind_of; cbn [st_sp st_amps]; intros [Hok H] Hi.
    - destruct H as [H1 H2]. eexists. split; [reflexivity|]. cbn [st_sp st_amps]. split; [split; [exact Hok|split]|split; [reflexivity|split; [reflexivity|]]].
      + apply put_or_keys; exact H1.
      + apply put_or_bound; assumption.
      + intros k _. apply (put_or_coef i k u (u k0) m eq_refl).
    - destruct (v_upd_spec i u v) as (v' & -> & Hl & Hk); [lia|]. eexists. split; [reflexivity|]. cbn [st_sp st_amps].
      split; [split; [exact Hok|congruence]|split; [reflexivity|split; [reflexivity|]]]. intros k Hk'. apply Hk. lia.
  Qed.
  (** the same in terms of amplitudes *)
  Lemma st_update_amp u st f : st_ok st -> In f (basis (st_sp st)) ->
    exists i st', sp_index (st_sp st) f = Ok i /\ st_update i u st = Ok st' /\ st_ok st' /\ st_sp st' = st_sp st /\ kind_of st' = kind_of st /\
      forall g, amplitude st' g = if N.eqb f g then u (amplitude st g) else amplitude st g.
  Proof.
    intros Hok Hf. assert (Hs := proj1 Hok). destruct (sp_index_In _ Hs f Hf) as (i & Ei & Hi & Hni).
    destruct (st_update_spec i u st Hok Hi) as (st' & E & Hok' & Hsp & Hk & Hc).
    exists i, st'. repeat (split; [assumption|]). intros g.
    destruct (in_dec N.eq_dec g (basis (st_sp st))) as [Hin|Hin].
    - apply In_nth_error in Hin. destruct Hin as [k Hk2].
      assert (k < length (basis (st_sp st)))%nat by (apply nth_error_Some; congruence).
      rewrite (amplitude_at st' k g) by (rewrite ?Hsp; assumption). rewrite (amplitude_at st k g) by assumption. rewrite Hc by assumption.
      destruct (Nat.eqb_spec i k) as [->|Hn].
      + assert (f = g) by congruence. subst. rewrite N.eqb_refl. reflexivity.
      + destruct (N.eqb_spec f g) as [->|_]; [|reflexivity]. exfalso. apply Hn.
        eapply NoDup_nth_error; [apply (basis_NoDup _ Hs)|exact Hi|congruence].
    - rewrite !amplitude_out by (rewrite ?Hsp; assumption). destruct (N.eqb_spec f g) as [->|]; [contradiction|reflexivity].
  Qed.

  Lemma st_zero_ok k h : space_ok h -> st_ok (st_zero S k h) /\ (forall g, amplitude (st_zero S k h) g = k0).
  Proof.
    intros Hok. assert (Hc : forall i, st_coef (st_zero S k h) i = k0).
    { intros i. unfold st_coef, st_zero. cbn [st_amps]. destruct k; [reflexivity|].
      generalize (Z.to_nat (sp_size h)). intros n. revert i. induction n; intros [|i]; simpl; auto. }
    split.
    - split; [exact Hok|]. unfold st_zero. cbn [st_amps st_sp]. destruct k; [split; constructor|].
      rewrite repeat_length, (basis_length h Hok). apply Nat2Z.id.
    - intros g. destruct (in_dec N.eq_dec g (basis h)) as [Hin|Hin]; [|apply amplitude_out; exact Hin].
      apply In_nth_error in Hin. destruct Hin as [i Hi]. rewrite (amplitude_at _ i); auto.
  Qed.

  (** ---- sums over the entries visited by foreach ---- *)
  Lemma vsum_combine_ext (F : N -> S) (c c' : nat -> S) bs k :
    (forall i, (k <= i < k + length bs)%nat -> c i = c' i) ->
    vsum S F (combine (map c (seq k (length bs))) bs) = vsum S F (combine (map c' (seq k (length bs))) bs).
  Proof.
    revert k. induction bs as [|b bs IH]; intros k H; [reflexivity|]. cbn [length seq map combine vsum].
    rewrite H by (simpl; lia). f_equal. apply IH. intros i Hi. apply H. simpl. lia.
  Qed.
  Lemma vsum_combine_add (F : N -> S) (c c' : nat -> S) bs k :
    vsum S F (combine (map (fun i => c i + c' i) (seq k (length bs))) bs) =
    vsum S F (combine (map c (seq k (length bs))) bs) + vsum S F (combine (map c' (seq k (length bs))) bs).
  Proof. revert k. induction bs as [|b bs IH]; intros k; cbn [length seq map combine vsum]; [ring|]. rewrite IH. ring. Qed.
  Lemma vsum_combine_delta (F : N -> S) j a bs k : forall f, nth_error bs j = Some f ->
    vsum S F (combine (map (fun i => if (k + j =? i)%nat then a else k0) (seq k (length bs))) bs) = a * F f.
  Proof.
    revert j k. induction bs as [|b bs IH]; intros j k f H; [destruct j; discriminate|]. cbn [length seq map combine vsum].
    destruct j as [|j]; simpl in H.
    - injection H as ->. rewrite Nat.add_0_r, Nat.eqb_refl.
      assert (E : forall n, (k < n)%nat -> vsum S F (combine (map (fun i => if (k =? i)%nat then a else k0) (seq n (length bs))) bs) = k0).
      { clear - L. induction bs as [|b bs IH]; intros n Hn; [reflexivity|]. cbn [length seq map combine vsum].
        assert (E : (k =? n)%nat = false) by (apply Nat.eqb_neq; lia). rewrite E, IH by lia. ring. }
      rewrite E by lia. ring.
    - assert (E : (k + Datatypes.S j =? k)%nat = false) by (apply Nat.eqb_neq; lia). rewrite E.
      rewrite (vsum_combine_ext F _ (fun i => if (Datatypes.S k + j =? i)%nat then a else k0)).
      + rewrite (IH j (Datatypes.S k) f H). ring.
      + intros i _. rewrite Nat.add_succ_comm. reflexivity.
  Qed.

  (** contribution of a list of (index, amplitude) pairs *)
  Definition esum (h : space) (F : N -> S) (es : list (nat * S)) : S :=
    ksum (map (fun ia => match nth_error (basis h) (fst ia) with Some f => snd ia * F f | None => k0 end) es).
  Lemma esum_map h F m : NoDup (map fst m) -> Forall (fun ia => (fst ia < length (basis h))%nat) m ->
    esum h F m = vsum S F (combine (map (mcoef m) (seq 0 (length (basis h)))) (basis h)).
  Proof.
    unfold esum. induction m as [|[j a] m IH]; intros Hd Hb.
    - simpl. symmetry. rewrite (vsum_combine_ext F _ (fun _ => k0)) by reflexivity.
      clear Hd Hb. generalize 0%nat. induction (basis h) as [|b bs IHb]; intros k; cbn [length seq map combine vsum]; [reflexivity|]. rewrite IHb. ring.
    - inversion_clear Hd. inversion_clear Hb. cbn [map ksum fst snd] in *. rewrite IH by assumption.
      assert (Hj := H1). apply nth_error_Some in Hj. destruct (nth_error (basis h) j) as [f|] eqn:E; [|congruence].
      rewrite <- (vsum_combine_delta F j a (basis h) 0 f E). rewrite <- vsum_combine_add.
      apply vsum_combine_ext. intros i _. rewrite mcoef_cons. simpl. destruct (Nat.eqb_spec j i) as [->|Hn]; [|ring].
      rewrite mcoef_out by assumption. ring.
  Qed.
  Lemma esum_vec h F v : length v = length (basis h) ->
    esum h F (combine (seq 0 (length v)) v) = vsum S F (combine (map (fun i => nth i v k0) (seq 0 (length (basis h)))) (basis h)).
  Proof.
    intros Hl. unfold esum.
    assert (G : forall v k bs pre, length pre = k -> length v = length bs -> 
      ksum (map (fun ia => match nth_error (pre ++ bs) (fst ia) with Some f => snd ia * F f | None => k0 end) (combine (seq k (length v)) v))
      = vsum S F (combine v bs)).
    { clear - L. induction v as [|a v IH]; intros k bs pre Hp Hl; [reflexivity|]. destruct bs as [|b bs]; [discriminate|].
      cbn [length seq combine map ksum vsum fst snd]. rewrite nth_error_app2, Hp, Nat.sub_diag by lia. simpl nth_error. cbv iota. f_equal.
      specialize (IH (Datatypes.S k) bs (pre ++ [b])). rewrite <- app_assoc in IH. apply IH; [rewrite app_length; simpl; lia|].
      simpl in Hl. congruence. }
    specialize (G v 0%nat (basis h) [] eq_refl Hl). cbn [app] in G. rewrite G. f_equal. f_equal. rewrite <- Hl. clear.
    induction v as [|a v IH]; [reflexivity|]. simpl. f_equal. rewrite <- seq_shift, map_map. exact IH.
  Qed.
  Lemma esum_entries st F : st_ok st -> esum (st_sp st) F (st_entries st) = vsum S F (st_vec st).
  Proof.
    intros [Hok H]. unfold st_vec, st_entries. destruct st as [h [m|v]]; cbn [st_sp st_amps] in *.
    - destruct H as [H1 H2]. rewrite esum_map by (auto using prune_keys, prune_bound).
      apply vsum_combine_ext. intros i _. unfold st_coef. cbn [st_amps]. apply (prune_coef m i H1).
    - rewrite esum_vec by exact H. reflexivity.
  Qed.
  Lemma entries_bound st : st_ok st -> Forall (fun ia => (fst ia < length (basis (st_sp st)))%nat) (st_entries st).
  Proof.
    intros [Hok H]. unfold st_entries. destruct st as [h [m|v]]; cbn [st_sp st_amps] in *; [apply prune_bound; apply H|].
    apply Forall_forall. intros [i a] Hin. apply in_combine_l in Hin. apply in_seq in Hin. simpl. lia.
  Qed.
  Lemma entries_keys st : st_ok st -> NoDup (map fst (st_entries st)).
  Proof.
    intros [Hok H]. unfold st_entries. destruct st as [h [m|v]]; cbn [st_sp st_amps] in *; [apply prune_keys; apply H|].
    assert (E : forall v n, map fst (combine (seq n (length v)) v) = seq n (length v)).
    { clear. induction v as [|a v IH]; intros n; simpl; [reflexivity|]. f_equal. apply IH. }
    rewrite E. apply seq_NoDup.
  Qed.
  Lemma entries_coef st i : st_ok st -> (i < length (basis (st_sp st)))%nat -> mcoef (st_entries st) i = st_coef st i.
  Proof.
    intros [Hok H] Hi. unfold st_entries, st_coef. destruct st as [h [m|v]]; cbn [st_sp st_amps] in *.
    - apply (prune_coef m i). apply H.
    - rewrite <- H in Hi. clear - Hi. replace i with (0 + i)%nat at 1 by reflexivity. generalize 0%nat. revert i Hi.
      induction v as [|a v IH]; intros i Hi n; simpl in *; [lia|]. rewrite mcoef_cons. destruct i as [|i].
      + rewrite Nat.add_0_r, Nat.eqb_refl. reflexivity.
      + assert (E : (n =? n + Datatypes.S i)%nat = false) by (apply Nat.eqb_neq; lia). rewrite E, <- Nat.add_succ_comm. apply IH. lia.
  Qed.

  (** ---- vector space operations ---- *)
  Lemma amp_ext s (F : nat -> S) : space_ok (st_sp s) ->
    (forall i, (i < length (basis (st_sp s)))%nat -> st_coef s i = F i) ->
    forall g, amplitude s g = amp (combine (map F (seq 0 (length (basis (st_sp s))))) (basis (st_sp s))) g.
  Proof.
    intros Hok H g. unfold amplitude, st_vec. f_equal. f_equal. apply map_ext_in. intros i Hi. apply in_seq in Hi. apply H. lia.
  Qed.

  Lemma fold_put_keys (u : S -> S -> S) (w : S -> S) m2 m1 : NoDup (map fst m1) ->
    NoDup (map fst (fold_left (fun m ia => a_put_or (fst ia) (fun x => u x (snd ia)) (w (snd ia)) m) m2 m1)).
  Proof. revert m1. induction m2 as [|ia m2 IH]; intros m1 H; simpl; [exact H|]. apply IH. apply put_or_keys. exact H. Qed.
  Lemma fold_put_bound n (u : S -> S -> S) (w : S -> S) m2 m1 : Forall (fun ia => (fst ia < n)%nat) m1 -> Forall (fun ia => (fst ia < n)%nat) m2 ->
    Forall (fun ia => (fst ia < n)%nat) (fold_left (fun m ia => a_put_or (fst ia) (fun x => u x (snd ia)) (w (snd ia)) m) m2 m1).
  Proof.
    intros H1 H2. revert m1 H1. induction H2 as [|ia m2 Hi H2 IH]; intros m1 H; simpl; [exact H|]. apply IH. apply put_or_bound; assumption.
  Qed.
  Lemma fold_put_coef (u : S -> S -> S) (w : S -> S) (Hw : forall x, w x = u k0 x) (Hu : forall x, u x k0 = x) m2 m1 i :
    NoDup (map fst m2) ->
    mcoef (fold_left (fun m ia => a_put_or (fst ia) (fun x => u x (snd ia)) (w (snd ia)) m) m2 m1) i = u (mcoef m1 i) (mcoef m2 i).
  Proof.
    revert m1. induction m2 as [|[j a] m2 IH]; intros m1 Hd; simpl.
    - symmetry. apply Hu.
    - inversion_clear Hd. rewrite IH by assumption. rewrite mcoef_cons.
      rewrite (put_or_coef j i (fun x => u x a) (w a) m1 (Hw a)).
      destruct (Nat.eqb_spec j i) as [->|Hn]; [|reflexivity]. rewrite (mcoef_out m2 i) by assumption. apply Hu.
  Qed.
  Lemma v_zip_spec (f : S -> S -> S) v w : length v = length w -> exists r, v_zip f v w = Some r /\ length r = length v /\
    forall i, (i < length v)%nat -> nth i r k0 = f (nth i v k0) (nth i w k0).
  Proof.
    revert w. induction v as [|a v IH]; intros [|b w] H; try discriminate; simpl.
    - exists []. repeat split. intros; lia.
    - destruct (IH w) as (r & -> & Hl & Hr); [simpl in H; congruence|]. exists (f a b :: r). simpl. repeat split; [congruence|].
      intros [|i] Hi; [reflexivity|]. apply Hr. lia.
  Qed.

  Lemma coef_amp2 (s t r : state) (f : S -> S -> S) : space_ok (st_sp s) -> st_sp t = st_sp s -> st_sp r = st_sp s -> f k0 k0 = k0 ->
    (forall i, (i < length (basis (st_sp s)))%nat -> st_coef r i = f (st_coef s i) (st_coef t i)) ->
    forall g, amplitude r g = f (amplitude s g) (amplitude t g).
  Proof.
    intros Hok Ht Hr H0 Hc g. destruct (in_dec N.eq_dec g (basis (st_sp s))) as [Hin|Hin].
    - apply In_nth_error in Hin. destruct Hin as [i Hi].
      assert (i < length (basis (st_sp s)))%nat by (apply nth_error_Some; congruence).
      rewrite !(amplitude_at _ i g) by (rewrite ?Ht, ?Hr; assumption). auto.
    - rewrite !amplitude_out by (rewrite ?Ht, ?Hr; assumption). auto.
  Qed.

  Lemma st_bin_spec (opm : list (nat * S) -> list (nat * S) -> list (nat * S)) (u : S -> S -> S) (w : S -> S)
    (Hw : forall x, w x = u k0 x) (Hu : forall x, u x k0 = x) s t :
    opm = (fun m1 m2 => prune (fold_left (fun m ia => a_put_or (fst ia) (fun x => u x (snd ia)) (w (snd ia)) m) m2 m1)) ->
    st_ok s -> st_ok t -> st_sp t = st_sp s -> same_kind s t ->
    exists r, match st_amps s, st_amps t with
    | AMap m1, AMap m2 => Ok (mkState (st_sp s) (AMap (opm m1 m2)))
    | AVec v1, AVec v2 => match v_zip u v1 v2 with Some v => Ok (mkState (st_sp s) (AVec v)) | None => UB end
    | _, _ => UB end = Ok r /\ st_ok r /\ st_sp r = st_sp s /\ forall g, amplitude r g = u (amplitude s g) (amplitude t g).
  Proof.
    intros -> [Hok Hs] [_ Ht] Hsp Hk. destruct s as [h [m1|v1]], t as [h2 [m2|v2]]; unfold same_kind in Hk; cbn [st_sp st_amps] in *; try contradiction; subst h2.
    - destruct Hs as [Hs1 Hs2], Ht as [Ht1 Ht2]. eexists. split; [reflexivity|]. split; [split; [exact Hok|split]|].
      + apply prune_keys, fold_put_keys; assumption.
      + cbn [st_sp]. apply prune_bound. apply fold_put_bound; assumption.
      + split; [reflexivity|]. apply coef_amp2; auto. intros i _. unfold st_coef. cbn [st_amps].
        change (mcoef (prune (fold_left (fun m ia => a_put_or (fst ia) (fun x => u x (snd ia)) (w (snd ia)) m) m2 m1)) i = u (mcoef m1 i) (mcoef m2 i)).
        rewrite prune_coef by (apply fold_put_keys; assumption). apply fold_put_coef; assumption.
    - destruct (v_zip_spec u v1 v2) as (r & -> & Hl & Hr); [congruence|]. eexists. split; [reflexivity|]. split; [split; [exact Hok|cbn; congruence]|].
      split; [reflexivity|]. apply coef_amp2; auto. intros i Hi. cbn [st_sp] in Hi. unfold st_coef. cbn [st_amps]. apply Hr. lia.
  Qed.

  Lemma thm_st_add s t : st_ok s -> st_ok t -> st_sp t = st_sp s -> same_kind s t ->
    exists r, st_add s t = Ok r /\ st_ok r /\ st_sp r = st_sp s /\ forall g, amplitude r g = amplitude s g + amplitude t g.
  Proof.
    intros. apply (st_bin_spec map_add kadd (fun x => x)); auto; intros; ring.
  Qed.
  Lemma thm_st_sub s t : st_ok s -> st_ok t -> st_sp t = st_sp s -> same_kind s t ->
    exists r, st_sub s t = Ok r /\ st_ok r /\ st_sp r = st_sp s /\ forall g, amplitude r g = amplitude s g - amplitude t g.
  Proof.
    intros. apply (st_bin_spec map_sub ksub kopp); auto; intros; ring.
  Qed.
  Lemma scale_keys x m : map fst (map (fun ia : nat * S => (fst ia, snd ia * x)) m) = map fst m.
  Proof. rewrite map_map. reflexivity. Qed.
  Lemma scale_coef x m i : mcoef (map (fun ia : nat * S => (fst ia, snd ia * x)) m) i = mcoef m i * x.
  Proof.
    induction m as [|[j a] m IH]; [unfold mcoef; simpl; ring|]. simpl. rewrite !mcoef_cons. destruct (j =? i)%nat; [reflexivity|exact IH].
  Qed.
  Lemma thm_st_scale x s : st_ok s -> st_ok (st_scale x s) /\ st_sp (st_scale x s) = st_sp s /\ forall g, amplitude (st_scale x s) g = amplitude s g * x.
  Proof.
    intros [Hok H]. destruct s as [h [m|v]]; unfold st_scale; cbn [st_sp st_amps] in *.
    - destruct H as [H1 H2]. split; [split; [exact Hok|split]|split; [reflexivity|]].
      + apply prune_keys. rewrite scale_keys. exact H1.
      + cbn [st_sp]. apply prune_bound. rewrite Forall_forall in *. intros ia Hin. apply in_map_iff in Hin. destruct Hin as (ja & <- & Hin). apply (H2 _ Hin).
      + apply (coef_amp2 (mkState h (AMap m)) (mkState h (AMap m)) _ (fun a _ => a * x)); auto; [ring|]. intros i _. unfold st_coef. cbn [st_amps].
        change (mcoef (prune (map (fun ia : nat * S => (fst ia, snd ia * x)) m)) i = mcoef m i * x).
        rewrite prune_coef by (rewrite scale_keys; exact H1). apply scale_coef.
    - split; [split; [exact Hok|cbn; rewrite map_length; exact H]|split; [reflexivity|]].
      apply (coef_amp2 (mkState h (AVec v)) (mkState h (AVec v)) _ (fun a _ => a * x)); auto; [ring|]. intros i Hi. cbn [st_sp] in Hi. unfold st_coef. cbn [st_amps].
      rewrite <- H in Hi. clear - Hi L. revert i Hi. induction v as [|a v IH]; intros [|i] Hi; simpl in *; try lia; [reflexivity|]. apply IH. lia.
  Qed.

  (** ---- scalar product ---- *)
  Lemma fold_left_kadd v x : fold_left kadd v x = x + ksum v.
  Proof. revert x. induction v as [|a v IH]; intros x; simpl; [ring|]. rewrite IH. ring. Qed.
  Lemma map_dot_sum m1 m2 x : fold_left (fun r ia => match a_find (fst ia) m2 with Some b => r + kconj (snd ia) * b | None => r end) m1 x
    = x + ksum (map (fun ia : nat * S => kconj (snd ia) * mcoef m2 (fst ia)) m1).
  Proof.
    revert x. induction m1 as [|[j a] m1 IH]; intros x; simpl; [ring|]. rewrite IH. unfold mcoef at 2. destruct (a_find j m2); ring.
  Qed.
  Lemma vsum_amp_basis (s : state) F : vsum S F (st_vec s) = ksum (map (fun i => st_coef s i * F (nth i (basis (st_sp s)) 0%N)) (seq 0 (length (basis (st_sp s))))).
  Proof.
    unfold st_vec. set (c := st_coef s). generalize (basis (st_sp s)). intros bs.
    assert (G : forall k, vsum S F (combine (map c (seq k (length bs))) bs) = ksum (map (fun i => c i * F (nth (i - k) bs 0%N)) (seq k (length bs)))).
    { induction bs as [|b bs IH]; intros k; [reflexivity|]. cbn [length seq map combine vsum ksum]. rewrite Nat.sub_diag. simpl nth. f_equal. rewrite IH.
      f_equal. apply map_ext_in. intros i Hi. apply in_seq in Hi. replace (i - k)%nat with (Datatypes.S (i - Datatypes.S k)) by lia. reflexivity. }
    rewrite G. f_equal. apply map_ext. intros i. rewrite Nat.sub_0_r. reflexivity.
  Qed.
  Lemma basis_sum (G : N -> S) bs : ksum (map G bs) = ksum (map (fun i => G (nth i bs 0%N)) (seq 0 (length bs))).
  Proof.
    induction bs as [|b bs IH]; [reflexivity|]. cbn [map length seq ksum]. f_equal. rewrite IH, <- seq_shift, map_map. reflexivity.
  Qed.
  (** the value of dot_product is the sum over the basis *)
  Lemma thm_st_dot s t : st_ok s -> st_ok t -> st_sp t = st_sp s -> same_kind s t ->
    st_dot s t = Ok (ksum (map (fun g => kconj (amplitude s g) * amplitude t g) (basis (st_sp s)))).
  Proof.
    intros Hs Ht Hsp Hk. assert (Hok := proj1 Hs).
    assert (E : forall c d : nat -> S, (forall i, (i < length (basis (st_sp s)))%nat -> c i = st_coef s i) ->
       (forall i, (i < length (basis (st_sp s)))%nat -> d i = st_coef t i) ->
       ksum (map (fun i => kconj (c i) * d i) (seq 0 (length (basis (st_sp s))))) =
       ksum (map (fun g => kconj (amplitude s g) * amplitude t g) (basis (st_sp s)))).
    { intros c d Hc Hd. rewrite basis_sum. f_equal. apply map_ext_in. intros i Hi. apply in_seq in Hi.
      assert (Hn : nth_error (basis (st_sp s)) i = Some (nth i (basis (st_sp s)) 0%N)) by (apply nth_error_nth'; lia).
      rewrite (amplitude_at s i) by assumption. rewrite (amplitude_at t i) by (rewrite Hsp; assumption). rewrite Hc, Hd by lia. reflexivity. }
    destruct Hs as [_ Hs], Ht as [_ Ht]. unfold st_dot. destruct s as [h [m1|v1]], t as [h2 [m2|v2]]; unfold same_kind in Hk; cbn [st_sp st_amps] in *; try contradiction; subst h2.
    - f_equal. unfold map_dot. rewrite map_dot_sum. destruct Hs as [Hs1 Hs2]. rewrite <- (E (mcoef m1) (mcoef m2)); [|reflexivity|reflexivity].
      assert (G : ksum (map (fun ia : nat * S => kconj (snd ia) * mcoef m2 (fst ia)) m1) =
                  ksum (map (fun i => kconj (mcoef m1 i) * mcoef m2 i) (seq 0 (length (basis h))))); [|rewrite G; ring].
      clear E Ht Hok. set (n := length (basis h)) in *. induction m1 as [|[j a] m1 IH].
      + simpl. clear - L. generalize 0%nat. induction n as [|n IH]; intros k; simpl; [reflexivity|]. rewrite <- IH. unfold mcoef at 1. simpl. rewrite (kconj_0 S L). ring.
      + inversion_clear Hs1. inversion_clear Hs2. cbn [map ksum fst snd] in *. rewrite IH by assumption. clear IH.
        assert (G : forall k, (k <= j < k + n)%nat ->
           kconj a * mcoef m2 j + ksum (map (fun i => kconj (mcoef m1 i) * mcoef m2 i) (seq k n)) =
           ksum (map (fun i => kconj (mcoef ((j, a) :: m1) i) * mcoef m2 i) (seq k n))); [|apply G; lia].
        assert (Hno : forall n k, (j < k)%nat -> ksum (map (fun i => kconj (mcoef ((j, a) :: m1) i) * mcoef m2 i) (seq k n)) = ksum (map (fun i => kconj (mcoef m1 i) * mcoef m2 i) (seq k n))).
        { clear - L. intros n k Hk. f_equal. apply map_ext_in. intros i Hi. apply in_seq in Hi. rewrite mcoef_cons.
          assert (E : (j =? i)%nat = false) by (apply Nat.eqb_neq; lia). rewrite E. reflexivity. }
        clear H1 H2. clearbody n. induction n as [|n IH]; intros k Hkn; [lia|]. cbn [seq map ksum].
        destruct (Nat.eq_dec j k) as [->|Hn].
        * rewrite Hno by lia. rewrite mcoef_cons, Nat.eqb_refl. rewrite (mcoef_out m1 k) by assumption. rewrite (kconj_0 S L). ring.
        * rewrite <- IH by lia. rewrite mcoef_cons. assert (E : (j =? k)%nat = false) by (apply Nat.eqb_neq; lia). rewrite E. ring.
    - destruct (v_zip_spec (fun a b => kconj a * b) v1 v2) as (r & -> & Hl & Hr); [congruence|]. f_equal. rewrite fold_left_kadd.
      rewrite <- (E (fun i => nth i v1 k0) (fun i => nth i v2 k0)); [|reflexivity|reflexivity].
      rewrite <- Hs in *. assert (G : ksum r = ksum (map (fun i => nth i r k0) (seq 0 (length r)))).
      { clear. induction r as [|a r IH]; [reflexivity|]. cbn [length seq map ksum]. simpl nth. f_equal. rewrite IH at 1. rewrite <- seq_shift, map_map. reflexivity. }
      rewrite G, Hl. transitivity (ksum (map (fun i => nth i r k0) (seq 0 (length v1)))); [ring|]. f_equal.
      apply map_ext_in. intros i Hi. apply in_seq in Hi. apply Hr. lia.
  Qed.

  (** ---- projection ---- *)
  Lemma project_fold target (st : state) es r0 : space_ok target -> space_ok (st_sp st) ->
    (match target with Full _ => forall f, In f (basis (st_sp st)) -> In f (basis target) | Sub _ => True end) ->
    NoDup (map fst es) -> Forall (fun ia => (fst ia < length (basis (st_sp st)))%nat) es ->
    st_ok r0 -> st_sp r0 = target ->
    exists r, fold_left (project_step target (st_sp st)) es (Ok r0) = Ok r /\ st_ok r /\ st_sp r = target /\
      forall g, amplitude r g = match sp_index (st_sp st) g with
                                | Ok i => if in_dec Nat.eq_dec i (map fst es) then (if in_dec N.eq_dec g (basis target) then mcoef es i else k0) else amplitude r0 g
                                | _ => amplitude r0 g end.
  Proof.
    intros Ht Hs Hfull. revert r0. induction es as [|[j a] es IH]; intros r0 Hd Hb Hr0 Hsp.
    - exists r0. cbn [fold_left map]. repeat split; try apply Hr0; auto. intros g. destruct (sp_index (st_sp st) g); reflexivity.
    - inversion_clear Hd as [|? ? Hnj Hd']. inversion_clear Hb as [|? ? Hj Hb']. cbn [fst] in Hj.
      apply nth_error_Some in Hj. destruct (nth_error (basis (st_sp st)) j) as [f|] eqn:Ef; [clear Hj|congruence].
      assert (Hstep : exists r1, project_step target (st_sp st) (Ok r0) (j, a) = Ok r1 /\ st_ok r1 /\ st_sp r1 = target /\
         forall g, amplitude r1 g = if N.eqb f g then (if in_dec N.eq_dec g (basis target) then a else k0) else amplitude r0 g).
      { unfold project_step. cbn [bind fst snd]. apply (sp_fock_spec _ Hs) in Ef. destruct Ef as [Ef Hj]. rewrite Ef. cbn [bind].
        assert (Efn : nth_error (basis (st_sp st)) j = Some f) by (apply (sp_fock_spec _ Hs); auto).
        assert (Hin : In f (basis (st_sp st))) by (eapply nth_error_In; exact Efn).
        destruct target as [d|sub] eqn:Etgt.
        - assert (Hft : In f (basis (Full d))) by auto.
          rewrite <- Hsp in Hft. destruct (st_update_amp (fun _ => a) r0 f Hr0 Hft) as (i & r1 & Ei & Eu & Hok1 & Hsp1 & _ & Hamp).
          assert (i = N.to_nat f).
          { rewrite Hsp in Ei. apply (sp_index_spec _ Ht) in Ei. apply basis_full in Ei. destruct Ei as [_ ->]. lia. }
          subst i. rewrite Eu. exists r1. repeat split; try apply Hok1; [congruence|]. intros g. rewrite Hamp. destruct (N.eqb_spec f g) as [->|]; [|reflexivity].
          rewrite Hsp in Hft. destruct (in_dec N.eq_dec g (basis (Full d))); [reflexivity|contradiction].
        - destruct (sp_has (Sub sub) f) eqn:Eh.
          + apply (sp_has_spec _ Ht) in Eh. assert (Hft := Eh). rewrite <- Hsp in Hft. destruct (st_update_amp (fun _ => a) r0 f Hr0 Hft) as (i & r1 & Ei & Eu & Hok1 & Hsp1 & _ & Hamp).
            rewrite Hsp in Ei. rewrite Ei. cbn [bind]. rewrite Eu. exists r1. repeat split; try apply Hok1; [congruence|]. intros g. rewrite Hamp. destruct (N.eqb_spec f g) as [->|]; [|reflexivity].
            destruct (in_dec N.eq_dec g (basis (Sub sub))); [reflexivity|contradiction].
          + exists r0. repeat split; try apply Hr0; auto. intros g. destruct (N.eqb_spec f g) as [->|]; [|reflexivity].
            assert (Hn : ~ In g (basis (Sub sub))) by (rewrite <- (sp_has_spec _ Ht); congruence).
            destruct (in_dec N.eq_dec g (basis (Sub sub))); [contradiction|]. apply amplitude_out. rewrite Hsp. exact Hn. }
      destruct Hstep as (r1 & E1 & Hok1 & Hsp1 & Hamp1).
      destruct (IH r1 Hd' Hb' Hok1 Hsp1) as (r & E & Hok & Hspr & Hamp).
      exists r. cbn [fold_left]. rewrite E1. repeat split; try apply Hok; auto. intros g. rewrite Hamp, Hamp1.
      destruct (sp_index (st_sp st) g) as [i| |] eqn:Eg.
      + apply (sp_index_spec _ Hs) in Eg. cbn [map fst]. rewrite mcoef_cons.
        destruct (Nat.eq_dec j i) as [->|Hn].
        * rewrite Nat.eqb_refl. assert (f = g) by congruence. subst g. rewrite N.eqb_refl.
          destruct (in_dec Nat.eq_dec i (map fst es)); [contradiction|].
          destruct (in_dec Nat.eq_dec i (i :: map fst es)) as [_|Hx]; [reflexivity|exfalso; apply Hx; now left].
        * assert (Enji : (j =? i)%nat = false) by (apply Nat.eqb_neq; exact Hn). rewrite Enji.
          assert (Hfg : f <> g).
          { intros ->. apply Hn. eapply NoDup_nth_error; [apply (basis_NoDup _ Hs)|apply nth_error_Some; congruence|congruence]. }
          destruct (N.eqb_spec f g) as [|_]; [contradiction|].
          destruct (in_dec Nat.eq_dec i (map fst es)) as [Hin|Hin], (in_dec Nat.eq_dec i (j :: map fst es)) as [Hin2|Hin2]; auto;
            exfalso; simpl in Hin2; tauto.
      + destruct (N.eqb_spec f g) as [->|]; [|reflexivity]. exfalso. apply (sp_index_spec _ Hs) in Ef. congruence.
      + destruct (N.eqb_spec f g) as [->|]; [|reflexivity]. exfalso. apply (sp_index_spec _ Hs) in Ef. congruence.
  Qed.

  Lemma thm_st_project k target st : st_ok st -> space_ok target ->
    (match target with Full _ => forall f, In f (basis (st_sp st)) -> In f (basis target) | Sub _ => True end) ->
    exists r, st_project k target st = Ok r /\ st_ok r /\ st_sp r = target /\
      (forall g, In g (basis target) -> amplitude r g = amplitude st g) /\
      (forall g, ~ In g (basis target) -> amplitude r g = k0).
  Proof.
    intros Hst Ht Hfull. destruct (st_zero_ok k target Ht) as [Hz1 Hz2].
    destruct (project_fold target st (st_entries st) (st_zero S k target) Ht (proj1 Hst) Hfull (entries_keys st Hst) (entries_bound st Hst) Hz1) as (r & E & Hok & Hsp & Hamp).
    { unfold st_zero. reflexivity. }
    exists r. split; [exact E|]. split; [exact Hok|]. split; [exact Hsp|]. split.
    - intros g Hg. rewrite Hamp. destruct (sp_index (st_sp st) g) as [i| |] eqn:Eg.
      + apply (sp_index_spec _ (proj1 Hst)) in Eg. rewrite (amplitude_at st i g (proj1 Hst) Eg).
        assert (i < length (basis (st_sp st)))%nat by (apply nth_error_Some; congruence).
        rewrite <- (entries_coef st i Hst) by assumption.
        destruct (in_dec N.eq_dec g (basis target)); [|contradiction].
        destruct (in_dec Nat.eq_dec i (map fst (st_entries st))) as [|Hni]; [reflexivity|]. rewrite Hz2, mcoef_out by exact Hni. reflexivity.
      + rewrite Hz2. symmetry. apply amplitude_out. intros Hin. apply (sp_index_In _ (proj1 Hst)) in Hin. destruct Hin as (i & Ei & _). congruence.
      + rewrite Hz2. symmetry. apply amplitude_out. intros Hin. apply (sp_index_In _ (proj1 Hst)) in Hin. destruct Hin as (i & Ei & _). congruence.
    - intros g Hg. apply amplitude_out. rewrite Hsp. exact Hg.
  Qed.
End StateProofs.
