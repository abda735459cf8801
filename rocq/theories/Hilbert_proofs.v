(** Specification and proofs for Hilbert.v. *)
From Coq Require Import ZArith NArith List Bool String Ascii Lia DecimalString.
From Coq Require Decimal DecimalZ DecimalPos.
From Verif Require Import Base Indices Hilbert.
Import ListNotations.

(** ---- specification ---- *)

(** [k] is the place of the first occurrence of [i] in a history of insertions *)
Definition first_at (ts : list indices) (i : indices) (k : nat) : Prop :=
  nth_error ts k = Some i /\ forall k', k' < k -> nth_error ts k' <> Some i.

(** labels that survive the file format: int range, no NUL character *)
Fixpoint no_nul (s : string) : Prop :=
  match s with EmptyString => True | String a s' => a <> Ascii.zero /\ no_nul s' end.
Definition lbl_ok (x : lbl) : Prop :=
  match x with LInt z => (- 2 ^ 31 <= z < 2 ^ 31)%Z | LStr s => no_nul s end.

(** ---- fundamental_operator_set ---- *)
Lemma find_pos_spec l t p : find_pos l t = Some p <-> first_at l t p.
Proof.
  unfold first_at. revert p. induction l as [|i l IH]; intros p; simpl.
  - split; [discriminate|]. intros [H _]. destruct p; discriminate.
  - destruct (ieqb i t) eqn:E.
    + apply ieqb_eq in E. subst. split.
      * intros H; injection H as <-. split; [reflexivity|]. intros; lia.
      * intros [H1 H2]. destruct p as [|p]; [reflexivity|]. exfalso. apply (H2 0); [lia|reflexivity].
    + assert (Hn : i <> t) by (intros ->; rewrite (proj2 (ieqb_eq t t) eq_refl) in E; discriminate).
      split.
      * destruct (find_pos l t) as [q|] eqn:F; [|discriminate]. intros H; injection H as <-.
        destruct (proj1 (IH q) eq_refl) as [H1 H2]. split; [exact H1|].
        intros [|k'] Hk; simpl; [congruence|]. apply H2. lia.
      * destruct p as [|p]; intros [H1 H2]; [simpl in H1; congruence|].
        rewrite (proj2 (IH p)); [reflexivity|]. split; [exact H1|]. intros k' Hk. apply (H2 (S k')). lia.
Qed.
Lemma find_pos_None l t : find_pos l t = None <-> ~ In t l.
Proof.
  induction l as [|i l IH]; simpl; [tauto|].
  destruct (ieqb i t) eqn:E.
  - apply ieqb_eq in E. split; [discriminate|tauto].
  - assert (Hn : i <> t) by (intros ->; rewrite (proj2 (ieqb_eq t t) eq_refl) in E; discriminate).
    destruct (find_pos l t); simpl; split; try discriminate; try tauto.
    + intros H. exfalso. assert (X : Some n = None) by (apply IH; tauto). discriminate.
Qed.
Lemma find_pos_In l t : In t l -> exists p, find_pos l t = Some p.
Proof. intros H. destruct (find_pos l t) as [p|] eqn:E; [eauto|]. apply find_pos_None in E. contradiction. Qed.
Lemma find_pos_nth l t p : find_pos l t = Some p -> nth_error l p = Some t.
Proof. intros H. apply find_pos_spec in H. apply H. Qed.
Lemma find_pos_lt l t p : find_pos l t = Some p -> p < List.length l.
Proof. intros H. apply find_pos_nth in H. apply nth_error_Some. congruence. Qed.
Lemma find_pos_inj l s t p : find_pos l s = Some p -> find_pos l t = Some p -> s = t.
Proof. intros H1 H2. apply find_pos_nth in H1. apply find_pos_nth in H2. congruence. Qed.
Lemma NoDup_find_pos l t p : NoDup l -> nth_error l p = Some t -> find_pos l t = Some p.
Proof.
  intros Hd H. apply find_pos_spec. split; [exact H|]. intros k' Hk E.
  rewrite <- E in H. apply NoDup_nth_error in H; [lia|exact Hd|]. apply nth_error_Some. congruence.
Qed.
Lemma fops_has_spec l t : fops_has l t = true <-> In t l.
Proof.
  unfold fops_has. destruct (find_pos l t) eqn:E.
  - split; [intros _|reflexivity]. apply find_pos_nth in E. eapply nth_error_In; eauto.
  - apply find_pos_None in E. split; [discriminate|contradiction].
Qed.
Lemma find_pos_app l t r p : find_pos l t = Some p -> find_pos (l ++ r) t = Some p.
Proof.
  revert p. induction l as [|i l IH]; intros p; simpl; [discriminate|].
  destruct (ieqb i t); [auto|]. destruct (find_pos l t) as [q|]; [|discriminate].
  intros H; injection H as <-. rewrite (IH q eq_refl). reflexivity.
Qed.
Lemma find_pos_app_new l t : ~ In t l -> find_pos (l ++ [t]) t = Some (List.length l).
Proof.
  induction l as [|i l IH]; simpl; intros H.
  - rewrite (proj2 (ieqb_eq t t) eq_refl). reflexivity.
  - destruct (ieqb i t) eqn:E; [apply ieqb_eq in E; tauto|]. rewrite IH by tauto. reflexivity.
Qed.
Lemma insert_prefix l ts : exists r, fops_inserts l ts = l ++ r.
Proof.
  revert l. induction ts as [|t ts IH]; intros l; simpl; [exists []; rewrite app_nil_r; reflexivity|].
  destruct (IH (fops_insert l t)) as [r ->]. unfold fops_insert. destruct (fops_has l t); [eauto|].
  rewrite <- app_assoc. eauto.
Qed.
Lemma inserts_NoDup l ts : NoDup l -> NoDup (fops_inserts l ts).
Proof.
  revert l. induction ts as [|t ts IH]; intros l H; simpl; [exact H|]. apply IH.
  unfold fops_insert. destruct (fops_has l t) eqn:E; [exact H|].
  assert (Hn : ~ In t l) by (rewrite <- fops_has_spec; congruence).
  apply NoDup_rev in H. rewrite <- (rev_involutive (l ++ [t])). apply NoDup_rev. rewrite rev_app_distr. simpl.
  constructor; [|exact H]. rewrite <- in_rev. exact Hn.
Qed.
Lemma inserts_In l ts i : In i (fops_inserts l ts) <-> In i l \/ In i ts.
Proof.
  revert l. induction ts as [|t ts IH]; intros l; simpl; [tauto|]. unfold fops_inserts in *. rewrite IH.
  unfold fops_insert. destruct (fops_has l t) eqn:E.
  - apply fops_has_spec in E. split; [tauto|]. intros [H|[<-|H]]; auto.
  - rewrite in_app_iff. simpl. tauto.
Qed.
(** insertion order *)
Lemma inserts_order ts : forall i j p q k k',
  fops_at (fops_inserts [] ts) i = Ok p -> fops_at (fops_inserts [] ts) j = Ok q ->
  first_at ts i k -> first_at ts j k' -> (p < q <-> k < k').
Proof.
  unfold fops_at. intros i j p q k k'.
  destruct (find_pos (fops_inserts [] ts) i) as [p0|] eqn:Ei; [|discriminate]. intros H; injection H as ->.
  destruct (find_pos (fops_inserts [] ts) j) as [q0|] eqn:Ej; [|discriminate]. intros H; injection H as ->.
  rewrite <- !find_pos_spec. revert i j p q k k' Ei Ej. induction ts as [|t ts IH] using rev_ind; intros i j p q k k'; [discriminate|].
  unfold fops_inserts. rewrite fold_left_app. simpl. fold (fops_inserts [] ts). set (l := fops_inserts [] ts) in *.
  assert (HIn : forall x, In x l <-> In x ts) by (intros x; unfold l; rewrite inserts_In; simpl; tauto).
  assert (Hts : forall x, In x ts -> exists m, find_pos ts x = Some m /\ m < List.length ts).
  { intros x Hx. destruct (find_pos_In _ _ Hx) as [m E]. exists m. split; [exact E|]. eapply find_pos_lt; eauto. }
  assert (Hl : forall x, In x l -> exists m, find_pos l x = Some m /\ m < List.length l).
  { intros x Hx. destruct (find_pos_In _ _ Hx) as [m E]. exists m. split; [exact E|]. eapply find_pos_lt; eauto. }
  assert (Hold : forall x a, In x ts -> find_pos (ts ++ [t]) x = Some a -> find_pos ts x = Some a).
  { intros x a Hx Ha. destruct (Hts x Hx) as (m & E & _). rewrite (find_pos_app _ _ _ _ E) in Ha. congruence. }
  assert (Hnew : forall x a, ~ In x ts -> find_pos (ts ++ [t]) x = Some a -> x = t /\ a = List.length ts).
  { intros x a Hx Ha. assert (In x (ts ++ [t])) by (eapply nth_error_In; eapply find_pos_nth; eauto).
    rewrite in_app_iff in H. destruct H as [H|[<-|[]]]; [contradiction|]. split; [reflexivity|].
    rewrite find_pos_app_new in Ha by assumption. congruence. }
  unfold fops_insert. destruct (fops_has l t) eqn:Eh.
  - apply fops_has_spec in Eh. apply HIn in Eh. intros Ei Ej Ki Kj.
    assert (Hi : In i ts) by (apply HIn; eapply nth_error_In; eapply find_pos_nth; eauto).
    assert (Hj : In j ts) by (apply HIn; eapply nth_error_In; eapply find_pos_nth; eauto).
    apply (IH i j); auto.
  - assert (Ht : ~ In t ts) by (rewrite <- HIn, <- fops_has_spec; congruence). intros Ei Ej Ki Kj.
    assert (HoldL : forall x a, In x ts -> find_pos (l ++ [t]) x = Some a -> find_pos l x = Some a /\ a < List.length l).
    { intros x a Hx Ha. apply HIn in Hx. destruct (Hl x Hx) as (m & E & Hm). rewrite (find_pos_app _ _ _ _ E) in Ha.
      injection Ha as <-. auto. }
    assert (HnewL : forall x a, ~ In x ts -> find_pos (l ++ [t]) x = Some a -> a = List.length l).
    { intros x a Hx Ha. assert (In x (l ++ [t])) by (eapply nth_error_In; eapply find_pos_nth; eauto).
      rewrite in_app_iff in H. destruct H as [H|[<-|[]]]; [rewrite HIn in H; contradiction|].
      rewrite find_pos_app_new in Ha; [congruence|]. rewrite HIn. assumption. }
    destruct (in_dec indices_eq_dec i ts) as [Hi|Hi], (in_dec indices_eq_dec j ts) as [Hj|Hj].
    + apply (IH i j); auto; apply HoldL; auto.
    + destruct (HoldL _ _ Hi Ei) as [_ Lp]. rewrite (HnewL _ _ Hj Ej).
      destruct (Hnew _ _ Hj Kj) as [_ ->]. apply Hold in Ki; [|exact Hi]. apply find_pos_lt in Ki. lia.
    + destruct (HoldL _ _ Hj Ej) as [_ Lp]. rewrite (HnewL _ _ Hi Ei).
      destruct (Hnew _ _ Hi Ki) as [_ ->]. apply Hold in Kj; [|exact Hj]. apply find_pos_lt in Kj. lia.
    + rewrite (HnewL _ _ Hi Ei), (HnewL _ _ Hj Ej). destruct (Hnew _ _ Hi Ki) as [_ ->], (Hnew _ _ Hj Kj) as [_ ->]. lia.
Qed.

Lemma thm_fops_bijection ts : let l := fops_inserts [] ts in
  NoDup l /\ (forall i, In i l <-> In i ts) /\
  (forall i, fops_has l i = true <-> In i ts) /\
  (forall i p, fops_at l i = Ok p <-> nth_error l p = Some i) /\
  (forall i, ~ In i ts -> fops_at l i = Throw) /\
  (forall i, In i ts -> exists p, fops_at l i = Ok p /\ p < fops_size l) /\
  (forall p, p < fops_size l -> exists i, fops_at l i = Ok p).
Proof.
  intros l. assert (Hd : NoDup l) by (apply inserts_NoDup; constructor).
  assert (HIn : forall i, In i l <-> In i ts) by (intros i; unfold l; rewrite inserts_In; simpl; tauto).
  assert (Hat : forall i p, fops_at l i = Ok p <-> nth_error l p = Some i).
  { intros i p. unfold fops_at. split.
    - destruct (find_pos l i) eqn:E; [|discriminate]. intros H; injection H as <-. apply find_pos_nth; exact E.
    - intros H. rewrite (NoDup_find_pos l i p Hd H). reflexivity. }
  repeat split; auto; try apply HIn.
  - intros H. apply HIn. apply fops_has_spec. exact H.
  - intros H. apply fops_has_spec. apply HIn. exact H.
  - apply Hat.
  - apply Hat.
  - intros i Hi. unfold fops_at. rewrite (proj2 (find_pos_None l i)); [reflexivity|]. rewrite HIn. exact Hi.
  - intros i Hi. apply HIn in Hi. destruct (find_pos_In l i Hi) as [p E]. exists p. split; [unfold fops_at; rewrite E; reflexivity|].
    eapply find_pos_lt; eauto.
  - intros p Hp. apply nth_error_Some in Hp. destruct (nth_error l p) as [i|] eqn:E; [|congruence]. exists i. apply Hat. exact E.
Qed.
Lemma thm_fops_stable l ts i p : fops_at l i = Ok p -> fops_at (fops_inserts l ts) i = Ok p.
Proof.
  unfold fops_at. destruct (find_pos l i) eqn:E; [|discriminate]. intros H; injection H as <-.
  destruct (insert_prefix l ts) as [r ->]. rewrite (find_pos_app _ _ _ _ E). reflexivity.
Qed.

(** ---- HDF5 ---- *)
Lemma to_int32_id z : (- 2 ^ 31 <= z < 2 ^ 31)%Z -> to_int32 z = z.
Proof.
  intros H. unfold to_int32. rewrite Z.mod_small; [lia|].
  change (2 ^ 32)%Z with (2 ^ 31 + 2 ^ 31)%Z. lia.
Qed.
Lemma no_nul_c_str s : no_nul s -> c_str s = s.
Proof.
  induction s as [|a s IH]; simpl; [reflexivity|]. intros [Ha Hs].
  destruct (Ascii.eqb_spec a Ascii.zero) as [E|_]; [contradiction|]. rewrite IH by exact Hs. reflexivity.
Qed.
Lemma no_nul_uint d : no_nul (NilEmpty.string_of_uint d).
Proof. induction d; simpl; auto; split; auto; discriminate. Qed.
Lemma no_nul_nz_uint d : no_nul (NilZero.string_of_uint d).
Proof. unfold NilZero.string_of_uint. destruct d; try apply no_nul_uint. simpl. split; [discriminate|auto]. Qed.
Lemma no_nul_to_string z : no_nul (to_string z).
Proof.
  unfold to_string, NilZero.string_of_int. destruct (Z.to_int z) as [d|d]; [apply no_nul_nz_uint|].
  simpl. split; [discriminate|apply no_nul_nz_uint].
Qed.
Lemma to_int_nonnil z : Z.to_int z <> Decimal.Pos Decimal.Nil /\ Z.to_int z <> Decimal.Neg Decimal.Nil.
Proof.
  destruct z as [|p|p]; simpl; split; try discriminate; intros H; injection H as H;
    revert H; apply DecimalPos.Unsigned.to_uint_nonnil.
Qed.
Lemma stoi_to_string z : stoi (to_string z) = Ok z.
Proof.
  unfold stoi, to_string. destruct (to_int_nonnil z) as [H1 H2].
  rewrite NilZero.isi by assumption. rewrite DecimalZ.of_to. reflexivity.
Qed.
Lemma decode_encode_lbl x : lbl_ok x -> decode_lbl (c_str (encode_lbl x)) = Ok x.
Proof.
  destruct x as [z|s]; simpl; intros H.
  - rewrite (to_int32_id z H). rewrite !(no_nul_c_str _ (no_nul_to_string z)), stoi_to_string. reflexivity.
  - rewrite !(no_nul_c_str s H). reflexivity.
Qed.
Lemma to_indices_app r k : to_indices (r ++ repeat EmptyString k) = to_indices r.
Proof.
  induction r as [|s r IH]; simpl.
  - induction k; simpl; auto.
  - destruct s; rewrite IH; reflexivity.
Qed.
Lemma to_indices_encode i : Forall lbl_ok i -> to_indices (map c_str (map encode_lbl i)) = Ok i.
Proof.
  induction 1 as [|x i Hx Hi IH]; [reflexivity|]. cbn [map to_indices].
  destruct (c_str (encode_lbl x)) as [|a s] eqn:E.
  - exfalso. destruct x; simpl in E; discriminate.
  - rewrite <- E, (decode_encode_lbl x Hx), IH. reflexivity.
Qed.
Lemma thm_fops_h5 pad l : Forall (Forall lbl_ok) l -> decode_fops (h5_table pad 0 (encode_fops l)) = Ok l.
Proof.
  intros H. generalize 0. induction H as [|i l Hi Hl IH]; intros k; simpl; [reflexivity|].
  rewrite to_indices_app, (to_indices_encode i Hi). simpl. rewrite IH. reflexivity.
Qed.

(** ---- hilbert_space ---- *)
Lemma hs_dim_small n : n <= 30 -> hs_dim n = Ok (2 ^ Z.of_nat n)%Z.
Proof.
  intros H. unfold hs_dim. assert (E : (n <? 64)%nat = true) by (apply Nat.ltb_lt; lia). rewrite E. f_equal. apply to_int32_id.
  assert (2 ^ Z.of_nat n <= 2 ^ 30)%Z by (apply Z.pow_le_mono_r; lia).
  assert (0 < 2 ^ Z.of_nat n)%Z by (apply Z.pow_pos_nonneg; lia).
  change (2 ^ 31)%Z with (2 * 2 ^ 30)%Z. lia.
Qed.
Lemma pow30 d n : n <= 30 -> d = (2 ^ Z.of_nat n)%Z -> (0 < d <= 2 ^ 30)%Z.
Proof.
  intros H ->. split; [apply Z.pow_pos_nonneg; lia|]. apply Z.pow_le_mono_r; lia.
Qed.
Lemma dim_u64_small d : (0 <= d < 2 ^ 31)%Z -> dim_u64 d = d.
Proof. intros H. unfold dim_u64, wrap64. apply Z.mod_small. unfold two64. lia. Qed.

Lemma thm_hs_bijection n d : n <= 30 -> hs_dim n = Ok d ->
  d = (2 ^ Z.of_nat n)%Z /\
  (forall f, hs_has d f = true <-> (f < 2 ^ N.of_nat n)%N) /\
  (forall f, (f < 2 ^ N.of_nat n)%N -> exists i, hs_index d f = Ok i /\ (0 <= i < d)%Z /\ hs_fock d i = Ok f) /\
  (forall i, (0 <= i < d)%Z -> exists f, hs_fock d i = Ok f /\ (f < 2 ^ N.of_nat n)%N /\ hs_index d f = Ok i) /\
  (forall f, (2 ^ N.of_nat n <= f)%N -> hs_index d f = Throw) /\
  (forall i, (d <= i)%Z -> hs_fock d i = Throw).
Proof.
  intros Hn Hd. rewrite (hs_dim_small n Hn) in Hd. injection Hd as <-.
  set (d := (2 ^ Z.of_nat n)%Z).
  assert (Hr : (0 < d <= 2 ^ 30)%Z) by (apply (pow30 d n); auto).
  assert (HdN : d = Z.of_N (2 ^ N.of_nat n)).
  { unfold d. rewrite N2Z.inj_pow. rewrite nat_N_Z. reflexivity. }
  assert (Hu : dim_u64 d = d) by (apply dim_u64_small; lia).
  assert (Hidx : forall f, (f < 2 ^ N.of_nat n)%N -> hs_index d f = Ok (Z.of_N f)).
  { intros f Hf. unfold hs_index. rewrite Hu. destruct (Z.leb_spec d (Z.of_N f)) as [H|H]; [lia|].
    rewrite to_int32_id by lia. reflexivity. }
  assert (Hfock : forall i, (0 <= i < d)%Z -> hs_fock d i = Ok (Z.to_N i)).
  { intros i Hi. unfold hs_fock. destruct (Z.leb_spec d i); [lia|].
    unfold wrap64. rewrite Z.mod_small; [reflexivity|]. unfold two64. lia. }
  split; [reflexivity|]. split; [|split; [|split; [|split]]].
  - intros f. unfold hs_has. rewrite Hu, Z.ltb_lt. lia.
  - intros f Hf. exists (Z.of_N f). rewrite (Hidx f Hf), Hfock by lia. rewrite N2Z.id. repeat split; lia.
  - intros i Hi. exists (Z.to_N i). rewrite (Hfock i Hi). rewrite Hidx by lia. rewrite Z2N.id by lia. repeat split; lia.
  - intros f Hf. unfold hs_index. rewrite Hu. destruct (Z.leb_spec d (Z.of_N f)); [reflexivity|lia].
  - intros i Hi. unfold hs_fock. destruct (Z.leb_spec d i); [reflexivity|lia].
Qed.

(** get_fock_state from a set of indices: occupation of the named modes *)
Lemma hs_fock_of_gen l is_ : Forall (fun i => exists p, fops_at l i = Ok p /\ p <= 30) is_ -> NoDup is_ ->
  forall f, (f < 2 ^ 31)%N -> (forall i p, In i is_ -> fops_at l i = Ok p -> N.testbit f (N.of_nat p) = false) ->
  exists g, hs_fock_of l is_ f = Ok g /\ (g < 2 ^ 31)%N /\
    forall k, N.testbit g (N.of_nat k) = true <-> N.testbit f (N.of_nat k) = true \/ exists i, In i is_ /\ fops_at l i = Ok k.
Proof.
  intros Hp. induction Hp as [|i is_ (p & Ep & Hp) His IH]; intros Hd f Hf Hfree; simpl.
  - exists f. repeat split; auto. intros [H|(i & [] & _)]; exact H.
  - inversion_clear Hd as [|? ? Hni Hd'].
    rewrite Ep. simpl. unfold shift1_int. assert (E : (p <? 31)%nat = true) by (apply Nat.ltb_lt; lia). rewrite E. simpl.
    assert (Hbit : N.testbit f (N.of_nat p) = false) by (apply (Hfree i); [now left|exact Ep]).
    assert (Hadd : (f + 2 ^ N.of_nat p = N.setbit f (N.of_nat p))%N).
    { rewrite N.setbit_spec'. rewrite <- N.lxor_lor.
      - apply N.add_nocarry_lxor. apply N.bits_inj. intros k. rewrite N.land_spec, N.bits_0.
        destruct (N.eq_dec (N.of_nat p) k) as [<-|Hn]; [rewrite Hbit; reflexivity|]. rewrite N.pow2_bits_false by exact Hn. apply andb_false_r.
      - apply N.bits_inj. intros k. rewrite N.land_spec, N.bits_0.
        destruct (N.eq_dec (N.of_nat p) k) as [<-|Hn]; [rewrite Hbit; reflexivity|]. rewrite N.pow2_bits_false by exact Hn. apply andb_false_r. }
    assert (Hlt : (N.setbit f (N.of_nat p) < 2 ^ 31)%N).
    { destruct (N.eq_dec (N.setbit f (N.of_nat p)) 0) as [->|Hz]; [reflexivity|]. apply N.log2_lt_pow2; [lia|].
      destruct (N.lt_ge_cases (N.log2 (N.setbit f (N.of_nat p))) 31) as [Hl|Hl]; [exact Hl|exfalso].
      assert (B := N.bit_log2 _ Hz). rewrite N.setbit_neq in B by lia.
      destruct (N.eq_dec f 0) as [->|Hfz]; [rewrite N.bits_0 in B; discriminate|].
      assert (N.log2 f < 31)%N by (apply N.log2_lt_pow2; [lia|exact Hf]).
      rewrite N.bits_above_log2 in B by lia. discriminate. }
    rewrite Hadd, N.mod_small by (eapply N.lt_trans; [exact Hlt|reflexivity]).
    destruct (IH Hd' (N.setbit f (N.of_nat p)) Hlt) as (g & Eg & Hg & Hspec).
    + intros j q Hj Eq. rewrite N.setbit_neq; [apply (Hfree j); [now right|exact Eq]|].
      intros Epq. apply Nat2N.inj in Epq. subst q. unfold fops_at in *.
      destruct (find_pos l i) eqn:E1; [|discriminate]. destruct (find_pos l j) eqn:E2; [|discriminate].
      injection Ep as ->. injection Eq as ->. apply Hni. rewrite (find_pos_inj _ _ _ _ E1 E2). exact Hj.
    + exists g. split; [exact Eg|]. split; [exact Hg|]. intros k. rewrite Hspec. clear Hspec.
      destruct (Nat.eq_dec p k) as [->|Hn].
      * rewrite N.setbit_eq. split; [intros _; right; exists i; split; [now left|exact Ep]|left; reflexivity].
      * rewrite N.setbit_neq by lia. split.
        -- intros [H|(j & Hj & Ej)]; [left; exact H|right; exists j; split; [now right|exact Ej]].
        -- intros [H|(j & [<-|Hj] & Ej)]; [left; exact H|congruence|right; exists j; auto].
Qed.
Lemma thm_hs_fock_of l is_ : Forall (fun i => exists p, fops_at l i = Ok p /\ p <= 30) is_ -> NoDup is_ ->
  exists g, hs_fock_of l is_ 0 = Ok g /\
    forall k, N.testbit g (N.of_nat k) = true <-> exists i, In i is_ /\ fops_at l i = Ok k.
Proof.
  intros H1 H2. destruct (hs_fock_of_gen l is_ H1 H2 0%N) as (g & E & _ & Hg).
  - reflexivity.
  - intros; apply N.bits_0.
  - exists g. split; [exact E|]. intros k. rewrite Hg, N.bits_0. split; [intros [H|H]; [discriminate|exact H]|auto].
Qed.

(** ---- sub_hilbert_space ---- *)
Lemma nfind_spec m f : nfind f m = None <-> ~ In f (map fst m).
Proof.
  induction m as [|[g i] m IH]; simpl; [tauto|]. destruct (N.eqb_spec g f) as [->|Hn]; [|rewrite IH; tauto].
  split; [discriminate|tauto].
Qed.
Lemma nfind_app m f r : nfind f (m ++ r) = match nfind f m with Some i => Some i | None => nfind f r end.
Proof. induction m as [|[g i] m IH]; simpl; [reflexivity|]. destruct (g =? f)%N; auto. Qed.

Lemma sub_adds_index s fs : sub_index (sub_adds s fs) = sub_index s.
Proof. revert s. induction fs as [|f fs IH]; intros s; simpl; [reflexivity|]. unfold sub_adds in *. rewrite IH. reflexivity. Qed.
Lemma sub_adds_states s fs : sub_states (sub_adds s fs) = sub_states s ++ fs.
Proof.
  revert s. induction fs as [|f fs IH]; intros s; simpl; [rewrite app_nil_r; reflexivity|].
  unfold sub_adds in *. rewrite IH. simpl. rewrite <- app_assoc. reflexivity.
Qed.
(** first occurrence of a Fock state *)
Definition nfirst (fs : list N) (f : N) (k : nat) : Prop :=
  nth_error fs k = Some f /\ forall k', k' < k -> nth_error fs k' <> Some f.
Lemma sub_adds_find idx fs f k : nfind f (sub_map (sub_adds (sub_new idx) fs)) = Some k <-> nfirst fs f k.
Proof.
  revert k. induction fs as [|g fs IH] using rev_ind; intros k.
  - simpl. unfold nfirst. split; [discriminate|]. intros [H _]. destruct k; discriminate.
  - unfold sub_adds. rewrite fold_left_app. simpl. fold (sub_adds (sub_new idx) fs).
    set (s := sub_adds (sub_new idx) fs) in *.
    assert (Hlen : List.length (sub_states s) = List.length fs) by (unfold s; rewrite sub_adds_states; reflexivity).
    rewrite Hlen. unfold ninsert.
    assert (Hmem : nfind f (sub_map s) = None <-> ~ In f fs).
    { split.
      - intros E Hin. apply In_nth_error in Hin. destruct Hin as [n Hn].
        assert (Hex : exists k, nfirst fs f k).
        { clear - Hn. revert n Hn. induction fs as [|a fs IH]; intros n Hn; [destruct n; discriminate|].
          destruct (N.eq_dec a f) as [->|Hna]; [exists 0; split; [reflexivity|intros; lia]|].
          destruct n as [|n]; [simpl in Hn; congruence|]. destruct (IH n Hn) as (k & Hk1 & Hk2).
          exists (S k). split; [exact Hk1|]. intros [|k'] Hk'; simpl; [congruence|apply Hk2; lia]. }
        destruct Hex as [k' Hk']. apply IH in Hk'. congruence.
      - intros Hn. case_eq (nfind f (sub_map s)); [intros k' E|reflexivity].
        apply IH in E. destruct E as [E _]. apply nth_error_In in E. contradiction. }
    assert (Happ : forall k, In f fs -> (nfirst (fs ++ [g]) f k <-> nfirst fs f k)).
    { intros k' Hin. unfold nfirst. apply In_nth_error in Hin. destruct Hin as [n Hn].
      assert (Hn' : n < List.length fs) by (apply nth_error_Some; congruence).
      split; intros [H1 H2].
      - assert (k' < List.length fs).
        { destruct (Nat.lt_ge_cases k' (List.length fs)) as [?|Hge]; [assumption|exfalso].
          apply (H2 n); [lia|]. rewrite nth_error_app1 by lia. exact Hn. }
        rewrite nth_error_app1 in H1 by lia. split; [exact H1|]. intros k2 Hk2. specialize (H2 k2 Hk2).
        rewrite nth_error_app1 in H2 by lia. exact H2.
      - assert (k' < List.length fs) by (apply nth_error_Some; congruence).
        split; [rewrite nth_error_app1 by lia; exact H1|]. intros k2 Hk2. rewrite nth_error_app1 by lia. auto. }
    destruct (nfind g (sub_map s)) as [kg|] eqn:Eg.
    + rewrite IH. destruct (in_dec N.eq_dec f fs) as [Hin|Hin]; [symmetry; apply Happ; exact Hin|].
      split; intros H.
      * exfalso. destruct H as [H _]. apply nth_error_In in H. contradiction.
      * exfalso. destruct H as [H _]. apply nth_error_In in H. rewrite in_app_iff in H. destruct H as [H|[<-|[]]]; [contradiction|].
        apply Hmem in Hin. congruence.
    + rewrite nfind_app. destruct (nfind f (sub_map s)) as [kf|] eqn:Ef.
      * assert (Hin : In f fs).
        { destruct (in_dec N.eq_dec f fs) as [Hin|Hin]; [exact Hin|]. apply Hmem in Hin. congruence. }
        rewrite (Happ k Hin). apply IH.
      * pose proof (proj1 Hmem eq_refl) as Hin. simpl. destruct (N.eqb_spec g f) as [->|Hn].
        -- split.
           ++ intros H; injection H as <-. split; [rewrite nth_error_app2, Nat.sub_diag by lia; reflexivity|].
              intros k' Hk' H. rewrite nth_error_app1 in H by lia. apply nth_error_In in H. contradiction.
           ++ intros [H1 H2]. f_equal. destruct (Nat.lt_ge_cases k (List.length fs)) as [Hl|Hl].
              ** rewrite nth_error_app1 in H1 by lia. apply nth_error_In in H1. contradiction.
              ** assert (k < List.length (fs ++ [f])) by (apply nth_error_Some; congruence). rewrite app_length in H. simpl in H. lia.
        -- split; [discriminate|]. intros [H1 _]. exfalso. apply nth_error_In in H1. rewrite in_app_iff in H1.
           destruct H1 as [H1|[H1|[]]]; contradiction.
Qed.

Lemma nfirst_NoDup fs f k : NoDup fs -> (nfirst fs f k <-> nth_error fs k = Some f).
Proof.
  intros Hd. split; [intros [H _]; exact H|]. intros H. split; [exact H|]. intros k' Hk E.
  rewrite <- E in H. apply NoDup_nth_error in H; [lia|exact Hd|]. apply nth_error_Some. congruence.
Qed.
Lemma thm_sub_bijection idx fs : NoDup fs ->
  let s := sub_adds (sub_new idx) fs in
  sub_size s = List.length fs /\ sub_index s = idx /\ sub_states s = fs /\
  (forall f, sub_has s f = true <-> In f fs) /\
  (forall f i, sub_at s f = Ok i <-> sub_fock s i = Ok f) /\
  (forall f, In f fs -> exists i, sub_at s f = Ok i /\ i < sub_size s) /\
  (forall i, i < sub_size s -> exists f, sub_fock s i = Ok f /\ In f fs) /\
  sub_h5_read (sub_h5_write s) = s.
Proof.
  intros Hd s.
  assert (Hst : sub_states s = fs) by (unfold s; rewrite sub_adds_states; reflexivity).
  assert (Hsz : sub_size s = List.length fs) by (unfold sub_size; rewrite Hst; reflexivity).
  assert (Hf : forall f k, nfind f (sub_map s) = Some k <-> nth_error fs k = Some f).
  { intros f k. unfold s. rewrite sub_adds_find. apply nfirst_NoDup. exact Hd. }
  assert (Hhas : forall f, sub_has s f = true <-> In f fs).
  { intros f. unfold sub_has. destruct (nfind f (sub_map s)) as [k|] eqn:E.
    - apply Hf in E. apply nth_error_In in E. tauto.
    - split; [discriminate|]. intros Hin. apply In_nth_error in Hin. destruct Hin as [n Hn]. apply Hf in Hn. congruence. }
  repeat split; auto.
  - unfold s. apply sub_adds_index.
  - apply Hhas.
  - apply Hhas.
  - unfold sub_at, sub_fock. rewrite Hst. destruct (nfind f (sub_map s)) as [k|] eqn:E; [|discriminate].
    intros H; injection H as <-. apply Hf in E. rewrite E. reflexivity.
  - unfold sub_at, sub_fock. rewrite Hst. destruct (nth_error fs i) as [g|] eqn:E; [|discriminate].
    intros H; injection H as ->. apply Hf in E. rewrite E. reflexivity.
  - intros f Hin. apply In_nth_error in Hin. destruct Hin as [n Hn]. exists n. unfold sub_at. rewrite (proj2 (Hf f n) Hn).
    split; [reflexivity|]. rewrite Hsz. apply nth_error_Some. congruence.
  - intros i Hi. rewrite Hsz in Hi. apply nth_error_Some in Hi. destruct (nth_error fs i) as [f|] eqn:E; [|congruence].
    exists f. unfold sub_fock. rewrite Hst, E. split; [reflexivity|]. eapply nth_error_In; eauto.
  - unfold sub_h5_read, sub_h5_write. cbn [fst snd].
    assert (Hgen : forall gs hs, NoDup (gs ++ hs) ->
       fold_left (fun m f => ninsert f (List.length m) m) hs (sub_map (sub_adds (sub_new idx) gs)) = sub_map (sub_adds (sub_new idx) (gs ++ hs))
       /\ List.length (sub_map (sub_adds (sub_new idx) (gs ++ hs))) = List.length (gs ++ hs)).
    { assert (Hlen : forall gs, NoDup gs -> List.length (sub_map (sub_adds (sub_new idx) gs)) = List.length gs).
      { induction gs as [|g gs IH] using rev_ind; intros Hg; [reflexivity|].
        unfold sub_adds. rewrite fold_left_app. simpl. fold (sub_adds (sub_new idx) gs). unfold ninsert.
        assert (Hg' : NoDup gs) by (apply NoDup_remove_1 in Hg; rewrite app_nil_r in Hg; exact Hg).
        assert (Hn : nfind g (sub_map (sub_adds (sub_new idx) gs)) = None).
        { destruct (nfind g (sub_map (sub_adds (sub_new idx) gs))) as [k|] eqn:E; [|reflexivity].
          apply sub_adds_find in E. destruct E as [E _]. apply nth_error_In in E.
          apply NoDup_remove_2 in Hg. rewrite app_nil_r in Hg. contradiction. }
        rewrite Hn, !app_length, IH by exact Hg'. reflexivity. }
      intros gs hs. revert gs. induction hs as [|h hs IH]; intros gs Hg; simpl.
      - rewrite !app_nil_r in *. split; [reflexivity|apply Hlen; exact Hg].
      - assert (E : gs ++ h :: hs = (gs ++ [h]) ++ hs) by (rewrite <- app_assoc; reflexivity).
        rewrite E in *. destruct (IH (gs ++ [h]) Hg) as [IH1 IH2]. split; [|exact IH2].
        rewrite <- IH1. f_equal. unfold sub_adds. rewrite fold_left_app. simpl. fold (sub_adds (sub_new idx) gs).
        assert (Hgs : NoDup gs).
        { clear - Hg. rewrite <- app_assoc in Hg. induction gs as [|a gs IH]; [constructor|]. inversion_clear Hg.
          constructor; [|auto]. rewrite !in_app_iff in H. tauto. }
        rewrite (Hlen gs Hgs), sub_adds_states. reflexivity. }
    rewrite Hst. destruct (Hgen [] fs Hd) as [E _]. simpl in E. rewrite E. fold s.
    rewrite <- Hst at 1. destruct s; reflexivity.
Qed.

(** ---- counterexamples ---- *)
Lemma cex_h5_wide :
  exists l : fops, NoDup l /\ forall pad, exists l', decode_fops (h5_table pad 0 (encode_fops l)) = Ok l' /\ l' <> l /\ ~ NoDup l'.
Proof.
  exists [[LInt 0]; [LInt (2 ^ 32)]]. split; [repeat constructor; simpl; intuition discriminate|].
  intros pad. exists [[LInt 0]; [LInt 0]]. split; [|split].
  - exact (thm_fops_h5 pad [[LInt 0]; [LInt 0]] ltac:(repeat (apply Forall_cons || apply Forall_nil); simpl; lia)).
  - discriminate.
  - intros H. inversion H as [|x l Hx Hl]. apply Hx. left. reflexivity.
Qed.
Lemma cex_h5_nul :
  exists l : fops, forall pad, exists l', decode_fops (h5_table pad 0 (encode_fops l)) = Ok l' /\ l' <> l.
Proof.
  exists [[LStr (String "a" (String Ascii.zero (String "b" EmptyString)))]]. intros pad.
  exists [[LStr (String "a" EmptyString)]]. split; [|discriminate].
  exact (thm_fops_h5 pad [[LStr (String "a" EmptyString)]] ltac:(repeat (apply Forall_cons || apply Forall_nil); simpl; split; [discriminate|exact I])).
Qed.
Lemma cex_hs_31 :
  (exists d, hs_dim 31 = Ok d /\ forall i, (0 <= i)%Z -> hs_fock d i = Throw) /\
  (exists d, hs_dim 32 = Ok d /\ d = 0%Z /\ forall f, hs_has d f = false).
Proof.
  split.
  - exists (-2147483648)%Z. split; [vm_compute; reflexivity|]. intros i Hi. unfold hs_fock.
    destruct (Z.leb_spec (-2147483648) i); [reflexivity|lia].
  - exists 0%Z. split; [vm_compute; reflexivity|]. split; [reflexivity|]. intros f. unfold hs_has.
    change (dim_u64 0) with 0%Z. apply Z.ltb_ge. lia.
Qed.
Lemma cex_shift_31 :
  exists (l : fops) (i j : indices), fops_at l i = Ok 31 /\ fops_at l j = Ok 32 /\
    hs_fock_of l [i] 0%N = Ok (2 ^ 64 - 2 ^ 31)%N /\ hs_fock_of l [j] 0%N = UB.
Proof.
  exists (map (fun k => [LInt (Z.of_nat k)]) (seq 0 33)), [LInt 31], [LInt 32].
  repeat split; vm_compute; reflexivity.
Qed.
Lemma cex_sub_dup :
  exists (fs : list N) (f : N), let s := sub_adds (sub_new 0) fs in
    sub_at s f = Ok 2 /\ sub_fock s 2 = Ok f /\ sub_at (sub_h5_read (sub_h5_write s)) f = Ok 1.
Proof. exists [5; 5; 3]%N, 3%N. repeat split; vm_compute; reflexivity. Qed.
