(** Every single term of the Hamiltonian stays inside the subspaces of the automatic partition,
    although the partition is made from its matrix elements, in which terms may cancel. *)
From Coq Require Import ZArith NArith List Arith Bool Lia Sorted Permutation Relations.
From Verif Require Import Base Indices Scalar Fock FockFacts OpModel OpExpr OpNormal Op_proofs Hilbert Hilbert_proofs
  State StateSpec State_proofs ImpOp ImpOp_proofs ImpOp_run ImpOp_thms Partition PartitionSpec Partition_proofs Partition_merge
  Partition_imp Partition_thms AtomDiag.
Import ListNotations.
Local Open Scope nat_scope.

Section Bits.
  Variable pos : indices -> nat.

  Definition ann (m : list cop) (k : nat) : bool := existsb (fun o => negb (dag o) && (pos (ind o) =? k)) m.
  Definition cre (m : list cop) (k : nat) : bool := existsb (fun o => dag o && (pos (ind o) =? k)) m.
  Definition bit (f : N) (k : nat) : bool := N.testbit f (N.of_nat k).

  Lemma ann_spec m k : ann m k = true <-> exists o, In o m /\ dag o = false /\ pos (ind o) = k.
  Proof.
    unfold ann. rewrite existsb_exists. split; intros (o & Ho & H); exists o; (split; [exact Ho|]).
    - apply andb_true_iff in H. destruct H as [H1 H2]. apply negb_true_iff in H1. apply Nat.eqb_eq in H2. auto.
    - destruct H as [-> ->]. cbn. apply Nat.eqb_refl.
  Qed.
  Lemma cre_spec m k : cre m k = true <-> exists o, In o m /\ dag o = true /\ pos (ind o) = k.
  Proof.
    unfold cre. rewrite existsb_exists. split; intros (o & Ho & H); exists o; (split; [exact Ho|]).
    - apply andb_true_iff in H. destruct H as [H1 H2]. apply Nat.eqb_eq in H2. auto.
    - destruct H as [-> ->]. cbn. apply Nat.eqb_refl.
  Qed.

  Definition can (m : list cop) (f : N) : Prop :=
    (forall k, ann m k = true -> bit f k = true) /\ (forall k, cre m k = true -> bit f k = true -> ann m k = true).
  Definition after (m : list cop) (f g : N) : Prop := forall k, bit g k = cre m k || (bit f k && negb (ann m k)).

  (** annihilators on the right *)
  Definition split_ok (m : list cop) : Prop := ForallOrdPairs (fun a b => dag a = false -> dag b = false) m.

  Lemma act_bits m f : split_ok m -> modes_once pos m ->
    match act pos m f with
    | Some (_, g) => can m f /\ after m f g
    | None => ~ can m f
    end.
  Proof.
    induction m as [|o m IH]; intros HS HN.
    - cbn. split; [split; intros; discriminate|]. intros k. cbn. now rewrite andb_true_r.
    - inversion_clear HS as [|? ? HF HS']. unfold modes_once in HN. cbn [map] in HN. inversion_clear HN as [|? ? Hn HN'].
      specialize (IH HS' HN').
      assert (Na : dag o = false -> ann m (pos (ind o)) = false).
      { intros Hd. destruct (ann m (pos (ind o))) eqn:e; [|reflexivity]. apply ann_spec in e. destruct e as (o' & Ho & H1 & H2).
        exfalso. apply Hn. apply in_map_iff. exists o'. split; [congruence|exact Ho]. }
      assert (Nc : dag o = true -> cre m (pos (ind o)) = false).
      { intros Hd. destruct (cre m (pos (ind o))) eqn:e; [|reflexivity]. apply cre_spec in e. destruct e as (o' & Ho & H1 & H2).
        exfalso. apply Hn. apply in_map_iff. exists o'. split; [congruence|exact Ho]. }
      assert (Nf : dag o = false -> forall k, cre m k = false).
      { intros Hd k. destruct (cre m k) eqn:e; [|reflexivity]. apply cre_spec in e. destruct e as (o' & Ho & H1 & _).
        rewrite Forall_forall in HF. rewrite (HF o' Ho Hd) in H1. discriminate. }
      assert (Ea : forall k, ann (o :: m) k = (negb (dag o) && (pos (ind o) =? k)) || ann m k) by reflexivity.
      assert (Ec : forall k, cre (o :: m) k = (dag o && (pos (ind o) =? k)) || cre m k) by reflexivity.
      cbn [act]. destruct (act pos m f) as [[s f1]|].
      + destruct IH as [[C1 C2] A]. unfold act_cop. fold (bit f1 (pos (ind o))). pose proof (A (pos (ind o))) as Ap.
        destruct (dag o) eqn:Ed.
        * rewrite (Nc eq_refl) in Ap. cbn [orb] in Ap. destruct (bit f1 (pos (ind o))) eqn:Eb.
          -- symmetry in Ap. apply andb_true_iff in Ap. destruct Ap as [B1 B2]. intros [_ D]. specialize (D (pos (ind o))).
             rewrite Ec, Ea, Nat.eqb_refl in D. cbn in D. rewrite (D eq_refl B1) in B2. discriminate.
          -- split; [split|].
             ++ intros k. rewrite Ea. cbn. apply C1.
             ++ intros k. rewrite Ec, Ea. cbn. rewrite orb_true_iff, Nat.eqb_eq. intros [<-|H] Hk; [|exact (C2 k H Hk)].
                rewrite Hk in Ap. cbn in Ap. destruct (ann m (pos (ind o))); [reflexivity|discriminate].
             ++ intros k. unfold bit at 1. rewrite setbit_nat. fold (bit f1 k). rewrite A, Ec, Ea. cbn. now rewrite orb_assoc.
        * rewrite (Nf eq_refl), (Na eq_refl) in Ap. cbn in Ap. rewrite andb_true_r in Ap. destruct (bit f1 (pos (ind o))) eqn:Eb.
          -- split; [split|].
             ++ intros k. rewrite Ea. cbn. rewrite orb_true_iff, Nat.eqb_eq. intros [<-|H]; [congruence|exact (C1 k H)].
             ++ intros k. rewrite Ec. cbn. rewrite (Nf eq_refl). discriminate.
             ++ intros k. unfold bit at 1. rewrite clearbit_nat. fold (bit f1 k). rewrite A, Ec, Ea, !(Nf eq_refl). cbn.
                destruct (pos (ind o) =? k), (bit f k), (ann m k); reflexivity.
          -- intros [D _]. specialize (D (pos (ind o))). rewrite Ea, Nat.eqb_refl in D. cbn in D. rewrite D in Ap; [discriminate|reflexivity].
      + intros [D1 D2]. apply IH. split.
        * intros k H. apply D1. rewrite Ea, H. apply orb_true_r.
        * intros k H Hk. specialize (D2 k). rewrite Ec, H, orb_true_r in D2. specialize (D2 eq_refl Hk). rewrite Ea in D2.
          destruct (dag o) eqn:Ed; [exact D2|]. rewrite (Nf eq_refl) in H. discriminate.
  Qed.
End Bits.

(** ---- a minimal term through (f, g) is a nonzero element of H ---- *)
Section Terms.
  Context (S : scalar_ops) (L : scalar_laws S).
  Local Open Scope K_scope.
  Add Ring Kring : (sl_ring S L).
  Variable l : fops.
  Notation pos := (mode l).

  Lemma normal_split m : normal m -> split_ok m.
  Proof.
    induction 1 as [|a m Hm IH HF]; constructor; [|exact IH]. rewrite Forall_forall in *. intros b Hb. specialize (HF b Hb).
    unfold clt, ccmp in HF. destruct (dag a), (dag b); congruence.
  Qed.
  Definition mono_ok (m : list cop) : Prop := normal m /\ mono_on (fun i => In i l) m.
  Lemma mono_bits m f : mono_ok m ->
    match act pos m f with Some (_, g) => can pos m f /\ after pos m f g | None => ~ can pos m f end.
  Proof. intros [H1 H2]. apply act_bits; [apply normal_split, H1|]. apply (normal_swap_ok l m H1 H2). Qed.
  Lemma mono_act m f g : mono_ok m -> can pos m f -> after pos m f g -> exists b, act pos m f = Some (b, g).
  Proof.
    intros Hm Hc Ha. pose proof (mono_bits m f Hm) as H. destruct (act pos m f) as [[b g']|]; [|contradiction].
    destruct H as [_ H]. exists b. f_equal. f_equal. apply testbit_eq_N. intros k. fold (bit g' k) (bit g k). rewrite H, Ha. reflexivity.
  Qed.

  (** the smallest states a monomial acts on and produces *)
  Definition low (m : list cop) : N := mask_of (map (fun o => pos (ind o)) (filter (fun o => negb (dag o)) m)).
  Definition high (m : list cop) : N := mask_of (map (fun o => pos (ind o)) (filter dag m)).
  Lemma low_bit m k : bit (low m) k = ann pos m k.
  Proof.
    unfold bit, low. rewrite mask_of_spec. apply Bool.eq_iff_eq_true. rewrite existsb_In, in_map_iff, ann_spec. split.
    - intros (o & H1 & H2). apply filter_In in H2. destruct H2 as [H2 H3]. apply negb_true_iff in H3. eauto.
    - intros (o & H1 & H2 & H3). exists o. split; [exact H3|]. apply filter_In. rewrite H2. auto.
  Qed.
  Lemma high_bit m k : bit (high m) k = cre pos m k.
  Proof.
    unfold bit, high. rewrite mask_of_spec. apply Bool.eq_iff_eq_true. rewrite existsb_In, in_map_iff, cre_spec. split.
    - intros (o & H1 & H2). apply filter_In in H2. destruct H2 as [H2 H3]. eauto.
    - intros (o & H1 & H2 & H3). exists o. split; [exact H3|]. apply filter_In. auto.
  Qed.
  Lemma low_high m : mono_ok m -> exists b, act pos m (low m) = Some (b, high m).
  Proof.
    intros Hm. apply mono_act; [exact Hm| |].
    - split; intros k; rewrite low_bit; auto.
    - intros k. rewrite high_bit, low_bit. destruct (cre pos m k), (ann pos m k); reflexivity.
  Qed.

  (** another monomial through the same pair of smallest states is a part of the first one *)
  Lemma through_sub m m' b f g b' : mono_ok m -> mono_ok m' -> act pos m f = Some (b, g) -> act pos m' (low m) = Some (b', high m) ->
    incl m' m /\ exists b'', act pos m' f = Some (b'', g).
  Proof.
    intros Hm Hm' Ha Ha'. pose proof (mono_bits m f Hm) as H. rewrite Ha in H. destruct H as [[C1 C2] Af].
    pose proof (mono_bits m' (low m) Hm') as H. rewrite Ha' in H. destruct H as [[C1' C2'] Af'].
    assert (Sa : forall k, ann pos m' k = true -> ann pos m k = true) by (intros k Hk; rewrite <- low_bit; apply C1', Hk).
    assert (Sc : forall k, cre pos m' k = true -> cre pos m k = true).
    { intros k Hk. specialize (Af' k). rewrite high_bit, Hk in Af'. exact Af'. }
    split.
    - intros o Ho. destruct Hm as [_ Hm], Hm' as [_ Hm']. unfold mono_on in Hm, Hm'. rewrite Forall_forall in Hm, Hm'.
      destruct (dag o) eqn:Ed.
      + assert (H : cre pos m (pos (ind o)) = true) by (apply Sc, cre_spec; eauto).
        apply cre_spec in H. destruct H as (o' & Ho' & Hd & Hp). apply mode_inj in Hp; [|auto|auto].
        assert (E : o = o') by (destruct o, o'; cbn in *; subst; reflexivity). subst. exact Ho'.
      + assert (H : ann pos m (pos (ind o)) = true) by (apply Sa, ann_spec; eauto).
        apply ann_spec in H. destruct H as (o' & Ho' & Hd & Hp). apply mode_inj in Hp; [|auto|auto].
        assert (E : o = o') by (destruct o, o'; cbn in *; subst; reflexivity). subst. exact Ho'.
    - apply mono_act; [exact Hm'| |].
      + split; [intros k Hk; apply C1, Sa, Hk|]. intros k Hk Hf. apply C2'; [exact Hk|]. rewrite low_bit. apply C2; auto.
      + intros k. rewrite Af. specialize (Af' k). rewrite high_bit, low_bit in Af'. rewrite Af'.
        specialize (C1 k). specialize (Sa k). destruct (cre pos m' k), (ann pos m k), (ann pos m' k), (bit f k); cbn; try reflexivity;
          try (specialize (C1 eq_refl); discriminate); try (specialize (Sa eq_refl); discriminate).
  Qed.

  Lemma normal_NoDup m : normal m -> NoDup m.
  Proof.
    induction 1 as [|a m Hm IH HF]; constructor; [|exact IH]. intros H. rewrite Forall_forall in HF. specialize (HF a H).
    unfold clt in HF. rewrite (oc_refl _ ccmp_ok) in HF. discriminate.
  Qed.
  Lemma normal_perm m m' : normal m -> normal m' -> Permutation m m' -> m = m'.
  Proof.
    intros H. revert m'. induction H as [|a m Hm IH HF]; intros m' Hm' HP.
    - apply Permutation_nil in HP. auto.
    - destruct m' as [|a' m']; [apply Permutation_sym, Permutation_nil in HP; discriminate|].
      inversion_clear Hm' as [|? ? Hm'' HF']. rewrite Forall_forall in HF, HF'.
      assert (E : a = a').
      { assert (I1 : In a (a' :: m')) by (eapply Permutation_in; [exact HP|left; reflexivity]).
        assert (I2 : In a' (a :: m)) by (eapply Permutation_in; [apply Permutation_sym, HP|left; reflexivity]).
        destruct I1 as [->|I1]; [reflexivity|]. destruct I2 as [->|I2]; [reflexivity|].
        pose proof (HF _ I2) as Q1. pose proof (HF' _ I1) as Q2. unfold clt in *. rewrite (oc_anti _ ccmp_ok) in Q2.
        rewrite Q1 in Q2. discriminate. }
      subst a'. f_equal. apply IH; [exact Hm''|]. eapply Permutation_cons_inv; exact HP.
  Qed.
  Lemma sub_shorter m m' : mono_ok m -> mono_ok m' -> incl m' m -> m' <> m -> length m' < length m.
  Proof.
    intros [H1 _] [H2 _] Hi Hne. pose proof (NoDup_incl_length (normal_NoDup _ H2) Hi) as Hl.
    destruct (Nat.eq_dec (length m') (length m)) as [e|]; [|lia]. exfalso. apply Hne.
    apply normal_perm; auto. apply NoDup_Permutation_bis; auto using normal_NoDup. lia.
  Qed.

  Definition op_wf (op : omap S) : Prop := keys_sorted op /\ Forall (fun mc => mono_ok (fst mc) /\ snd mc <> k0) op.

  (** if no other term goes from low m to high m, the matrix element does not vanish *)
  Lemma mel_single (op : omap S) m c f g b : keys_sorted op -> In (m, c) op -> c <> k0 -> act pos m f = Some (b, g) ->
    (forall m' c', In (m', c') op -> m' <> m -> forall b', act pos m' f = Some (b', g) -> False) ->
    mel pos op f g <> k0.
  Proof.
    intros HS Hin Hc Ha Hno. assert (E : mel pos op f g = c * sgn b).
    { induction HS as [|[m0 c0] op HS IH HF]; [contradiction|]. cbn [mel].
      assert (Z : forall m' c', In (m', c') ((m0, c0) :: op) -> m' <> m -> @mel_mono pos S m' f g = k0).
      { intros m' c' H H'. unfold mel_mono. destruct (act pos m' f) as [[b' g']|] eqn:e; [|reflexivity].
        destruct (N.eqb_spec g' g) as [->|]; [|reflexivity]. exfalso. eapply Hno; eauto. }
      rewrite Forall_forall in HF. destruct Hin as [e|Hin].
      - injection e as -> ->.
        assert (R : mel pos op f g = k0).
        { assert (Q : forall m' c', In (m', c') op -> @mel_mono pos S m' f g = k0).
          { intros m' c' H. apply (Z m' c'); [right; exact H|]. intros ->. specialize (HF _ H). unfold klt in HF. cbn in HF.
            rewrite (oc_refl _ mcmp_ok) in HF. discriminate. }
          clear -Q L. induction op as [|[m' c'] op IH]; [reflexivity|]. cbn [mel]. rewrite (Q m' c') by (left; reflexivity).
          rewrite IH; [ring|]. intros. eapply Q. right. eassumption. }
        rewrite R. unfold mel_mono. rewrite Ha, N.eqb_refl. ring.
      - rewrite IH; [|exact Hin|intros m' c' H; apply (Hno m' c'); right; exact H].
        rewrite (Z m0 c0); [ring|left; reflexivity|]. intros ->. specialize (HF _ Hin). unfold klt in HF. cbn in HF.
        rewrite (oc_refl _ mcmp_ok) in HF. discriminate. }
    rewrite E. intros H. apply (sl_integral S L) in H. destruct H as [H|H]; [contradiction|]. exact (sgn_nz S L b H).
  Qed.

  Lemma m_dec (m m' : list cop) : {m = m'} + {m <> m'}.
  Proof. apply list_eq_dec, cop_eq_dec. Qed.

  (** induction on the terms: to relate f and g it suffices to relate them when some term m has
      a nonvanishing element <high m| op |low m> and maps f to g *)
  Lemma term_induction (op : omap S) (P : N -> N -> Prop) : op_wf op ->
    (forall m c f g b, In (m, c) op -> mel pos op (low m) (high m) <> k0 -> act pos m f = Some (b, g) -> P f g) ->
    forall m c f g b, In (m, c) op -> act pos m f = Some (b, g) -> P f g.
  Proof.
    intros [HS HF] HP. rewrite Forall_forall in HF.
    assert (G : forall n m c f g b, length m < n -> In (m, c) op -> act pos m f = Some (b, g) -> P f g).
    { induction n as [|n IH]; [lia|]. intros m c f g b Hn Hin Ha.
      destruct (HF _ Hin) as [Hm Hc]. cbn [fst snd] in Hm, Hc. destruct (low_high m Hm) as [b0 H0].
      destruct (existsb (fun mc => (if m_dec (fst mc) m then false else true) &&
          match act pos (fst mc) (low m) with Some (_, g') => N.eqb g' (high m) | None => false end) op) eqn:e.
      - apply existsb_exists in e. destruct e as ([m' c'] & Hin' & e). cbn [fst] in e. destruct (m_dec m' m) as [|Hne]; [discriminate|].
        cbn [andb] in e. destruct (act pos m' (low m)) as [[b' g']|] eqn:Ha'; [|discriminate]. apply N.eqb_eq in e. subst g'.
        destruct (HF _ Hin') as [Hm' _]. cbn [fst] in Hm'.
        destruct (through_sub m m' b f g b' Hm Hm' Ha Ha') as [Hi [b'' Hb]].
        apply (IH m' c' f g b''); auto. pose proof (sub_shorter m m' Hm Hm' Hi Hne). lia.
      - apply (HP m c f g b Hin); [|exact Ha]. apply (mel_single op m c (low m) (high m) b0); auto.
        intros m' c' Hin' Hne b' Hb. apply Bool.not_true_iff_false in e. apply e. apply existsb_exists. exists (m', c'). split; [exact Hin'|].
        cbn [fst]. destruct (m_dec m' m); [contradiction|]. rewrite Hb. apply N.eqb_refl. }
    intros m c f g b. apply (G (Datatypes.S (length m))). lia.
  Qed.
End Terms.

(** ---- lifting over the merges ---- *)
Section Lift.
  Context (S : scalar_ops) (L : scalar_laws S).
  Local Open Scope K_scope.
  Add Ring Kring2 : (sl_ring S L).
  Variable l : fops.
  Variable d : Z.
  Hypothesis Hl : length l <= 17.
  Hypothesis Hd : hs_dim (length l) = Ok d.
  Notation pos := (mode l).
  Notation size := (Z.to_nat d).
  Variable choose : labels -> nat -> nat -> bool.
  Variable norm : labels -> labels.
  Hypothesis Nok : norm_ok norm.

  Lemma element_mel e op i f : (forall j, uses e j -> In j l) -> eval e = Some op ->
    element S l e i f = mel pos op (N.of_nat i) (N.of_nat f).
  Proof.
    intros Hu He. unfold element. symmetry. apply (meaning_mel S L e pos op); [|exact He]. intros a b Ha Hb. apply mode_inj; auto.
  Qed.

  Lemma size_lt i : i < size <-> (N.of_nat i < 2 ^ N.of_nat (length l))%N.
  Proof.
    assert (H30 : length l <= 30) by lia. destruct (thm_hs_bijection (length l) d H30 Hd) as (Ed & _).
    assert (E : size = N.to_nat (2 ^ N.of_nat (length l))).
    { rewrite Ed. rewrite <- (N2Z.id (2 ^ N.of_nat (length l))), N2Z.inj_pow, nat_N_Z.
      change (Z.of_N 2) with 2%Z. symmetry. apply Z_N_nat. }
    rewrite E. set (q := (2 ^ N.of_nat (length l))%N). lia.
  Qed.
  Lemma size_bits i : i < size <-> forall k, length l <= k -> bit (N.of_nat i) k = false.
  Proof.
    rewrite size_lt. split.
    - intros H k Hk. apply (high_bits _ _ k H Hk).
    - intros H. apply bits_low. exact H.
  Qed.

  Lemma cd_nonzero o i f : In o l -> i < size -> f < size -> bit (N.of_nat i) (pos o) = false ->
    N.of_nat f = N.setbit (N.of_nat i) (N.of_nat (pos o)) ->
    nonzero S kisz (imp_cols S l (op_c_dag S o) d) i f.
  Proof.
    intros Ho Hi Hf Hb Hs. apply (cols_nonzero S L l d Hl Hd (ECdag o) (op_c_dag S o)); [cbn; intros; subst; exact Ho|reflexivity|exact Hi|].
    split; [exact Hf|]. rewrite (element_mel (ECdag o) (op_c_dag S o)); [|cbn; intros; subst; exact Ho|reflexivity].
    change (op_c_dag S o) with [([mkCop true o], k1 : S)]. cbn [mel]. unfold mel_mono. cbn [act]. unfold act_cop. cbn [dag ind]. cbv zeta. unfold bit in Hb. rewrite Hb, <- Hs, N.eqb_refl.
    intros H. assert (E : sgn (xorb false (par_below (N.of_nat i) (pos o))) = (k0 : S)) by (rewrite <- H; ring).
    exact (sgn_nz S L _ E).
  Qed.

  Definition pairs_of (todo : list indices) : list (cols S * cols S) :=
    map (fun o => (imp_cols S l (op_c_dag S o) d, imp_cols S l (op_c S o) d)) todo.
  Definition among (todo : list indices) (k : nat) : bool := existsb (fun o => pos o =? k) todo.

  Lemma pairs_ok todo : incl todo l -> op_pairs_ok S kisz size (pairs_of todo).
  Proof.
    intros Hi cd c H. apply (auto_ops_ok S L l d Hl Hd cd c). unfold pairs_of, auto_ops in *.
    apply in_map_iff in H. destruct H as (o & E & Ho). apply in_map_iff. exists o. split; [exact E|]. apply Hi, Ho.
  Qed.

  Lemma lift todo : forall s s' i j f g (R : nat -> bool), incl todo l -> NoDup todo -> indexed S size s ->
    i < size -> j < size -> lookup_basis_state s i = lookup_basis_state s j ->
    (forall k, R k = true -> bit (N.of_nat i) k = false /\ bit (N.of_nat j) k = false) ->
    merges S kisz choose norm s (pairs_of todo) = Some s' ->
    (forall k, bit (N.of_nat f) k = bit (N.of_nat i) k || (R k && among todo k)) ->
    (forall k, bit (N.of_nat g) k = bit (N.of_nat j) k || (R k && among todo k)) ->
    lookup_basis_state s' f = lookup_basis_state s' g.
  Proof.
    induction todo as [|o todo IH]; intros s s' i j f g R Hin HN I Hi Hj Hs HR Hm Hf Hg.
    - cbn in Hm. injection Hm as <-.
      assert (Ef : f = i). { apply Nat2N.inj, testbit_eq_N. intros k. specialize (Hf k). unfold bit in Hf. rewrite Hf. cbn. rewrite andb_false_r. apply orb_false_r. }
      assert (Eg : g = j). { apply Nat2N.inj, testbit_eq_N. intros k. specialize (Hg k). unfold bit in Hg. rewrite Hg. cbn. rewrite andb_false_r. apply orb_false_r. }
      congruence.
    - inversion_clear HN as [|? ? Hno HN'].
      assert (Ho : In o l) by (apply Hin; left; reflexivity).
      assert (Hin' : incl todo l) by (intros x Hx; apply Hin; right; exact Hx).
      destruct (pairs_ok (o :: todo) Hin (imp_cols S l (op_c_dag S o) d) (imp_cols S l (op_c S o) d)) as (P1 & P2 & P3); [left; reflexivity|].
      cbn [pairs_of map merges] in Hm.
      destruct (merge_ok S kisz choose norm Nok size s _ _ true I P1 P2 P3) as (s1 & m & m' & E & I1 & _ & _ & _ & K1).
      rewrite E in Hm.
      assert (Na : among todo (pos o) = false).
      { destruct (among todo (pos o)) eqn:e; [|reflexivity]. apply existsb_exists in e. destruct e as (x & Hx & e). apply Nat.eqb_eq in e.
        apply mode_inj in e; [|apply Hin'; exact Hx|exact Ho]. subst. contradiction. }
      destruct (R (pos o)) eqn:ER.
      + destruct (HR _ ER) as [Bi Bj].
        assert (Up : forall x, x < size -> bit (N.of_nat x) (pos o) = false ->
          exists y, y < size /\ N.of_nat y = N.setbit (N.of_nat x) (N.of_nat (pos o))).
        { intros x Hx Bx. exists (N.to_nat (N.setbit (N.of_nat x) (N.of_nat (pos o)))). rewrite N2Nat.id. split; [|reflexivity].
          apply size_bits. rewrite N2Nat.id. intros k Hk. unfold bit. rewrite setbit_nat. apply size_bits with (k := k) in Hx; [|exact Hk].
          unfold bit in Hx. rewrite Hx, orb_false_r. apply Nat.eqb_neq. pose proof (mode_lt l o Ho). lia. }
        destruct (Up i Hi Bi) as (i1 & Hi1 & Ei1). destruct (Up j Hj Bj) as (j1 & Hj1 & Ej1).
        apply (IH s1 s' i1 j1 f g (fun k => R k && negb (pos o =? k))); auto.
        * apply K1; [exact Hi1|exact Hj1|]. apply images_merge with (i := i) (j := j); auto; apply cd_nonzero; auto.
        * intros k Hk. apply andb_true_iff in Hk. destruct Hk as [Hk Hne]. apply negb_true_iff in Hne. destruct (HR k Hk) as [B1 B2].
          unfold bit in *. rewrite Ei1, Ej1, !setbit_nat, B1, B2, Hne. auto.
        * intros k. rewrite Hf. unfold bit at 2. rewrite Ei1, setbit_nat. fold (bit (N.of_nat i) k). cbn [among existsb].
          fold (among todo k). destruct (Nat.eqb_spec (pos o) k) as [<-|]; [rewrite ER, Bi, Na; reflexivity|].
          cbn [negb orb andb]. rewrite andb_true_r. reflexivity.
        * intros k. rewrite Hg. unfold bit at 2. rewrite Ej1, setbit_nat. fold (bit (N.of_nat j) k). cbn [among existsb].
          fold (among todo k). destruct (Nat.eqb_spec (pos o) k) as [<-|]; [rewrite ER, Bj, Na; reflexivity|].
          cbn [negb orb andb]. rewrite andb_true_r. reflexivity.
      + apply (IH s1 s' i j f g R); auto.
        * apply K1; [exact Hi|exact Hj|]. apply rst_step. exists false. apply rst_step. constructor; auto.
        * intros k. rewrite Hf. cbn [among existsb]. fold (among todo k). destruct (Nat.eqb_spec (pos o) k) as [<-|]; [rewrite ER; reflexivity|reflexivity].
        * intros k. rewrite Hg. cbn [among existsb]. fold (among todo k). destruct (Nat.eqb_spec (pos o) k) as [<-|]; [rewrite ER; reflexivity|reflexivity].
  Qed.

  Lemma eval_op_wf e op : (forall j, uses e j -> In j l) -> eval e = Some op -> op_wf S l op.
  Proof.
    intros Hu He. destruct (eval_wf S L e) as (op' & E & W & _). rewrite He in E. injection E as <-. pose proof (eval_op_ok S L l e op Hu He) as O.
    split; [apply W|]. apply Forall_forall. intros [m c] Hin. unfold op_ok in O. rewrite Forall_forall in O. specialize (O _ Hin).
    split; [exact O|]. destruct W as (_ & W). rewrite Forall_forall in W. apply (W _ Hin).
  Qed.

  Lemma terms_in_blocks hyb e op s' : NoDup l -> (forall j, uses e j -> In j l) -> eval e = Some op ->
    match hyb with Some hy => in_space S size hy | None => True end ->
    merges S kisz choose norm (sp_new S kisz choose norm size (imp_cols S l op d) false hyb) (pairs_of l) = Some s' ->
    forall m c f g b, In (m, c) op -> f < size -> act pos m (N.of_nat f) = Some (b, g) ->
      (g < 2 ^ N.of_nat (length l))%N /\ lookup_basis_state s' f = lookup_basis_state s' (N.to_nat g).
  Proof.
    intros HN Hu He Hh Hm.
    destruct (cols_spec S L l d Hl Hd e op Hu He) as (H1 & _ & _).
    destruct (new_indexed S kisz choose norm Nok size (imp_cols S l op d) hyb false H1 Hh) as [I K].
    pose proof (eval_op_wf e op Hu He) as W.
    assert (G : forall m c f g b, In (m, c) op -> act pos m f = Some (b, g) ->
       (f < 2 ^ N.of_nat (length l))%N -> (g < 2 ^ N.of_nat (length l))%N /\ lookup_basis_state s' (N.to_nat f) = lookup_basis_state s' (N.to_nat g)).
    { intros m0 c0 f0 g0 b0 Hin0 Ha0. revert m0 c0 f0 g0 b0 Hin0 Ha0.
      refine (term_induction S L l op (fun f g => (f < 2 ^ N.of_nat (length l))%N ->
        (g < 2 ^ N.of_nat (length l))%N /\ lookup_basis_state s' (N.to_nat f) = lookup_basis_state s' (N.to_nat g)) W _).
      intros m c f g b Hin Hz Ha Hf.
      assert (Hm0 : mono_ok l m). { destruct W as [_ W]. rewrite Forall_forall in W. apply (W _ Hin). }
      pose proof (mono_bits l m f Hm0) as Hb. rewrite Ha in Hb. destruct Hb as [[C1 C2] Af].
      assert (Pos : forall o, In o m -> pos (ind o) < length l).
      { intros o Ho. apply mode_lt. destruct Hm0 as [_ Hm0]. unfold mono_on in Hm0. rewrite Forall_forall in Hm0. auto. }
      assert (Ba : forall k, length l <= k -> ann pos m k = false).
      { intros k Hk. destruct (ann pos m k) eqn:e0; [|reflexivity]. apply ann_spec in e0. destruct e0 as (o & Ho & _ & Hp). specialize (Pos o Ho). lia. }
      assert (Bc : forall k, length l <= k -> cre pos m k = false).
      { intros k Hk. destruct (cre pos m k) eqn:e0; [|reflexivity]. apply cre_spec in e0. destruct e0 as (o & Ho & _ & Hp). specialize (Pos o Ho). lia. }
      assert (Fb : forall k, length l <= k -> bit f k = false) by (intros k Hk; apply (high_bits _ _ k Hf Hk)).
      split.
      { apply bits_low. intros k Hk. fold (bit g k). rewrite Af, Bc, Fb by exact Hk. reflexivity. }
      assert (Hlo : N.to_nat (low l m) < size).
      { apply size_bits. rewrite N2Nat.id. intros k Hk. rewrite low_bit. auto. }
      assert (Hhi : N.to_nat (high l m) < size).
      { apply size_bits. rewrite N2Nat.id. intros k Hk. rewrite high_bit. auto. }
      assert (Lm : forall k, k < length l -> among l k = true).
      { intros k Hk. destruct (nth_error l k) as [o|] eqn:e0; [|apply nth_error_None in e0; lia].
        apply existsb_exists. exists o. split; [eapply nth_error_In; exact e0|]. apply Nat.eqb_eq. unfold mode. rewrite (NoDup_find_pos l o k HN e0). reflexivity. }
      apply (lift l (sp_new S kisz choose norm size (imp_cols S l op d) false hyb) s' (N.to_nat (low l m)) (N.to_nat (high l m))
               (N.to_nat f) (N.to_nat g) (fun k => bit f k && negb (ann pos m k))); auto.
      - apply incl_refl.
      - apply (lookup_same S size _ _ _ I Hlo Hhi). apply K; auto. apply rst_step. split; [exact Hlo|]. left.
        apply (cols_nonzero S L l d Hl Hd e op Hu He); [exact Hlo|]. split; [exact Hhi|].
        rewrite (element_mel e op) by assumption. rewrite !N2Nat.id. exact Hz.
      - intros k Hk. apply andb_true_iff in Hk. destruct Hk as [Hk1 Hk2]. apply negb_true_iff in Hk2. rewrite !N2Nat.id, low_bit, high_bit.
        split; [exact Hk2|]. destruct (cre pos m k) eqn:e0; [|reflexivity]. rewrite (C2 k e0 Hk1) in Hk2. discriminate.
      - intros k. rewrite !N2Nat.id, low_bit. destruct (Nat.lt_ge_cases k (length l)) as [Hk|Hk].
        + rewrite Lm by exact Hk. rewrite andb_true_r. specialize (C1 k). destruct (ann pos m k), (bit f k); auto.
        + rewrite Ba, Fb by exact Hk. reflexivity.
      - intros k. rewrite !N2Nat.id, high_bit, Af. destruct (Nat.lt_ge_cases k (length l)) as [Hk|Hk].
        + rewrite Lm by exact Hk. rewrite andb_true_r. reflexivity.
        + rewrite Ba, Fb by exact Hk. reflexivity. }
    intros m c f g b Hin Hf Ha. apply size_lt in Hf. specialize (G m c (N.of_nat f) g b Hin Ha Hf). rewrite Nat2N.id in G. exact G.
  Qed.
End Lift.
