(** imperative_operator against the Fock-space meaning of the many-body operator. *)
From Coq Require Import ZArith NArith List Bool Lia Sorted Permutation.
From Verif Require Import Base Indices Scalar Fock FockFacts OpModel OpExpr OpNormal Hilbert Hilbert_proofs
  State StateSpec State_proofs ImpOp ImpOp_proofs.
Import ListNotations.

(** the mode of an index is its position in the fundamental operator set *)
Definition mode (l : fops) (i : indices) : nat := match find_pos l i with Some p => p | None => O end.

Lemma mode_inj l i j : In i l -> In j l -> mode l i = mode l j -> i = j.
Proof.
  intros Hi Hj. unfold mode. destruct (find_pos_In l i Hi) as [p Ep], (find_pos_In l j Hj) as [q Eq]. rewrite Ep, Eq.
  intros <-. eapply find_pos_inj; eauto.
Qed.
Lemma mode_lt l i : In i l -> mode l i < length l.
Proof. intros Hi. unfold mode. destruct (find_pos_In l i Hi) as [p Ep]. rewrite Ep. eapply find_pos_lt; eauto. Qed.

Section Run.
  Context (S : scalar_ops) (L : scalar_laws S).
  Local Open Scope K_scope.
  Add Ring Kring : (sl_ring S L).
  Variable l : fops.
  Notation pos := (mode l).

  (** normal-ordered monomials over l can be sorted and have distinct modes *)
  Lemma normal_swap_ok m : normal m -> mono_on (fun i => In i l) m -> swap_ok pos m /\ modes_once pos m.
  Proof.
    intros Hn Ho. split.
    - induction Hn as [|a m Hm IH HF]; [constructor|]. inversion_clear Ho. constructor; [|apply IH; assumption].
      rewrite Forall_forall in *. intros b Hb. specialize (HF b Hb). unfold clt, ccmp in HF. unfold swappable, greater.
      revert HF. destruct (dag a), (dag b); simpl; intros HF Hg; try discriminate; apply Nat.ltb_lt in Hg; lia.
    - induction Hn as [|a m Hm IH HF]; [constructor|]. inversion_clear Ho. unfold modes_once. simpl. constructor; [|apply IH; assumption].
      intros Hin. apply in_map_iff in Hin. destruct Hin as (b & E & Hb). injection E as E1 E2.
      unfold mono_on in H0. rewrite Forall_forall in *. specialize (HF b Hb). apply mode_inj in E2; [|auto|auto].
      unfold clt, ccmp in HF. rewrite E1, E2 in HF. rewrite (oc_refl _ icmp_ok) in HF. destruct (dag a); discriminate.
  Qed.

  Lemma imp_term_spec m (c : S) : length l <= 64 -> normal m -> mono_on (fun i => In i l) m ->
    exists (M : one_term S) (s : bool), imp_term l m c = Ok M /\ coeff M = (if s then c * (- k1) else c) /\
    forall f, (f < 2 ^ 64)%N ->
      match term_act M f, act pos m f with
      | None, None => True
      | Some (b, g), Some (b', g') => g = g' /\ (g < 2 ^ 64)%N /\ ((f < 2 ^ 16)%N \/ length l <= 17 -> b = xorb b' s)
      | _, _ => False
      end.
  Proof.
    intros Hl Hn Ho. destruct (normal_swap_ok m Hn Ho) as [Hs Hm].
    unfold imp_term.
    assert (E1 : forallb (fun o => fops_has l (ind o)) m = true).
    { apply forallb_forall. intros o Hin. apply fops_has_spec. unfold mono_on in Ho. rewrite Forall_forall in Ho. auto. }
    rewrite E1. cbn [negb]. cbv zeta.
    change (fun i => match find_pos l i with Some p => p | None => 0 end) with pos.
    destruct (fsort_spec pos m Hs) as (m' & s & Ef & HP & HS & HA). rewrite Ef.
    assert (Hb : Forall (fun o => pos (ind o) < 64) m').
    { apply Forall_forall. intros o Hin. apply (Permutation_in o (Permutation_sym HP)) in Hin.
      unfold mono_on in Ho. rewrite Forall_forall in Ho. specialize (Ho o Hin). apply mode_lt in Ho. lia. }
    assert (E2 : forallb (fun o => (pos (ind o) <? 64)%nat) m' = true).
    { apply forallb_forall. intros o Hin. rewrite Forall_forall in Hb. apply Nat.ltb_lt. auto. }
    match goal with |- context [forallb ?g m'] => replace (forallb g m') with true by (symmetry; exact E2) end. cbn [negb].
    eexists. exists s. split; [reflexivity|]. split; [reflexivity|].
    assert (Hm' : modes_once pos m').
    { unfold modes_once in *. eapply Permutation_NoDup; [|exact Hm]. apply Permutation_map. exact HP. }
    intros f Hf.
    assert (Hsp := sorted_split pos m' HS).
    assert (HT := term_act_sorted pos (if s then c * - k1 else c) _ _ f (sorted_cre pos m' HS Hm') (sorted_ann pos m' HS Hm')).
    rewrite <- Hsp in HT. specialize (HT Hb Hf). cbn zeta in HT. unfold positions.
    destruct (term_act _ f) as [[b g]|]; rewrite HA in HT; destruct (act pos m f) as [[b' g']|]; cbn [sg_res] in HT; try exact HT.
    destruct HT as (H1 & H2 & H3). split; [exact H1|]. split; [exact H2|]. intros H. apply H3. destruct H as [H|H]; [left; exact H|right].
    apply Forall_forall. intros o Hin. apply (Permutation_in o (Permutation_sym HP)) in Hin.
    unfold mono_on in Ho. rewrite Forall_forall in Ho. specialize (Ho o Hin). apply mode_lt in Ho. lia.
  Qed.

  Lemma act_bound m f b g n : mono_on (fun i => In i l) m -> length l <= n -> (f < 2 ^ N.of_nat n)%N ->
    act pos m f = Some (b, g) -> (g < 2 ^ N.of_nat n)%N.
  Proof.
    intros Ho Hn Hf. revert b g. induction m as [|o m IH]; intros b g; simpl.
    - intros H; injection H as <- <-. exact Hf.
    - inversion_clear Ho. destruct (act pos m f) as [[s f1]|]; [|discriminate].
      assert (Hf1 : (f1 < 2 ^ N.of_nat n)%N) by (eapply IH; eauto). clear IH.
      unfold act_cop. destruct (dag o), (N.testbit f1 (N.of_nat (pos (ind o)))); try discriminate;
        intros E; injection E as <- <-; apply bits_low; intros k Hk; rewrite ?setbit_nat, ?clearbit_nat;
        rewrite (high_bits f1 n k) by assumption; rewrite ?andb_false_r, ?orb_false_r; auto.
      apply mode_lt in H. apply Nat.eqb_neq. lia.
  Qed.

  (** what one term contributes to <g| . |f> *)
  Definition contr (M : one_term S) (f g : N) : S :=
    match term_act M f with Some (b, f') => if N.eqb f' g then coeff M * sgn b else k0 | None => k0 end.

  Lemma contr_mel m (c : S) (M : one_term S) (s : bool) f g : coeff M = (if s then c * (- k1) else c) ->
    match term_act M f, act pos m f with
      | None, None => True
      | Some (b, g), Some (b', g') => g = g' /\ (g < 2 ^ 64)%N /\ ((f < 2 ^ 16)%N \/ length l <= 17 -> b = xorb b' s)
      | _, _ => False end -> (f < 2 ^ 16)%N \/ length l <= 17 ->
    contr M f g = c * @mel_mono pos S m f g.
  Proof.
    intros Ec H Hf. unfold contr, mel_mono. rewrite Ec. destruct (term_act M f) as [[b f']|], (act pos m f) as [[b' g']|]; try contradiction; [|ring].
    destruct H as (<- & _ & Hb). rewrite (Hb Hf). destruct (N.eqb f' g); [|ring]. destruct s, b'; simpl; ring.
  Qed.

  (** one pass over the entries of the state *)
  Lemma apply_pass (M : one_term S) h src (es : list (nat * S)) (t : state S) :
    space_ok src -> space_ok h -> st_ok t -> st_sp t = h ->
    Forall (fun ia => fst ia < length (basis src)) es ->
    (forall f b g, In f (basis src) -> term_act M f = Some (b, g) -> In g (basis h)) ->
    exists r, fold_left (apply_step M src (Some h)) es (Ok t) = Ok r /\ st_ok r /\ st_sp r = h /\ kind_of S r = kind_of S t /\
      forall g, amplitude r g = amplitude t g + esum S src (fun f => contr M f g) es.
  Proof.
    intros Hsrc Hh. revert t. induction es as [|[j a] es IH]; intros t Ht Hsp Hb Hcl.
    - exists t. cbn [fold_left]. repeat split; try apply Ht; auto. intros g. unfold esum. simpl. ring.
    - inversion_clear Hb. cbn [fst] in H. apply nth_error_Some in H. destruct (nth_error (basis src) j) as [f|] eqn:Ef; [clear H|congruence].
      assert (Hin : In f (basis src)) by (eapply nth_error_In; eauto).
      assert (Hstep : exists t1, apply_step M src (Some h) (Ok t) (j, a) = Ok t1 /\ st_ok t1 /\ st_sp t1 = h /\ kind_of S t1 = kind_of S t /\
        forall g, amplitude t1 g = amplitude t g + a * contr M f g).
      { unfold apply_step. cbn [bind fst snd]. assert (Ef' := Ef). apply (sp_fock_spec _ Hsrc) in Ef'. destruct Ef' as [-> _]. cbn [bind].
        unfold contr. destruct (term_act M f) as [[b f3]|] eqn:Et.
        - assert (Hg : In f3 (basis h)) by (eapply Hcl; eauto). rewrite <- Hsp in Hg.
          destruct (st_update_amp S L (fun x => x + a * coeff M * (if b then - k1 else k1)) t f3 Ht Hg) as (i & t1 & Ei & Eu & Hok1 & Hsp1 & Hk1 & Hamp).
          rewrite Hsp in Ei. rewrite Ei. cbn [bind]. rewrite Eu. exists t1. repeat split; try apply Hok1; [congruence|exact Hk1|].
          intros g. rewrite Hamp. destruct (N.eqb f3 g); destruct b; simpl; ring.
        - exists t. repeat split; try apply Ht; auto. intros g. ring. }
      destruct Hstep as (t1 & E1 & Hok1 & Hsp1 & Hk1 & Ha1).
      destruct (IH t1 Hok1 Hsp1 H0 Hcl) as (r & E & Hok & Hspr & Hk & Ha).
      exists r. cbn [fold_left]. rewrite E1. repeat split; try apply Hok; auto; [congruence|].
      intros g. rewrite Ha, Ha1. unfold esum. cbn [map ksum fst snd]. rewrite Ef. ring.
  Qed.

  (** the operator maps the first space into the second *)
  Definition maps_into (op : omap S) (h h' : space) : Prop :=
    forall m c f b g, In (m, c) op -> In f (basis h) -> act pos m f = Some (b, g) -> In g (basis h').

  Definition op_ok (op : omap S) : Prop := Forall (fun mc => normal (fst mc) /\ mono_on (fun i => In i l) (fst mc)) op.

  Lemma imp_apply_terms op h h' : length l <= 64 -> op_ok op -> space_ok h -> space_ok h' ->
    (forall f, In f (basis h) -> (f < 2 ^ 64)%N /\ ((f < 2 ^ 16)%N \/ length l <= 17)) -> maps_into op h h' ->
    exists ts : list (one_term S), imp_terms l op = Ok ts /\
    forall (st t : state S), st_ok st -> st_sp st = h -> st_ok t -> st_sp t = h' ->
    exists r, fold_left (fun r M => fold_left (apply_step M (st_sp st) (Some h')) (st_entries st) r) ts (Ok t) = Ok r /\
      st_ok r /\ st_sp r = h' /\ kind_of S r = kind_of S t /\
      forall g, amplitude r g = amplitude t g + amp (apply pos op (st_vec st)) g.
  Proof.
    intros Hl Hop Hh Hh' H16. induction Hop as [|[m c] op [Hn Ho] Hop IH]; intros Hcl.
    - exists []. split; [reflexivity|]. intros st t _ _ Ht Hsp. exists t. cbn [fold_left]. repeat split; try apply Ht; auto. intros g. simpl. ring.
    - cbn [fst] in *. destruct IH as (ts & Ets & IH).
      { intros m0 c0 f b g H. apply (Hcl m0 c0). now right. }
      destruct (imp_term_spec m c Hl Hn Ho) as (M & s & EM & Ec & HM).
      exists (M :: ts). cbn [imp_terms]. rewrite EM. cbn [bind]. rewrite Ets. split; [reflexivity|].
      intros st t Hst Hsp Ht Htp.
      destruct (apply_pass M h' (st_sp st) (st_entries st) t) as (t1 & E1 & Hok1 & Hsp1 & Hk1 & Ha1); auto.
      { rewrite Hsp; exact Hh. }
      { eapply entries_bound; eauto. }
      { rewrite Hsp. intros f b g Hin Et. specialize (HM f (proj1 (H16 f Hin))). rewrite Et in HM.
        destruct (act pos m f) as [[b' g']|] eqn:Ea; [|contradiction]. destruct HM as (-> & _ & _).
        eapply (Hcl m c); eauto. now left. }
      destruct (IH st t1 Hst Hsp Hok1 Hsp1) as (r & E & Hok & Hspr & Hk & Ha).
      exists r. cbn [fold_left]. rewrite E1. repeat split; try apply Hok; auto; [congruence|].
      intros g. rewrite Ha, Ha1. unfold apply. cbn [flat_map fst snd]. rewrite amp_app by exact L. fold (apply pos op (st_vec st)).
      rewrite amp_apply_mono by exact L. rewrite (esum_entries S L st _ Hst).
      assert (EE : vsum S (fun f => contr M f g) (st_vec st) = c * vsum S (fun f => @mel_mono pos S m f g) (st_vec st)); [|rewrite EE; ring].
      rewrite <- vsum_scal by exact L. unfold st_vec.
      assert (Hall : forall f, In f (basis (st_sp st)) -> contr M f g = c * @mel_mono pos S m f g).
      { intros f Hin. rewrite Hsp in Hin. apply (contr_mel m c M s f g Ec); [apply HM; apply H16; exact Hin|apply H16; exact Hin]. }
      clear - Hall. revert Hall. generalize (basis (st_sp st)). intros bs. generalize (map (st_coef st) (seq 0 (length bs))).
      intros cs. revert cs. induction bs as [|b bs IHb]; intros [|x cs] Hall; try reflexivity. cbn [combine vsum].
      rewrite (Hall b) by now left. rewrite IHb by (intros; apply Hall; now right). reflexivity.
  Qed.

  Lemma kind_is_map (st : state S) : is_map st = kind_of S st.
  Proof. reflexivity. Qed.

  (** UseMap = false *)
  Lemma thm_imp_run op (st : state S) : length l <= 64 -> op_ok op -> st_ok st ->
    (forall f, In f (basis (st_sp st)) -> (f < 2 ^ 64)%N /\ ((f < 2 ^ 16)%N \/ length l <= 17)) -> maps_into op (st_sp st) (st_sp st) ->
    exists r, imp_run l op st = Ok r /\ st_ok r /\ st_sp r = st_sp st /\
      forall g, amplitude r g = amp (apply pos op (st_vec st)) g.
  Proof.
    intros Hl Hop Hst H16 Hcl. assert (Hh := proj1 Hst).
    destruct (imp_apply_terms op (st_sp st) (st_sp st) Hl Hop Hh Hh H16 Hcl) as (ts & Ets & H).
    destruct (st_zero_ok S L (is_map st) (st_sp st) Hh) as [Hz1 Hz2].
    destruct (H st (st_zero S (is_map st) (st_sp st)) Hst eq_refl Hz1) as (r & E & Hok & Hsp & _ & Ha).
    { unfold st_zero. reflexivity. }
    exists r. unfold imp_run. rewrite Ets. cbn [bind]. unfold imp_apply. split; [exact E|]. repeat split; try apply Hok; auto.
    intros g. rewrite Ha, Hz2. ring.
  Qed.
  (** the full space: no side condition on the operator *)
  Lemma full_maps_into op d : length l <= 17 -> op_ok op -> hs_dim (length l) = Ok d ->
    (forall f, In f (basis (Full d)) -> (f < 2 ^ 64)%N /\ ((f < 2 ^ 16)%N \/ length l <= 17)) /\ maps_into op (Full d) (Full d).
  Proof.
    intros Hl Hop Hd. assert (H30 : length l <= 30) by lia. destruct (thm_hs_bijection (length l) d H30 Hd) as (Ed & _).
    assert (Hb : forall f, In f (basis (Full d)) <-> (f < 2 ^ N.of_nat (length l))%N).
    { intros f. rewrite <- (sp_has_spec (Full d)) by (exists (length l); auto).
      destruct (thm_hs_bijection (length l) d H30 Hd) as (_ & Hh & _). apply Hh. }
    split.
    - intros f Hf. apply Hb in Hf. split; [|right; exact Hl]. eapply N.lt_le_trans; [exact Hf|]. change 64%N with (N.of_nat 64). apply N.pow_le_mono_r; lia.
    - intros m c f b g Hin Hf Ha. apply Hb. apply Hb in Hf. unfold op_ok in Hop. rewrite Forall_forall in Hop. specialize (Hop _ Hin). cbn [fst] in Hop.
      eapply act_bound; [apply Hop|apply le_n|exact Hf|exact Ha].
  Qed.
  (** UseMap = true : from one subspace to the one given by the connection map *)
  Lemma thm_imp_run_map op hmap subs s s' n (st : state S) :
    length l <= 64 -> op_ok op -> st_ok st -> st_sp st = Sub s ->
    (0 <= sub_index s)%Z -> nth_error hmap (Z.to_nat (sub_index s)) = Some (Z.of_nat n) -> nth_error subs n = Some s' ->
    space_ok (Sub s') ->
    (forall f, In f (basis (Sub s)) -> (f < 2 ^ 64)%N /\ ((f < 2 ^ 16)%N \/ length l <= 17)) -> maps_into op (Sub s) (Sub s') ->
    exists r, imp_run_map l op hmap subs st = Ok r /\ st_ok r /\ st_sp r = Sub s' /\
      forall g, amplitude r g = amp (apply pos op (st_vec st)) g.
  Proof.
    intros Hl Hop Hst Hsp Hi Hm Hs' Hok' H16 Hcl. assert (Hh := proj1 Hst). rewrite Hsp in Hh.
    destruct (imp_apply_terms op (Sub s) (Sub s') Hl Hop Hh Hok' H16 Hcl) as (ts & Ets & H).
    destruct (st_zero_ok S L (is_map st) (Sub s') Hok') as [Hz1 Hz2].
    destruct (H st (st_zero S (is_map st) (Sub s')) Hst Hsp Hz1) as (r & E & Hok & Hspr & _ & Ha).
    { unfold st_zero. reflexivity. }
    exists r. unfold imp_run_map. destruct hmap as [|z hmap]; [destruct (Z.to_nat (sub_index s)); discriminate|].
    rewrite Ets. cbn [bind]. unfold target_by_map. rewrite Hsp. destruct (Z.ltb_spec (sub_index s) 0); [lia|]. rewrite Hm.
    destruct (Z.eqb_spec (Z.of_nat n) (-1)); [lia|]. destruct (Z.ltb_spec (Z.of_nat n) 0); [lia|]. rewrite Nat2Z.id, Hs'. cbn [bind].
    unfold imp_apply. split; [exact E|]. repeat split; try apply Hok; auto. intros g. rewrite Ha, Hz2. ring.
  Qed.
  (** an index missing from the fundamental set *)
  Lemma thm_imp_missing op (st : state S) m c i d : In (m, c) op -> In (mkCop d i) m -> ~ In i l -> length l <= 64 ->
    (forall m' c', In (m', c') op -> normal m') -> imp_run l op st = Throw.
  Proof.
    intros Hin Hm Hi Hl Hno. unfold imp_run. assert (E : imp_terms l op = Throw); [|rewrite E; reflexivity].
    induction op as [|[m0 c0] op IH]; [contradiction|]. cbn [imp_terms].
    destruct (forallb (fun o => fops_has l (ind o)) m0) eqn:Eall.
    - assert (Ho : mono_on (fun i => In i l) m0).
      { rewrite forallb_forall in Eall. apply Forall_forall. intros o Ho. apply fops_has_spec. auto. }
      destruct (imp_term_spec m0 c0 Hl (Hno m0 c0 (or_introl eq_refl)) Ho) as (M & s & -> & _). cbn [bind].
      destruct Hin as [Hin|Hin].
      + exfalso. injection Hin as <- <-. apply Hi. unfold mono_on in Ho. rewrite Forall_forall in Ho. apply (Ho _ Hm).
      + rewrite IH; auto. intros m' c' H'. apply (Hno m' c'). now right.
    - unfold imp_term. rewrite Eall. reflexivity.
  Qed.
End Run.
