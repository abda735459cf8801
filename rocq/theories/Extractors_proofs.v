From Coq Require Import ZArith NArith List Bool String Lia Sorted Ring.
From Verif Require Import Base Indices Scalar Fock FockFacts OpModel OpExpr OpNormal OpUnique Op_proofs Hilbert Extractors ExtractorsSpec.
Import ListNotations.
Local Open Scope nat_scope.

(** ---- Specification: the documented formulae as operator expressions ---- *)
Lemma kcmp_ok : order_ok kcmp.
Proof. exact (lex_ok _ icmp_ok). Qed.

Section P.
  Context (S : scalar_ops) (L : scalar_laws S).
  Local Open Scope K_scope.
  Add Ring Kr : (sl_ring S L).
  Notation dict := (dict S).

  (** ---- dictionaries ---- *)
  Lemma d_insert_In k x (d : dict) k' : In k' (map fst (d_insert S k x d)) <-> k' = k \/ In k' (map fst d).
  Proof.
    induction d as [|[k1 x1] d IH]; cbn [d_insert map fst]; [cbn; intuition|].
    destruct (kcmp k k1) eqn:E; cbn [map fst].
    - apply (oc_eq _ kcmp_ok) in E. subst. cbn. intuition.
    - cbn. intuition.
    - cbn [In]. rewrite IH. intuition.
  Qed.
  Lemma d_insert_sum (phi : key * S -> S) k x (d : dict) : ~ In k (map fst d) ->
    ksum (map phi (d_insert S k x d)) = phi (k, x) + ksum (map phi d).
  Proof.
    induction d as [|[k1 x1] d IH]; intros H; cbn [d_insert]; [reflexivity|].
    destruct (kcmp k k1) eqn:E.
    - apply (oc_eq _ kcmp_ok) in E. subst. destruct H. left. reflexivity.
    - reflexivity.
    - cbn [map ksum]. rewrite IH by (intros C; apply H; right; exact C). ring.
  Qed.
  Notation dklt := (dklt S).
  Lemma d_insert_sorted k x (d : dict) : StronglySorted dklt d -> StronglySorted dklt (d_insert S k x d).
  Proof.
    induction d as [|[k1 x1] d IH]; intros H; cbn [d_insert]; [repeat constructor|].
    inversion H as [|? ? H1 H2]; subst. destruct (kcmp k k1) eqn:E; [exact H| |].
    - constructor; [exact H|]. constructor; [exact E|]. eapply Forall_impl; [|exact H2]. intros a Ha. unfold dklt in *. cbn [fst] in *. eapply (oc_trans _ kcmp_ok); eassumption.
    - constructor; [apply IH; exact H1|]. apply Forall_forall. intros [k2 x2] I. assert (I' : In k2 (map fst (d_insert S k x d))) by (change k2 with (fst (k2, x2)); apply in_map; exact I).
      apply d_insert_In in I'. unfold dklt. cbn [fst]. destruct I' as [->|I'].
      + apply (oc_gt_lt _ kcmp_ok). exact E.
      + apply in_map_iff in I'. destruct I' as ((k3 & x3) & E3 & I3). cbn in E3. subst k3. rewrite Forall_forall in H2. apply (H2 (k2, x3) I3).
  Qed.
  Lemma d_insert_Forall (Q : key * S -> Prop) k x (d : dict) : Q (k, x) -> Forall Q d -> Forall Q (d_insert S k x d).
  Proof.
    intros Hq. induction d as [|[k1 x1] d IH]; intros H; cbn [d_insert]; [repeat constructor; exact Hq|].
    inversion H; subst. destruct (kcmp k k1); [exact H|constructor; auto|constructor; auto].
  Qed.

  Section Loop.
    Variable entries : monomial -> S -> option (list (key * S)).
    Variable Ok_m : monomial -> Prop.
    Hypothesis nodup : forall m c es, Ok_m m -> entries m c = Some es -> NoDup (map fst es).
    Hypothesis disj : forall m c es m' c' es' k, Ok_m m -> Ok_m m' -> entries m c = Some es -> entries m' c' = Some es' ->
      In k (map fst es) -> In k (map fst es') -> m = m'.

    Lemma inserts_sum (phi : key * S -> S) es : forall (d : dict), NoDup (map fst es) -> (forall k, In k (map fst es) -> ~ In k (map fst d)) ->
      let d' := fold_left (fun d kx => d_insert S (fst kx) (snd kx) d) es d in
      ksum (map phi d') = ksum (map phi d) + ksum (map phi es) /\ (forall k, In k (map fst d') <-> In k (map fst d) \/ In k (map fst es)).
    Proof.
      induction es as [|[k x] es IH]; intros d N F; cbn [fold_left map fst].
      - cbn. split; [ring|]. intros. tauto.
      - inversion N as [|? ? N1 N2]; subst. cbn [fst snd]. destruct (IH (d_insert S k x d)) as [I1 I2]; [exact N2| |].
        + intros k' Hk' C. apply d_insert_In in C. destruct C as [->|C]; [contradiction|]. apply (F k'); [right; exact Hk'|exact C].
        + cbv zeta in *. rewrite I1. split.
          * rewrite d_insert_sum by (apply F; left; reflexivity). cbn [map ksum]. ring.
          * intros k'. rewrite I2, d_insert_In. cbn [In fst map]. intuition congruence.
    Qed.
    Lemma inserts_inv (Q : key * S -> Prop) es : forall (d : dict), Forall Q es -> Forall Q d -> StronglySorted dklt d ->
      Forall Q (fold_left (fun d kx => d_insert S (fst kx) (snd kx) d) es d) /\ StronglySorted dklt (fold_left (fun d kx => d_insert S (fst kx) (snd kx) d) es d).
    Proof.
      induction es as [|[k x] es IH]; intros d He Hd Hs; cbn [fold_left]; [auto|]. inversion He; subst. apply IH; auto using d_insert_sorted, d_insert_Forall.
    Qed.

    Definition hit (mc : monomial * S) : bool := match entries (fst mc) (snd mc) with Some _ => true | None => false end.
    Definition out (mc : monomial * S) : list (key * S) := match entries (fst mc) (snd mc) with Some es => es | None => [] end.

    Lemma loop_ok ignore (h : omap S) (phi : key * S -> S) (Q : key * S -> Prop) : forall d : dict,
      Forall (fun mc => Ok_m (fst mc)) h -> NoDup (map fst h) -> Forall (fun mc => Forall Q (out mc)) h -> Forall Q d -> StronglySorted dklt d ->
      (forall mc k, In mc h -> In k (map fst (out mc)) -> ~ In k (map fst d)) ->
      (ignore = true \/ Forall (fun mc => hit mc = true) h) ->
      exists d', extract_loop S entries ignore h d = Ok d' /\ StronglySorted dklt d' /\ Forall Q d' /\
        ksum (map phi d') = ksum (map phi d) + ksum (map (fun mc => ksum (map phi (out mc))) (filter hit h)).
    Proof.
      induction h as [|[m c] h IH]; intros d HO N HQ Hd Hs F Hi; cbn [extract_loop].
      - exists d. split; [reflexivity|]. split; [exact Hs|]. split; [exact Hd|]. cbn. ring.
      - inversion HO as [|? ? HO1 HO2]; subst. inversion N as [|? ? N1 N2]; subst. inversion HQ as [|? ? HQ1 HQ2]; subst. cbn [fst snd] in *. cbn [filter].
        assert (Hi' : ignore = true \/ Forall (fun mc => hit mc = true) h) by (destruct Hi as [Hi|Hi]; [auto|right; inversion Hi; auto]).
        unfold hit at 1. cbn [fst snd]. destruct (entries m c) as [es|] eqn:E.
        + assert (Eo : out (m, c) = es) by (unfold out; cbn [fst snd]; rewrite E; reflexivity).
          destruct (inserts_sum phi es d (nodup m c es HO1 E)) as [S1 S2].
          { intros k Hk. apply (F (m, c) k); [left; reflexivity|rewrite Eo; exact Hk]. }
          cbv zeta in S1, S2. rewrite Eo in HQ1. destruct (inserts_inv Q es d HQ1 Hd Hs) as [I1 I2].
          destruct (IH _ HO2 N2 HQ2 I1 I2) as (d' & E' & G1 & G2 & G3).
          * intros mc k Imc Ik C. apply S2 in C. destruct C as [C|C]; [apply (F mc k); [right; exact Imc|exact Ik|exact C]|].
            apply N1. destruct mc as [m' c']. unfold out in Ik. cbn [fst snd] in Ik. destruct (entries m' c') as [es'|] eqn:E'; [|destruct Ik].
            rewrite Forall_forall in HO2. pose proof (HO2 _ Imc) as HO'. cbn [fst] in HO'.
            rewrite (disj m c es m' c' es' k HO1 HO' E E' C Ik). change m' with (fst (m', c')). apply in_map. exact Imc.
          * exact Hi'.
          * exists d'. split; [exact E'|]. split; [exact G1|]. split; [exact G2|]. rewrite G3, S1. cbn [map ksum]. rewrite Eo. ring.
        + assert (Hig : ignore = true) by (destruct Hi as [Hi|Hi]; [exact Hi|]; inversion Hi as [|? ? Hh _]; subst; unfold hit in Hh; cbn [fst snd] in Hh; rewrite E in Hh; discriminate Hh).
          rewrite Hig. rewrite <- Hig. destruct (IH d HO2 N2 HQ2 Hd Hs) as (d' & E' & G); [|exact Hi'|].
          * intros mc k Imc. apply (F mc k). right. exact Imc.
          * exists d'. auto.
    Qed.
    Lemma loop_throw (h : omap S) : forall d : dict, existsb (fun mc => negb (hit mc)) h = true -> extract_loop S entries false h d = Throw.
    Proof.
      induction h as [|[m c] h IH]; intros d H; [discriminate H|]. cbn [extract_loop existsb] in *. unfold hit at 1 in H. cbn [fst snd] in H.
      destruct (entries m c); [apply IH; exact H|reflexivity].
    Qed.
  End Loop.

  Lemma ksum_scal {A} (x : S) (phi : A -> S) l : x * ksum (map phi l) = ksum (map (fun a => x * phi a) l).
  Proof. induction l as [|a l IH]; cbn [map ksum]; [ring|]. rewrite <- IH. ring. Qed.

  (** ---- meanings ---- *)
  Section Mean.
    Variable pos : indices -> nat.
    Variables (f g : N).
    Notation W e := (amp (meaning pos e [(k1, f)]) g).
    Lemma dict_sum_mean F (d : dict) : W (dict_sum S F d) = ksum (map (fun kx => snd kx * W (F (fst kx))) d).
    Proof.
      unfold meaning. induction d as [|[k x] d IH]; cbn [dict_sum fold_right map ksum].
      - cbn [den]. rewrite (amp_scale S L). unfold cj. ring.
      - cbn [den]. rewrite (amp_app S L), (amp_scale S L). unfold cj. cbn [fst snd]. f_equal. exact IH.
    Qed.
    Lemma mono_mean m (c : S) : amp (apply_mono pos m c [(k1, f)]) g = c * mel_mono pos m f g.
    Proof. rewrite (amp_apply_mono pos S L). cbn [vsum map ksum]. cbn. ring. Qed.
    Lemma two v m1 m2 : amp (apply_mono pos m1 (k1 : S) (apply_mono pos m2 k1 v)) g = amp (apply_mono pos (m1 ++ m2) (k1 : S) v) g.
    Proof. rewrite <- (apply_mono_comp pos S L). f_equal. f_equal. ring. Qed.
    Lemma quadratic_mean i j : W (quadratic S [i; j]) = mel_mono pos [cd i; ca j] f g.
    Proof. unfold meaning, quadratic. cbn [den]. unfold act1. cbn [negb]. rewrite two, mono_mean. cbn [app]. unfold cd, ca. ring. Qed.
    Lemma two_v m1 m2 v : veq (apply_mono pos m1 (k1 : S) (apply_mono pos m2 k1 v)) (apply_mono pos (m1 ++ m2) (k1 : S) v).
    Proof. intros h. rewrite <- (apply_mono_comp pos S L). f_equal. f_equal. ring. Qed.
    Lemma dd_mean i j : pos i <> pos j -> W (density_density S [i; j]) = mel_mono pos [cd i; cd j; ca j; ca i] f g.
    Proof.
      intros Hn. unfold meaning, density_density. cbn [den]. unfold act1.
      rewrite (two_v [mkCop true i] [mkCop false i] _ g).
      rewrite (apply_mono_veq S L pos _ _ _ _ (two_v [mkCop true j] [mkCop false j] [(k1, f)]) g). rewrite two, mono_mean. cbn [app]. unfold cd, ca.
      change [mkCop true i; mkCop false i; mkCop true j; mkCop false j] with ([mkCop true i] ++ mkCop false i :: mkCop true j :: [mkCop false j]).
      rewrite (mel_ctx_neg pos S L) by exact Hn. cbn [app].
      change [mkCop true i; mkCop true j; mkCop false i; mkCop false j] with ([mkCop true i; mkCop true j] ++ mkCop false i :: mkCop false j :: []).
      rewrite (mel_ctx_neg pos S L) by exact Hn. cbn [app]. ring.
    Qed.
    Lemma tp_mean i j k l : W (two_particle S [i; j; k; l]) = mel_mono pos [cd i; cd j; ca l; ca k] f g.
    Proof.
      unfold meaning, two_particle. cbn [den]. unfold act1. cbn [negb]. rewrite (two_v [mkCop true i] [mkCop true j] _ g), !two, mono_mean. cbn [app]. unfold cd, ca. ring.
    Qed.
    Lemma swap_cre i j rest : pos i <> pos j -> mel_mono pos (cd i :: cd j :: rest) f g = - mel_mono pos (cd j :: cd i :: rest) f g :> S.
    Proof. intros H. apply (mel_ctx_neg pos S L (cd i) (cd j) []). exact H. Qed.
    Lemma swap_ann x y i j : pos i <> pos j -> mel_mono pos [x; y; ca i; ca j] f g = - mel_mono pos [x; y; ca j; ca i] f g :> S.
    Proof. intros H. apply (mel_ctx_neg pos S L (ca i) (ca j) [x; y] []). exact H. Qed.
  End Mean.

  Lemma uses_finite (e : expr S) : exists l, forall i, uses e i -> In i l.
  Proof.
    induction e as [x|i|i|i|e IH|e3 IH1 e4 IH2|e3 IH1 e4 IH2|e3 IH1 e4 IH2|e IH x|e IH x|x e IH|e IH x|e IH]; cbn [uses]; auto;
      try (exists [i]; simpl; auto; fail); try (destruct IH1 as [l1 H1]; destruct IH2 as [l2 H2]; exists (l1 ++ l2); intros; apply in_or_app; intuition; fail).
    exists []. tauto.
  Qed.
  (** an expression whose matrix elements are those of a normal form evaluates to it *)
  Lemma eval_to (e : expr S) (b : omap S) : wf b ->
    (forall pos f g, (forall i j, (uses e i \/ In i (op_inds S b)) -> (uses e j \/ In j (op_inds S b)) -> pos i = pos j -> i = j) ->
       amp (meaning pos e [(k1, f)]) g = mel pos b f g) -> eval e = Some b.
  Proof.
    intros Hb H. destruct (eval_wf S L e) as (a & Ea & Ha & HPa). rewrite Ea. f_equal.
    destruct (uses_finite e) as [l Hl]. set (l' := l ++ op_inds S b).
    assert (Hinj : forall i j, (uses e i \/ In i (op_inds S b)) -> (uses e j \/ In j (op_inds S b)) -> number l' i = number l' j -> i = j).
    { assert (Hin : forall i, (uses e i \/ In i (op_inds S b)) -> In i l') by (intros i [Hi|Hi]; apply in_or_app; auto).
      intros i j Hi Hj. apply number_inj; auto. }
    apply (same_mel_eq S L (number l') _ a b Hinj Ha Hb).
    - apply (op_on_weaken S (uses e)); auto.
    - apply op_inds_on. auto.
    - intros f g. rewrite (meaning_mel S L e (number l') a); [apply H; exact Hinj| |exact Ea]. intros i j Hi Hj. apply Hinj; auto.
  Qed.

  Lemma filter_sorted {A} (R : A -> A -> Prop) p l : StronglySorted R l -> StronglySorted R (filter p l).
  Proof.
    induction l as [|a l IH]; intros H; cbn; [exact H|]. inversion H as [|? ? H1 H2]; subst. destruct (p a); auto. constructor; auto.
    apply Forall_forall. intros x Hx. apply filter_In in Hx. rewrite Forall_forall in H2. apply H2. tauto.
  Qed.
  Lemma filter_wf p (h : omap S) : wf h -> wf (filter p h).
  Proof.
    intros [H1 H2]. split; [apply filter_sorted; exact H1|]. apply Forall_forall. intros x Hx. apply filter_In in Hx. rewrite Forall_forall in H2. apply H2. tauto.
  Qed.
  Lemma in_inds (h : omap S) m c o : In (m, c) h -> In o m -> In (ind o) (op_inds S h).
  Proof.
    intros Hi Ho. unfold op_inds. apply in_flat_map. exists (m, c). split; [exact Hi|]. cbn. apply in_map. exact Ho.
  Qed.

  (** ---- the three extractors ---- *)
  Lemma normal_pair d i j rest : normal (mkCop d i :: mkCop d j :: rest) -> i <> j.
  Proof.
    intros H ->. inversion H as [|? ? _ H2]; subst. inversion H2 as [|? ? H3 _]; subst. exact (clt_irrefl _ H3).
  Qed.
  Lemma normal_tail o rest : normal (o :: rest) -> normal rest.
  Proof. intros H. inversion H; auto. Qed.
  Lemma normal_order2 d i j i' j' r r' : normal (mkCop d i :: mkCop d j :: r) -> normal (mkCop d i' :: mkCop d j' :: r') -> i = j' -> j = i' -> False.
  Proof.
    intros H H' -> ->. inversion H as [|? ? _ A]; subst. inversion A as [|? ? A1 _]; subst. inversion H' as [|? ? _ B]; subst. inversion B as [|? ? B1 _]; subst.
    exact (clt_irrefl _ (oc_trans _ ccmp_ok _ _ _ A1 B1)).
  Qed.

  Lemma h_entries_some m (c : S) es : h_entries S m c = Some es <-> exists i j, m = [cd i; ca j] /\ es = [([i; j], c)].
  Proof.
    split.
    - destruct m as [|[da ia] [|[db ib] [|]]]; try discriminate. cbn [h_entries dag ind]. destruct da, db; try discriminate. intros [= <-]. exists ia, ib. auto.
    - intros (i & j & -> & ->). reflexivity.
  Qed.
  Lemma U2_entries_some m (c : S) es : U2_entries S m c = Some es <-> exists i j, m = [cd i; cd j; ca j; ca i] /\ es = [([i; j], c); ([j; i], c)].
  Proof.
    split.
    - destruct m as [|[da ia] [|[db ib] [|[dx ix] [|[dy iy] [|]]]]]; try discriminate. cbn [U2_entries dag ind]. destruct da, db, dx, dy; try discriminate.
      cbn [andb negb orb]. destruct (ieqb ia iy) eqn:E1; [|discriminate]. destruct (ieqb ib ix) eqn:E2; [|discriminate]. apply ieqb_eq in E1, E2. subst.
      intros [= <-]. exists iy, ix. auto.
    - intros (i & j & -> & ->). cbn [U2_entries dag ind cd ca]. cbn [andb negb orb]. replace (ieqb i i) with true by (symmetry; apply ieqb_eq; reflexivity).
      replace (ieqb j j) with true by (symmetry; apply ieqb_eq; reflexivity). reflexivity.
  Qed.
  Variable half : S.
  Hypothesis half2 : half + half = k1.
  Lemma U4_entries_some m (c : S) es : U4_entries S half m c = Some es <-> exists i j k l, m = [cd i; cd j; ca l; ca k] /\
    es = [([i; j; k; l], half * c); ([j; i; l; k], half * c); ([i; j; l; k], - half * c); ([j; i; k; l], - half * c)].
  Proof.
    split.
    - destruct m as [|[da ia] [|[db ib] [|[dx ix] [|[dy iy] [|]]]]]; try discriminate. cbn [U4_entries dag ind]. destruct da, db, dx, dy; try discriminate.
      cbn [andb negb orb]. intros [= <-]. exists ia, ib, iy, ix. auto.
    - intros (i & j & k & l & -> & ->). reflexivity.
  Qed.
  Lemma half_nz : half <> k0.
  Proof. intros H. apply (sl_nontrivial S L). rewrite <- half2, H. ring. Qed.
  Lemma half_mul (c : S) : c <> k0 -> half * c <> k0.
  Proof. intros H E. destruct (sl_integral S L _ _ E); [apply half_nz|apply H]; assumption. Qed.
  Lemma opp_half_mul (c : S) : c <> k0 -> - half * c <> k0.
  Proof. intros H E. apply (half_mul c H). transitivity (- (- half * c)); [ring|]. rewrite E. ring. Qed.

  Notation proper_dict := (proper_dict S).

  Definition extracts (extract : bool -> omap S -> res dict) (form : monomial -> Prop) (formula : dict -> expr S) : Prop :=
    forall (ignore : bool) (h : omap S), wf h ->
      exists rel : monomial * S -> bool, (forall mc, In mc h -> (rel mc = true <-> form (fst mc))) /\
        (ignore = true \/ Forall (fun mc => form (fst mc)) h ->
          exists d, extract ignore h = Ok d /\ proper_dict d /\ eval (formula d) = Some (filter rel h)) /\
        (ignore = false -> ~ Forall (fun mc => form (fst mc)) h -> extract ignore h = Throw).

  Lemma filter_all {A} (p : A -> bool) l : Forall (fun x => p x = true) l -> filter p l = l.
  Proof. induction 1 as [|x l H F IH]; [reflexivity|]. cbn. rewrite H, IH. reflexivity. Qed.

  Lemma throw_side entries form (h : omap S) : (forall mc, In mc h -> (hit entries mc = true <-> form (fst mc))) ->
    ~ Forall (fun mc => form (fst mc)) h -> existsb (fun mc => negb (hit entries mc)) h = true.
  Proof.
    intros Hh Hn. destruct (existsb (fun mc => negb (hit entries mc)) h) eqn:E; [reflexivity|]. destruct Hn.
    apply Forall_forall. intros mc I. apply Hh; [exact I|]. destruct (hit entries mc) eqn:E'; [reflexivity|].
    assert (C : existsb (fun mc => negb (hit entries mc)) h = true) by (apply existsb_exists; exists mc; rewrite E'; auto). congruence.
  Qed.

  Lemma extract_gen entries form formula : 
    (forall m c, (exists es, entries m c = Some es) <-> form m) ->
    (forall m c es, normal m -> entries m c = Some es -> NoDup (map fst es)) ->
    (forall m c es m' c' es' k, normal m -> normal m' -> entries m c = Some es -> entries m' c' = Some es' -> In k (map fst es) -> In k (map fst es') -> m = m') ->
    (forall m c es, entries m c = Some es -> c <> k0 -> Forall (fun kx : key * S => snd kx <> k0) es) ->
    (exists psi : (indices -> nat) -> N -> N -> key * S -> S, (forall pos f g (d : dict), amp (meaning pos (formula d) [(k1, f)]) g = ksum (map (psi pos f g) d)) /\
     (forall pos f g m c es, entries m c = Some es -> normal m -> (forall i j, In i (map ind m) -> In j (map ind m) -> pos i = pos j -> i = j) ->
        ksum (map (psi pos f g) es) = c * mel_mono pos m f g)) ->
    extracts (fun ignore h => extract_loop S entries ignore h []) form formula.
  Proof.
    intros Hform Hnd Hdj Hnz (psi & Hpsi & Hsum) ignore h Hw. exists (hit entries).
    assert (Hh : forall mc, In mc h -> (hit entries mc = true <-> form (fst mc))).
    { intros [m c] _. unfold hit. cbn [fst snd]. destruct (entries m c) as [es|] eqn:E.
      - split; [|auto]. intros _. apply (proj1 (Hform m c)). exists es. exact E.
      - split; [discriminate|]. intros Fm. apply (proj2 (Hform m c)) in Fm. destruct Fm as [es Es]. congruence. }
    split; [exact Hh|]. split.
    - intros Hi. destruct Hw as [W1 W2].
      destruct (loop_ok entries normal Hnd Hdj ignore h (fun _ => k0) (fun kx => snd kx <> k0) []) as (d & Ed & D1 & D2 & _).
      + eapply Forall_impl; [|exact W2]. intros mc [A _]. exact A.
      + apply wf_keys_NoDup. exact W1.
      + apply Forall_forall. intros [m c] I. unfold out. cbn [fst snd]. destruct (entries m c) as [es|] eqn:E; [|constructor].
        rewrite Forall_forall in W2. apply (Hnz m c es E). apply (W2 (m, c) I).
      + constructor. + constructor. + intros mc k _ _ [].
      + destruct Hi as [Hi|Hi]; [left; exact Hi|right]. apply Forall_forall. intros mc I. apply Hh; [exact I|]. rewrite Forall_forall in Hi. apply Hi. exact I.
      + exists d. split; [exact Ed|]. split; [split; assumption|]. apply eval_to; [apply filter_wf; split; assumption|].
        intros pos f g Hinj. rewrite Hpsi.
        destruct (loop_ok entries normal Hnd Hdj ignore h (psi pos f g) (fun kx => snd kx <> k0) []) as (d' & Ed' & _ & _ & Sd').
        * eapply Forall_impl; [|exact W2]. intros mc [A _]. exact A.
        * apply wf_keys_NoDup. exact W1.
        * apply Forall_forall. intros [m c] I. unfold out. cbn [fst snd]. destruct (entries m c) as [es|] eqn:E; [|constructor].
          rewrite Forall_forall in W2. apply (Hnz m c es E). apply (W2 (m, c) I).
        * constructor. * constructor. * intros mc k _ _ [].
        * destruct Hi as [Hi|Hi]; [left; exact Hi|right]. apply Forall_forall. intros mc I. apply Hh; [exact I|]. rewrite Forall_forall in Hi. apply Hi. exact I.
        * assert (d' = d) by congruence. subst d'. rewrite Sd'. cbn [map ksum].
          assert (G : forall l : omap S, (forall mc, In mc l -> hit entries mc = true /\ normal (fst mc) /\ (forall i j, In i (map ind (fst mc)) -> In j (map ind (fst mc)) -> pos i = pos j -> i = j)) ->
            ksum (map (fun mc => ksum (map (psi pos f g) (out entries mc))) l) = mel pos l f g).
          { induction l as [|[m c] l IH]; intros Hl; cbn [map ksum mel]; [reflexivity|]. rewrite IH by (intros mc I; apply Hl; right; exact I). f_equal.
            destruct (Hl (m, c) (or_introl eq_refl)) as (A & B & C). unfold hit in A. unfold out. cbn [fst snd] in *. destruct (entries m c) as [es|] eqn:E; [|discriminate A].
            apply (Hsum pos f g m c es E B C). }
          rewrite G; [ring|]. intros [m c] I. pose proof I as I'. apply filter_In in I. destruct I as [I Ih]. split; [exact Ih|].
          rewrite Forall_forall in W2. split; [apply (W2 (m, c) I)|]. cbn [fst]. intros i j Hi' Hj'. apply Hinj; right.
          -- apply in_map_iff in Hi'. destruct Hi' as (o & <- & Io). exact (in_inds _ m c o I' Io).
          -- apply in_map_iff in Hj'. destruct Hj' as (o & <- & Io). exact (in_inds _ m c o I' Io).
    - intros -> Hn. apply loop_throw. apply (throw_side entries form); assumption.
  Qed.

  Lemma h_extracts : extracts (extract_h_dict S) is_quadratic (dict_sum S (quadratic S)).
  Proof.
    apply (extract_gen (h_entries S)).
    - intros m c. split.
      + intros (es & E). apply h_entries_some in E. destruct E as (i & j & -> & _). exists i, j. reflexivity.
      + intros (i & j & ->). exists [([i; j], c)]. apply h_entries_some. eauto.
    - intros m c es _ E. apply h_entries_some in E. destruct E as (i & j & -> & ->). cbn. repeat constructor. intros [].
    - intros m c es m' c' es' k _ _ E E' I I'. apply h_entries_some in E, E'. destruct E as (i & j & -> & ->), E' as (i' & j' & -> & ->).
      cbn in I, I'. destruct I as [<-|[]], I' as [I'|[]]. congruence.
    - intros m c es E Hc. apply h_entries_some in E. destruct E as (i & j & -> & ->). repeat constructor. exact Hc.
    - exists (fun pos f g kx => snd kx * amp (meaning pos (quadratic S (fst kx)) [(k1, f)]) g). split.
      + intros pos f g d. apply dict_sum_mean.
      + intros pos f g m c es E _ _. apply h_entries_some in E. destruct E as (i & j & -> & ->). cbn [map ksum fst snd]. rewrite quadratic_mean. ring.
  Qed.
  Lemma U2_extracts : extracts (extract_U_dict2 S) is_density_density (fun d => EMulS (dict_sum S (density_density S) d) half).
  Proof.
    apply (extract_gen (U2_entries S)).
    - intros m c. split.
      + intros (es & E). apply U2_entries_some in E. destruct E as (i & j & -> & _). exists i, j. reflexivity.
      + intros (i & j & ->). exists [([i; j], c); ([j; i], c)]. apply U2_entries_some. eauto.
    - intros m c es N E. apply U2_entries_some in E. destruct E as (i & j & -> & ->). pose proof (normal_pair _ _ _ _ N) as Hn. cbn.
      repeat constructor; cbn; intuition congruence.
    - intros m c es m' c' es' k N N' E E' I I'. apply U2_entries_some in E, E'. destruct E as (i & j & -> & ->), E' as (i' & j' & -> & ->).
      cbn in I, I'. destruct I as [<-|[<-|[]]], I' as [I'|[I'|[]]]; injection I' as A B; subst; try reflexivity.
      + destruct (normal_order2 _ _ _ _ _ _ _ N N' eq_refl eq_refl).
      + destruct (normal_order2 _ _ _ _ _ _ _ N N' eq_refl eq_refl).
    - intros m c es E Hc. apply U2_entries_some in E. destruct E as (i & j & -> & ->). repeat constructor; exact Hc.
    - exists (fun pos f g kx => half * (snd kx * amp (meaning pos (density_density S (fst kx)) [(k1, f)]) g)). split.
      + intros pos f g d. unfold meaning. cbn [den]. rewrite (amp_scale S L). unfold cj. fold (meaning pos (dict_sum S (density_density S) d) [(k1, f)]). rewrite dict_sum_mean.
        apply ksum_scal.
      + intros pos f g m c es E N Hp. apply U2_entries_some in E. destruct E as (i & j & -> & ->). cbn [map ksum fst snd].
        pose proof (normal_pair _ _ _ _ N) as Hn. assert (Hpn : pos i <> pos j) by (intros C; apply Hn; apply Hp; cbn; auto).
        rewrite !dd_mean by auto. rewrite (swap_cre pos f g j i) by auto. rewrite (swap_ann pos f g _ _ i j) by auto.
        transitivity ((half + half) * (c * mel_mono pos [cd i; cd j; ca j; ca i] f g)); [ring|]. rewrite half2. ring.
  Qed.
  Lemma U4_extracts : extracts (extract_U_dict4 S half) is_two_particle (fun d => EMulS (dict_sum S (two_particle S) d) half).
  Proof.
    apply (extract_gen (U4_entries S half)).
    - intros m c. split.
      + intros (es & E). apply U4_entries_some in E. destruct E as (i & j & k & l & -> & _). exists i, j, k, l. reflexivity.
      + intros (i & j & k & l & ->). eexists. apply U4_entries_some. eauto 8.
    - intros m c es N E. apply U4_entries_some in E. destruct E as (i & j & k & l & -> & ->). pose proof (normal_pair _ _ _ _ N) as Hn.
      pose proof (normal_pair _ _ _ _ (normal_tail _ _ (normal_tail _ _ N))) as Hn'. cbn.
      repeat constructor; cbn; intuition congruence.
    - intros m c es m' c' es' q N N' E E' I I'. apply U4_entries_some in E, E'. destruct E as (i & j & k & l & -> & ->), E' as (i' & j' & k' & l' & -> & ->).
      pose proof (normal_order2 _ _ _ _ _ _ _ N N') as O1. pose proof (normal_order2 _ _ _ _ _ _ _ (normal_tail _ _ (normal_tail _ _ N)) (normal_tail _ _ (normal_tail _ _ N'))) as O2.
      pose proof (normal_order2 _ _ _ _ _ _ _ N' N) as O1'.
      cbn in I, I'. destruct I as [<-|[<-|[<-|[<-|[]]]]], I' as [I'|[I'|[I'|[I'|[]]]]]; injection I' as A B C D; subst; try reflexivity; exfalso; auto.
    - intros m c es E Hc. apply U4_entries_some in E. destruct E as (i & j & k & l & -> & ->). repeat constructor; cbn [snd]; auto using half_mul, opp_half_mul.
    - exists (fun pos f g kx => half * (snd kx * amp (meaning pos (two_particle S (fst kx)) [(k1, f)]) g)). split.
      + intros pos f g d. unfold meaning. cbn [den]. rewrite (amp_scale S L). unfold cj. fold (meaning pos (dict_sum S (two_particle S) d) [(k1, f)]). rewrite dict_sum_mean.
        apply ksum_scal.
      + intros pos f g m c es E N Hp. apply U4_entries_some in E. destruct E as (i & j & k & l & -> & ->). cbn [map ksum fst snd].
        pose proof (normal_pair _ _ _ _ N) as Hn. pose proof (normal_pair _ _ _ _ (normal_tail _ _ (normal_tail _ _ N))) as Hn'.
        assert (Hpn : pos i <> pos j) by (intros C; apply Hn; apply Hp; cbn; auto). assert (Hpn' : pos l <> pos k) by (intros C; apply Hn'; apply Hp; cbn; auto).
        rewrite !tp_mean. rewrite (swap_cre pos f g j i) by auto. rewrite (swap_cre pos f g j i) by auto. rewrite (swap_ann pos f g _ _ k l) by auto.
        transitivity ((half + half) * (half + half) * (c * mel_mono pos [cd i; cd j; ca l; ca k] f g)); [ring|]. rewrite half2. ring.
  Qed.
End P.
