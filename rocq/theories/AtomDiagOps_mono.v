(** get_matrix_element_of_monomial. *)
From Coq Require Import ZArith NArith List Arith Bool Lia Sorted.
From Verif Require Import Base Indices Scalar Fock FockFacts OpModel OpExpr OpNormal Op_proofs Hilbert Hilbert_proofs
  State StateSpec State_proofs ImpOp ImpOp_proofs ImpOp_run ImpOp_thms Partition Partition_imp AtomDiag AtomDiagSpec AtomDiag_lists AtomDiag_terms
  AtomDiag_mats AtomDiagOps AtomDiagOpsSpec.
Import ListNotations.
Local Open Scope nat_scope.

Section Mono.
  Context (S : scalar_ops) (L : scalar_laws S) (E : energy_ops S).
  Local Open Scope K_scope.
  Add Ring Kring5 : (sl_ring S L).
  Variable l : fops.
  Variable d : Z.
  Hypothesis Hl : (length l <= 17)%nat.
  Hypothesis Hd : hs_dim (length l) = Ok d.
  Notation pos := (mode l).

  Lemma sgn_nonzero b : sgn b <> (k0 : S).
  Proof.
    unfold sgn. destruct b; intros H; apply (sl_nontrivial S L); [|exact H].
    transitivity (- (- (k1 : S))); [ring|]. rewrite H. ring.
  Qed.
  Lemma sgn_xor b b' : (sgn (xorb b b') : S) = sgn b * sgn b'.
  Proof. unfold sgn. destruct b, b'; cbn [xorb]; ring. Qed.

  (** the word of a monomial has the matrix elements of the monomial *)
  Lemma word_den m f : match act pos m f with
    | Some (b, f') => exists x : S, meaning pos (word S m) [(k1, f)] = [(x, f')] /\ x = sgn b
    | None => meaning pos (word S m) [((k1 : S), f)] = []
    end.
  Proof.
    induction m as [|o m IH].
    - cbn. eexists. split; [reflexivity|]. unfold sgn. ring.
    - cbn [act]. unfold meaning in *.
      assert (Ed : forall v, den pos false (word S (o :: m)) v = act1 pos (dag o) (ind o) (den pos false (word S m) v)).
      { intros v. unfold word. cbn [fold_right den]. destruct (dag o); reflexivity. }
      rewrite Ed. destruct (act pos m f) as [[b f1]|].
      + destruct IH as (x & -> & ->). unfold act1, apply_mono. cbn [flat_map fst snd act app].
        change (mkCop (dag o) (ind o)) with (mkCop (dag o) (ind o)). destruct o as [dg i]. cbn [dag ind].
        destruct (act_cop pos (mkCop dg i) f1) as [[b' f2]|]; cbn [xorb]; [|reflexivity].
        eexists. split; [reflexivity|]. rewrite sgn_xor. cbn [xorb]. destruct b'; cbn [xorb]; ring.
      + rewrite IH. reflexivity.
  Qed.
  Lemma word_bracket m f g : bracket S l (word S m) g f = mel_mono pos m f g.
  Proof.
    unfold bracket, mel_mono. pose proof (word_den m f) as H. destruct (act pos m f) as [[b f']|].
    - destruct H as (x & -> & ->). cbn [amp]. destruct (N.eqb f' g); ring.
    - rewrite H. reflexivity.
  Qed.
  Lemma bracket_terms e op f g : (forall j, uses e j -> In j l) -> eval e = Some op ->
    bracket S l e g f = ksum (map (fun t : monomial * S => snd t * bracket S l (word S (fst t)) g f) op).
  Proof.
    intros Hu He. rewrite (bracket_mel S L l e op f g Hu He). clear He Hu. induction op as [|[m c] op IH]; [reflexivity|].
    cbn [mel map ksum fst snd]. rewrite word_bracket, IH. reflexivity.
  Qed.

  (** the entries of the image of a Fock state under a monomial *)
  Lemma op_raw_one m : op_raw (k1 : S) m = [(m, k1)].
  Proof.
    unfold op_raw. destruct (kisz (k1 : S)) eqn:H; [|reflexivity]. apply (sl_isz S L) in H. destruct (sl_nontrivial S L H).
  Qed.
  Lemma run_mono m f : normal m -> mono_on (fun i => In i l) m -> (f < 2 ^ N.of_nat (length l))%N ->
    exists st t, st_basis S true (Full d) (N.to_nat f) = Ok st /\ imp_run l (op_raw (k1 : S) m) st = Ok t /\
    match act pos m f with
    | Some (b, g) => st_entries t = [(N.to_nat g, sgn b)] /\ (g < 2 ^ N.of_nat (length l))%N
    | None => st_entries t = []
    end.
  Proof.
    intros Hn Hm Hf. rewrite op_raw_one.
    assert (Hop : op_ok S l [(m, (k1 : S))]) by (constructor; [split; assumption|constructor]).
    assert (Hnf : nth_error (basis (Full d)) (N.to_nat f) = Some f).
    { apply basis_full. split; [|symmetry; apply N2Nat.id]. apply (size_lt l d Hl Hd). rewrite N2Nat.id. exact Hf. }
    destruct (full_maps_into S l _ d Hl Hop Hd) as [_ Hcl].
    destruct (run_from S L l Hl true (Full d) (N.to_nat f) f _ Hop (full_ok l d Hl Hd) (fun f => proj1 (full_bound l d Hl Hd f)) Hcl Hnf)
      as (st & t & E1 & E2 & Ok2 & Sp2 & K2 & A2).
    exists st, t. split; [exact E1|]. split; [exact E2|].
    pose proof (entries_keys S t Ok2) as Hk. pose proof (entries_bound S t Ok2) as Hb.
    assert (Hc : forall i, i < length (basis (Full d)) -> mcoef S (st_entries t) i = mel_mono pos m f (N.of_nat i)).
    { intros i Hi. rewrite <- Sp2 in Hi. rewrite (entries_coef S L t i Ok2 Hi).
      assert (Hi' : nth_error (basis (st_sp t)) i = Some (N.of_nat i)).
      { rewrite Sp2 in Hi |- *. apply basis_full. split; [|reflexivity]. cbn [basis] in Hi. rewrite map_length, seq_length in Hi. exact Hi. }
      rewrite <- (amplitude_at S L t i (N.of_nat i) (proj1 Ok2) Hi'), A2. cbn [mel]. ring. }
    rewrite Sp2 in Hb. rewrite Forall_forall in Hb.
    assert (Hz : forall i x, In (i, x) (st_entries t) -> x <> k0).
    { intros i x Hin. unfold st_entries in Hin. unfold kind_of in K2. destruct (st_amps t) as [mm|v]; [|discriminate].
      unfold prune in Hin. apply filter_In in Hin. cbn [snd] in Hin. destruct Hin as [_ Hin]. apply negb_true_iff in Hin.
      intros ->. assert (kisz (k0 : S) = true) by (apply (sl_isz S L); reflexivity). congruence. }
    assert (Hv : forall i x, In (i, x) (st_entries t) -> x = mel_mono pos m f (N.of_nat i)).
    { intros i x Hin. rewrite <- (Hc i (Hb _ Hin)). clear - Hk Hin. induction (st_entries t) as [|[j y] es IH]; [destruct Hin|].
      rewrite mcoef_cons. inversion_clear Hk. destruct Hin as [Hin|Hin].
      - injection Hin as -> ->. rewrite Nat.eqb_refl. reflexivity.
      - destruct (Nat.eqb_spec j i) as [->|]; [|apply IH; assumption]. destruct H. change i with (fst (i, x)). apply in_map. exact Hin. }
    destruct (act pos m f) as [[b g]|] eqn:Ea.
    - assert (Hg : In g (basis (Full d))) by (apply (Hcl m k1 f b g (or_introl eq_refl)); [apply (full_bound l d Hl Hd), Hf|exact Ea]).
      assert (Hg2 := Hg). apply (full_bound l d Hl Hd) in Hg2. split; [|exact Hg2].
      assert (Hone : forall i x, In (i, x) (st_entries t) -> i = N.to_nat g /\ x = sgn b).
      { intros i x Hin. pose proof (Hz _ _ Hin) as H1. pose proof (Hv _ _ Hin) as H2. unfold mel_mono in H2. rewrite Ea in H2.
        destruct (N.eqb_spec g (N.of_nat i)) as [->|]; [|congruence]. rewrite Nat2N.id. auto. }
      assert (Hgi : N.to_nat g < length (basis (Full d))).
      { cbn [basis]. rewrite map_length, seq_length. apply (size_lt l d Hl Hd). rewrite N2Nat.id. exact Hg2. }
      specialize (Hc _ Hgi). rewrite N2Nat.id in Hc. unfold mel_mono in Hc. rewrite Ea, N.eqb_refl in Hc.
      clear - Hone Hc Hk L. destruct (st_entries t) as [|[i x] es].
      + cbn in Hc. destruct (sgn_nonzero b). symmetry. exact Hc.
      + destruct (Hone i x (or_introl eq_refl)) as [-> ->]. f_equal. destruct es as [|[i' x'] es]; [reflexivity|].
        destruct (Hone i' x' (or_intror (or_introl eq_refl))) as [-> ->]. inversion Hk as [|? ? H _]. destruct H. left. reflexivity.
    - destruct (st_entries t) as [|[i x] es]; [reflexivity|]. pose proof (Hz i x (or_introl eq_refl)) as H1. pose proof (Hv i x (or_introl eq_refl)) as H2.
      unfold mel_mono in H2. rewrite Ea in H2. contradiction.
  Qed.
End Mono.
