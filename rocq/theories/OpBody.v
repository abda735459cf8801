(** One-body and two-body operators over a finite set of labels: commutators and adjoints
    as operations on their coefficients. *)
From Coq Require Import ZArith NArith List Bool Sorted Lia Setoid Morphisms Ring.
From Verif Require Import Base Indices Scalar Fock FockFacts OpModel OpExpr OpUnique Op_proofs OpAlg.
Import ListNotations.

Section Body.
  Context (S : scalar_ops) (L : scalar_laws S).
  Local Open Scope K_scope.
  Add Ring KringB : (sl_ring S L).
  Notation expr := (expr S).
  Notation Sm := (Sm S).
  Infix "==" := (eqv S) (at level 70).
  Notation cf := (cf S).
  Notation esum := (esum S).
  Local Instance cf_mB : Proper (eqv S ==> eq ==> eq) (OpAlg.cf S) := cf_m S L.
  Context {A : Type} (mk : A -> indices) (ks : list A).
  Definition inj_on : Prop := NoDup ks /\ forall p q, In p ks -> In q ks -> mk p = mk q -> p = q.

  Definition cd (p : A) : expr := ECdag (mk p).
  Definition an (p : A) : expr := EC (mk p).
  Definition ob (y : A -> A -> S) : expr := esum ks (fun p => esum ks (fun q => EMulS (EMul (cd p) (an q)) (y p q))).
  Definition q4 (p q r t : A) : expr := EMul (EMul (EMul (cd p) (cd q)) (an t)) (an r).
  Definition quart (V : A -> A -> A -> A -> S) : expr :=
    esum ks (fun p => esum ks (fun q => esum ks (fun r => esum ks (fun t => EMulS (q4 p q r t) (V p q r t))))).

  Lemma cf_ob y m : cf (ob y) m = Sm ks (fun p => Sm ks (fun q => cf (EMul (cd p) (an q)) m * y p q)).
  Proof.
    unfold ob. rewrite (cf_esum S L). apply Sm_ext. intros p _. rewrite (cf_esum S L). apply Sm_ext. intros q _. apply (cf_muls S L).
  Qed.
  Lemma cf_quart V m : cf (quart V) m =
    Sm ks (fun p => Sm ks (fun q => Sm ks (fun r => Sm ks (fun t => cf (q4 p q r t) m * V p q r t)))).
  Proof.
    unfold quart. rewrite (cf_esum S L). apply Sm_ext. intros p _. rewrite (cf_esum S L). apply Sm_ext. intros q _.
    rewrite (cf_esum S L). apply Sm_ext. intros r _. rewrite (cf_esum S L). apply Sm_ext. intros t _. apply (cf_muls S L).
  Qed.
  Lemma ob_ext y z : (forall p q, In p ks -> In q ks -> y p q = z p q) -> ob y == ob z.
  Proof.
    intros H. apply (cf_eqv S L). intros m. rewrite !cf_ob. apply Sm_ext. intros p Hp. apply Sm_ext. intros q Hq. rewrite H; auto.
  Qed.
  Lemma quart_ext V W : (forall p q r t, In p ks -> In q ks -> In r ks -> In t ks -> V p q r t = W p q r t) -> quart V == quart W.
  Proof.
    intros H. apply (cf_eqv S L). intros m. rewrite !cf_quart.
    apply Sm_ext. intros p Hp. apply Sm_ext. intros q Hq. apply Sm_ext. intros r Hr. apply Sm_ext. intros t Ht. rewrite H; auto.
  Qed.
  Lemma quart_zero V : (forall p q r t, In p ks -> In q ks -> In r ks -> In t ks -> V p q r t = k0) -> quart V == EScal k0.
  Proof.
    intros H. apply (cf_eqv S L). intros m. rewrite cf_quart, (cf_zero S L).
    apply (Sm_zero S L). intros p Hp. apply (Sm_zero S L). intros q Hq. apply (Sm_zero S L). intros r Hr. apply (Sm_zero S L). intros t Ht. rewrite H; auto. ring.
  Qed.
  Lemma ob_lin y z a b : EAdd (EMulS (ob y) a) (EMulS (ob z) b) == ob (fun p q => y p q * a + z p q * b).
  Proof.
    apply (cf_eqv S L). intros m. rewrite (cf_add S L), !(cf_muls S L), !cf_ob, <- !(Sm_mul_r S L), <- (Sm_add S L).
    apply Sm_ext. intros p _. rewrite <- !(Sm_mul_r S L), <- (Sm_add S L). apply Sm_ext. intros q _. ring.
  Qed.

  Lemma dag_ob y : EDag (ob y) == ob (fun p q => kconj (y q p)).
  Proof.
    transitivity (esum ks (fun p => esum ks (fun q => EMulS (EMul (cd q) (an p)) (kconj (y p q))))).
    - unfold ob. rewrite (dag_esum S L). apply (esum_ext S L). intros p _. rewrite (dag_esum S L). apply (esum_ext S L). intros q _.
      rewrite (dag_muls S L), (dag_mul S L). unfold cd, an. rewrite (dag_c S L), (dag_cdag S L). reflexivity.
    - apply (cf_eqv S L). intros m. rewrite cf_ob, (cf_esum S L).
      etransitivity; [|apply (Sm_swap S L)]. apply Sm_ext. intros p _. rewrite (cf_esum S L). apply Sm_ext. intros q _. apply (cf_muls S L).
  Qed.
  Lemma dag_quart V : EDag (quart V) == quart (fun p q r t => kconj (V r t p q)).
  Proof.
    transitivity (esum ks (fun p => esum ks (fun q => esum ks (fun r => esum ks (fun t => EMulS (q4 r t p q) (kconj (V p q r t))))))).
    - unfold quart. rewrite (dag_esum S L). apply (esum_ext S L). intros p _. rewrite (dag_esum S L). apply (esum_ext S L). intros q _.
      rewrite (dag_esum S L). apply (esum_ext S L). intros r _. rewrite (dag_esum S L). apply (esum_ext S L). intros t _.
      rewrite (dag_muls S L). unfold q4. rewrite !(dag_mul S L). unfold cd, an. rewrite !(dag_c S L), !(dag_cdag S L), <- !(mul_assoc S L). reflexivity.
    - apply (cf_eqv S L). intros m. rewrite cf_quart, (cf_esum S L).
      transitivity (Sm ks (fun p => Sm ks (fun q => Sm ks (fun r => Sm ks (fun t => cf (q4 r t p q) m * kconj (V p q r t)))))).
      { apply Sm_ext. intros p _. rewrite (cf_esum S L). apply Sm_ext. intros q _. rewrite (cf_esum S L). apply Sm_ext. intros r _.
        rewrite (cf_esum S L). apply Sm_ext. intros t _. apply (cf_muls S L). }
      (* p q r t -> r t p q *)
      transitivity (Sm ks (fun p => Sm ks (fun r => Sm ks (fun q => Sm ks (fun t => cf (q4 r t p q) m * kconj (V p q r t)))))).
      { apply Sm_ext. intros p _. apply (Sm_swap S L). }
      rewrite (Sm_swap S L). apply Sm_ext. intros r _.
      transitivity (Sm ks (fun p => Sm ks (fun t => Sm ks (fun q => cf (q4 r t p q) m * kconj (V p q r t))))).
      { apply Sm_ext. intros p _. apply (Sm_swap S L). }
      apply (Sm_swap S L).
  Qed.

  Hypothesis HI : inj_on.

  Lemma comm_ob_cdag y k : In k ks -> comm S (ob y) (cd k) == esum ks (fun p => EMulS (cd p) (y p k)).
  Proof.
    intros Hk. destruct HI as [HN Hinj]. apply (cf_eqv S L). intros m.
    unfold ob. rewrite (comm_esum_l S L), !(cf_esum S L). apply Sm_ext. intros p Hp.
    rewrite (comm_esum_l S L), (cf_esum S L), (cf_muls S L).
    rewrite (Sm_single S L ks k _ HN Hk).
    - rewrite (comm_muls_l S L), (cf_muls S L). change (EMul (cd p) (an k)) with (bil S (mk p) (mk k)).
      change (cd k) with (@ECdag S (mk k)). rewrite (comm_bil_cdag S L), (cf_muls S L), (dl_eq S). unfold cd. ring.
    - intros q Hq Hne. rewrite (comm_muls_l S L), (cf_muls S L). change (EMul (cd p) (an q)) with (bil S (mk p) (mk q)).
      change (cd k) with (@ECdag S (mk k)). rewrite (comm_bil_cdag S L), (cf_muls S L), (dl_neq S); [ring|]. intros E. apply Hne. auto.
  Qed.
  Lemma comm_ob_an y k : In k ks -> comm S (ob y) (an k) == esum ks (fun q => EMulS (an q) (- y k q)).
  Proof.
    intros Hk. destruct HI as [HN Hinj]. apply (cf_eqv S L). intros m.
    unfold ob. rewrite (comm_esum_l S L), !(cf_esum S L).
    rewrite (Sm_single S L ks k _ HN Hk).
    - rewrite (comm_esum_l S L), (cf_esum S L). apply Sm_ext. intros q Hq.
      rewrite (comm_muls_l S L), !(cf_muls S L). change (EMul (cd k) (an q)) with (bil S (mk k) (mk q)).
      change (an k) with (@EC S (mk k)). rewrite (comm_bil_c S L), (cf_muls S L), (dl_eq S). unfold an. ring.
    - intros p Hp Hne. rewrite (comm_esum_l S L), (cf_esum S L). apply (Sm_zero S L). intros q Hq.
      rewrite (comm_muls_l S L), (cf_muls S L). change (EMul (cd p) (an q)) with (bil S (mk p) (mk q)).
      change (an k) with (@EC S (mk k)). rewrite (comm_bil_c S L), (cf_muls S L), (dl_neq S); [ring|]. intros E. apply Hne. auto.
  Qed.

  Lemma comm_ob_ob y z : comm S (ob y) (ob z) == ob (fun p q => Sm ks (fun r => y p r * z r q - z p r * y r q)).
  Proof.
    apply (cf_eqv S L). intros m. set (B := fun p q => cf (EMul (cd p) (an q)) m).
    transitivity (Sm ks (fun p => Sm ks (fun q => (Sm ks (fun r => B r q * y r p) + Sm ks (fun r => B p r * - y q r)) * z p q))).
    - unfold ob at 2. rewrite (comm_esum_r S L), (cf_esum S L). apply Sm_ext. intros p Hp.
      rewrite (comm_esum_r S L), (cf_esum S L). apply Sm_ext. intros q Hq.
      rewrite (comm_muls_r S L), (cf_muls S L). f_equal. rewrite (comm_mul_r S L), (cf_add S L). f_equal.
      + rewrite (comm_ob_cdag y p Hp), (esum_mul_l S L), (cf_esum S L). apply Sm_ext. intros r _. rewrite (mul_muls_l S L), (cf_muls S L). reflexivity.
      + rewrite (comm_ob_an y q Hq), (esum_mul_r S L), (cf_esum S L). apply Sm_ext. intros r _. rewrite (mul_muls_r S L), (cf_muls S L). reflexivity.
    - rewrite cf_ob. fold B.
      transitivity (Sm ks (fun p => Sm ks (fun q => Sm ks (fun r => B r q * (y r p * z p q)))) +
                    Sm ks (fun p => Sm ks (fun q => Sm ks (fun r => B p r * (- (z p q * y q r)))))).
      { rewrite <- (Sm_add S L). apply Sm_ext. intros p _. rewrite <- (Sm_add S L). apply Sm_ext. intros q _.
        rewrite <- (Sm_add S L), <- (Sm_mul_r S L), <- (Sm_add S L). apply Sm_ext. intros r _. ring. }
      transitivity (Sm ks (fun r => Sm ks (fun q => Sm ks (fun p => B r q * (y r p * z p q)))) +
                    Sm ks (fun p => Sm ks (fun r => Sm ks (fun q => B p r * (- (z p q * y q r)))))).
      { f_equal.
        - transitivity (Sm ks (fun p => Sm ks (fun r => Sm ks (fun q => B r q * (y r p * z p q))))).
          + apply Sm_ext. intros p _. apply (Sm_swap S L).
          + rewrite (Sm_swap S L). apply Sm_ext. intros r _. apply (Sm_swap S L).
        - apply Sm_ext. intros p _. apply (Sm_swap S L). }
      rewrite <- (Sm_add S L). apply Sm_ext. intros p _. rewrite <- (Sm_add S L). apply Sm_ext. intros q _.
      rewrite <- (Sm_add S L), <- (Sm_mul_l S L). apply Sm_ext. intros r _. unfold B. ring.
  Qed.

  (** action of a one-body operator on the coefficients of a two-body operator *)
  Definition turn (y : A -> A -> S) (V : A -> A -> A -> A -> S) (p q r t : A) : S :=
    Sm ks (fun u => y p u * V u q r t) + Sm ks (fun u => y q u * V p u r t)
    - Sm ks (fun u => V p q u t * y u r) - Sm ks (fun u => V p q r u * y u t).

  Lemma comm_ob_q4 y p q r t m : In p ks -> In q ks -> In r ks -> In t ks ->
    cf (comm S (ob y) (q4 p q r t)) m =
      Sm ks (fun u => cf (q4 u q r t) m * y u p) + Sm ks (fun u => cf (q4 p u r t) m * y u q)
      - Sm ks (fun u => cf (q4 p q u t) m * y r u) - Sm ks (fun u => cf (q4 p q r u) m * y t u).
  Proof.
    intros Hp Hq Hr Ht. unfold q4.
    rewrite (comm_mul_r S L), (comm_mul_r S L (ob y) (EMul (cd p) (cd q))), (comm_mul_r S L (ob y) (cd p)).
    rewrite (comm_ob_cdag y p Hp), (comm_ob_cdag y q Hq), (comm_ob_an y r Hr), (comm_ob_an y t Ht).
    repeat first [rewrite (mul_add_l S L) | rewrite (esum_mul_l S L) | rewrite (esum_mul_r S L)]. rewrite !(cf_add S L), !(cf_esum S L).
    assert (E : forall a b c d : S, a + b + d + c = a + b - (- c) - (- d)) by (intros; ring). rewrite E. clear E.
    f_equal; [f_equal; [f_equal|]|].
    - apply Sm_ext. intros u _. rewrite !(mul_muls_l S L), (cf_muls S L). reflexivity.
    - apply Sm_ext. intros u _. rewrite (mul_muls_r S L), !(mul_muls_l S L), (cf_muls S L). reflexivity.
    - rewrite <- (Sm_opp S L). apply Sm_ext. intros u _. rewrite (mul_muls_r S L), (cf_muls S L). ring.
    - rewrite <- (Sm_opp S L). apply Sm_ext. intros u _. rewrite (mul_muls_r S L), (mul_muls_l S L), (cf_muls S L). ring.
  Qed.

  Notation S4 F := (Sm ks (fun p => Sm ks (fun q => Sm ks (fun r => Sm ks (fun t => F p q r t))))).
  Lemma comm_ob_quart y V : comm S (ob y) (quart V) == quart (turn y V).
  Proof.
    apply (cf_eqv S L). intros m. set (Q := fun p q r t => cf (q4 p q r t) m).
    transitivity (S4 (fun p q r t => (Sm ks (fun u => Q u q r t * y u p) + Sm ks (fun u => Q p u r t * y u q)
      - Sm ks (fun u => Q p q u t * y r u) - Sm ks (fun u => Q p q r u * y t u)) * V p q r t)).
    { unfold quart. rewrite (comm_esum_r S L), (cf_esum S L). apply Sm_ext. intros p Hp.
      rewrite (comm_esum_r S L), (cf_esum S L). apply Sm_ext. intros q Hq.
      rewrite (comm_esum_r S L), (cf_esum S L). apply Sm_ext. intros r Hr.
      rewrite (comm_esum_r S L), (cf_esum S L). apply Sm_ext. intros t Ht.
      rewrite (comm_muls_r S L), (cf_muls S L), comm_ob_q4 by assumption. reflexivity. }
    rewrite cf_quart. fold Q. unfold turn.
    (* split into four sums *)
    transitivity (S4 (fun p q r t => Sm ks (fun u => Q u q r t * (y u p * V p q r t))) + S4 (fun p q r t => Sm ks (fun u => Q p u r t * (y u q * V p q r t)))
      - S4 (fun p q r t => Sm ks (fun u => Q p q u t * (V p q r t * y r u))) - S4 (fun p q r t => Sm ks (fun u => Q p q r u * (V p q r t * y t u)))).
    { rewrite <- !(Sm_add S L), <- !(Sm_sub S L). apply Sm_ext. intros p _.
      rewrite <- !(Sm_add S L), <- !(Sm_sub S L). apply Sm_ext. intros q _.
      rewrite <- !(Sm_add S L), <- !(Sm_sub S L). apply Sm_ext. intros r _.
      rewrite <- !(Sm_add S L), <- !(Sm_sub S L). apply Sm_ext. intros t _.
      rewrite <- !(Sm_add S L), <- !(Sm_sub S L), <- (Sm_mul_r S L). apply Sm_ext. intros u _. ring. }
    transitivity (S4 (fun p q r t => Sm ks (fun u => Q p q r t * (y p u * V u q r t))) + S4 (fun p q r t => Sm ks (fun u => Q p q r t * (y q u * V p u r t)))
      - S4 (fun p q r t => Sm ks (fun u => Q p q r t * (V p q u t * y u r))) - S4 (fun p q r t => Sm ks (fun u => Q p q r t * (V p q r u * y u t)))).
    2: { symmetry. rewrite <- !(Sm_add S L), <- !(Sm_sub S L). apply Sm_ext. intros p _.
      rewrite <- !(Sm_add S L), <- !(Sm_sub S L). apply Sm_ext. intros q _.
      rewrite <- !(Sm_add S L), <- !(Sm_sub S L). apply Sm_ext. intros r _.
      rewrite <- !(Sm_add S L), <- !(Sm_sub S L). apply Sm_ext. intros t _.
      rewrite <- !(Sm_add S L), <- !(Sm_sub S L), <- (Sm_mul_l S L). apply Sm_ext. intros u _. unfold Q. ring. }
    f_equal; [f_equal; [f_equal|]|].
    - (* exchange p and u *)
      transitivity (Sm ks (fun p => Sm ks (fun u => Sm ks (fun q => Sm ks (fun r => Sm ks (fun t => Q u q r t * (y u p * V p q r t))))))).
      { apply Sm_ext. intros p _. rewrite (Sm_swap S L ks ks (fun u q => Sm ks (fun r => Sm ks (fun t => Q u q r t * (y u p * V p q r t))))).
        apply Sm_ext. intros q _. rewrite (Sm_swap S L ks ks (fun u r => Sm ks (fun t => Q u q r t * (y u p * V p q r t)))).
        apply Sm_ext. intros r _. symmetry. apply (Sm_swap S L). }
      rewrite (Sm_swap S L). apply Sm_ext. intros p _.
      rewrite (Sm_swap S L). apply Sm_ext. intros q _. rewrite (Sm_swap S L). apply Sm_ext. intros r _. apply (Sm_swap S L).
    - apply Sm_ext. intros p _.
      transitivity (Sm ks (fun q => Sm ks (fun u => Sm ks (fun r => Sm ks (fun t => Q p u r t * (y u q * V p q r t)))))).
      { apply Sm_ext. intros q _. rewrite (Sm_swap S L ks ks (fun u r => Sm ks (fun t => Q p u r t * (y u q * V p q r t)))).
        apply Sm_ext. intros r _. symmetry. apply (Sm_swap S L). }
      rewrite (Sm_swap S L). apply Sm_ext. intros q _. rewrite (Sm_swap S L). apply Sm_ext. intros r _. apply (Sm_swap S L).
    - apply Sm_ext. intros p _. apply Sm_ext. intros q _.
      transitivity (Sm ks (fun r => Sm ks (fun u => Sm ks (fun t => Q p q u t * (V p q r t * y r u))))).
      { apply Sm_ext. intros r _. symmetry. apply (Sm_swap S L). }
      rewrite (Sm_swap S L). apply Sm_ext. intros r _. apply (Sm_swap S L).
    - apply Sm_ext. intros p _. apply Sm_ext. intros q _. apply Sm_ext. intros r _. apply (Sm_swap S L).
  Qed.
End Body.
