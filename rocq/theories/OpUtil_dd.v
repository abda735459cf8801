(** Proofs: the diagonal part of the Slater Hamiltonian is the density-density Hamiltonian
    of the reduced matrices; real and imaginary parts. *)
From Coq Require Import ZArith NArith String List Bool Reals Lia Lra Setoid Morphisms Ring Sorted.
From Coquelicot Require Import Complex.
From Verif Require Import Base Indices Scalar Fock FockFacts OpModel OpExpr OpUnique OpNormal Op_proofs RealAtom UMatrix OpUtil OpUtilSpec OpAlg OpBody OpUtil_base OpUtil_ham OpUtil_phys OpUtil_thms OpUtil_mat OpUtil_diag.
Import ListNotations.

Section Count.
  Variable pos : indices -> nat.
  Definition cnt (d : bool) (k : nat) (m : list cop) : nat := length (filter (fun o => Bool.eqb (dag o) d && (pos (ind o) =? k)%nat)%bool m).
  Lemma act_count m f s f' : act pos m f = Some (s, f') -> forall k, (Nat.b2n (N.testbit f' (N.of_nat k)) + cnt false k m = Nat.b2n (N.testbit f (N.of_nat k)) + cnt true k m)%nat.
  Proof.
    revert s f'. induction m as [|o m IH]; intros s f'; cbn [act]; [intros E k; injection E as _ <-; reflexivity|].
    destruct (act pos m f) as [[s1 f1]|] eqn:E; [|discriminate]. destruct (act_cop pos o f1) as [[s2 f2]|] eqn:Eo; [|discriminate].
    intros E2 k. injection E2 as _ <-. specialize (IH _ _ eq_refl k). revert Eo. unfold act_cop, cnt in *. cbn [filter].
    destruct (dag o) eqn:Ed, (N.testbit f1 (N.of_nat (pos (ind o)))) eqn:Eb; try discriminate; intros Eo; injection Eo as _ <-; cbn [Bool.eqb andb];
      rewrite ?setbit_nat, ?clearbit_nat; destruct (Nat.eqb_spec (pos (ind o)) k) as [Ek|Ek]; cbn [length orb negb andb]; try (rewrite Ek in Eb; rewrite Eb in IH; cbn [Nat.b2n] in *); rewrite ?Bool.andb_true_r, ?Bool.andb_false_r; cbn [Nat.b2n]; lia.
  Qed.
End Count.

Section DD.
  Add Ring KringDD : (sl_ring CS CS_laws).
  Local Open Scope K_scope.
  Notation L := CS_laws.
  Infix "==" := (eqv CS) (at level 70).
  Notation cf := (cf CS).
  Notation esum := (esum CS).
  Notation Sm := (Sm CS).
  Local Instance cf_mDD : Proper (eqv CS ==> eq ==> eq) (OpAlg.cf CS) := cf_m CS L.

  Context (off : option bool) (mp : option dict) (spins : list string) (n : nat) (lab : string -> nat -> indices).
  Hypothesis HL : labelled off mp spins n lab.
  Notation ks := (ks spins n). Notation mk2 := (mk2 lab).
  Notation obk := (ob CS mk2 ks). Notation qk := (quart CS mk2 ks). Notation q4k := (q4 CS mk2).

  Definition pairing (p q r t : string * nat) : bool := (peqb p r && peqb q t || peqb p t && peqb q r)%bool.
  Lemma amp_q4 pos p q r t f g : amp (meaning pos (q4k p q r t) [(k1, f)]) g = mel_mono pos [mkCop true (mk2 p); mkCop true (mk2 q); mkCop false (mk2 t); mkCop false (mk2 r)] f g.
  Proof.
    change (q4k p q r t) with (fold_left (fun e o => EMul e (if dag o then ECdag (ind o) else EC (ind o))) [mkCop true (mk2 q); mkCop false (mk2 t); mkCop false (mk2 r)] (ECdag (mk2 p) : expr CS)).
    unfold meaning. rewrite (den_mono CS L). cbn [den negb]. unfold act1. rewrite <- (apply_mono_comp pos CS L [_]). cbn [app].
    rewrite (amp_apply_mono pos CS L). cbn [vsum]. match goal with |- ?a = ?b => change (@eq (K CS) a b) end. ring.
  Qed.
  Lemma amp_esum pos {A} (l : list A) (F : A -> expr CS) v g : amp (meaning pos (esum l F) v) g = Sm l (fun x => amp (meaning pos (F x) v) g).
  Proof.
    induction l as [|x l IH]; cbn [OpAlg.esum fold_right].
    - unfold meaning. cbn [den cj]. rewrite (amp_scale CS L), (Sm_nil CS). match goal with |- ?a = ?b => change (@eq (K CS) a b) end. ring.
    - unfold meaning at 1. cbn [den]. rewrite (amp_app CS L), (Sm_cons CS). f_equal. exact IH.
  Qed.
  Lemma amp_quart pos V f g : amp (meaning pos (qk V) [(k1, f)]) g =
    Sm ks (fun p => Sm ks (fun q => Sm ks (fun r => Sm ks (fun t => amp (meaning pos (q4k p q r t) [(k1, f)]) g * V p q r t)))).
  Proof.
    unfold quart. rewrite amp_esum. apply Sm_ext. intros p _. rewrite amp_esum. apply Sm_ext. intros q _. rewrite amp_esum. apply Sm_ext. intros r _. rewrite amp_esum. apply Sm_ext. intros t _.
    unfold meaning at 1. cbn [den cj]. rewrite (amp_scale CS L). match goal with |- ?a = ?b => change (@eq (K CS) a b) end. unfold meaning. ring.
  Qed.
  Definition restr V (p q r t : string * nat) : CS := if pairing p q r t then V p q r t else k0.

  Lemma q4_balance pos p q r t f s f' : (forall a b, In a ks -> In b ks -> pos (mk2 a) = pos (mk2 b) -> a = b) -> In p ks -> In q ks -> In r ks -> In t ks ->
    act pos [mkCop true (mk2 p); mkCop true (mk2 q); mkCop false (mk2 t); mkCop false (mk2 r)] f = Some (s, f') -> (f' = f <-> pairing p q r t = true).
  Proof.
    intros Hi Hp Hq Hr Ht E. pose proof (act_count pos _ _ _ _ E) as Hc. unfold cnt in Hc. cbn [filter dag ind Bool.eqb andb] in Hc.
    assert (Ei : forall a b, In a ks -> In b ks -> (pos (mk2 a) =? pos (mk2 b))%nat = peqb a b).
    { intros a b Ha Hb. destruct (Nat.eqb_spec (pos (mk2 a)) (pos (mk2 b))) as [e|e], (peqb_spec a b) as [e'|e']; try reflexivity; [exfalso; apply e'; apply Hi; assumption|exfalso; apply e; congruence]. }
    split.
    - intros ->. pose proof (Hc (pos (mk2 p))) as H1. pose proof (Hc (pos (mk2 q))) as H2. pose proof (Hc (pos (mk2 r))) as H3. pose proof (Hc (pos (mk2 t))) as H4. clear Hc.
      rewrite !Ei in H1, H2, H3, H4 by assumption. rewrite !peqb_refl in *. unfold pairing.
      destruct (peqb_spec p q), (peqb_spec p r), (peqb_spec p t), (peqb_spec q r), (peqb_spec q t); cbn [andb orb]; try reflexivity; subst; rewrite ?peqb_refl in *; cbn [length] in *; try congruence; exfalso;
        repeat match goal with H : context [peqb ?a ?b] |- _ => destruct (peqb_spec a b); try congruence end; cbn [length] in *; lia.
    - intros Hpair. apply testbit_eq_N. intros k. specialize (Hc k).
      assert (En : length (if (pos (mk2 t) =? k)%nat then (mkCop false (mk2 t)) :: (if (pos (mk2 r) =? k)%nat then [mkCop false (mk2 r)] else []) else if (pos (mk2 r) =? k)%nat then [mkCop false (mk2 r)] else []) =
        length (if (pos (mk2 p) =? k)%nat then (mkCop true (mk2 p)) :: (if (pos (mk2 q) =? k)%nat then [mkCop true (mk2 q)] else []) else if (pos (mk2 q) =? k)%nat then [mkCop true (mk2 q)] else [])).
      { unfold pairing in Hpair. apply orb_true_iff in Hpair. rewrite !andb_true_iff in Hpair.
        assert (Hq2 : (p = r /\ q = t) \/ (p = t /\ q = r)).
        { destruct (peqb_spec p r), (peqb_spec q t), (peqb_spec p t), (peqb_spec q r); try tauto; destruct Hpair as [[? ?]|[? ?]]; discriminate. }
        destruct Hq2 as [[<- <-]|[<- <-]]; destruct (pos (mk2 p) =? k)%nat, (pos (mk2 q) =? k)%nat; reflexivity. }
      cbn [filter] in En. rewrite En in Hc. destruct (N.testbit f' (N.of_nat k)), (N.testbit f (N.of_nat k)); cbn [Nat.b2n] in Hc; try reflexivity; lia.
  Qed.

  Lemma quart_diag pos V f g : (forall a b, In a ks -> In b ks -> pos (mk2 a) = pos (mk2 b) -> a = b) ->
    amp (meaning pos (qk (restr V)) [(k1, f)]) g = if N.eqb f g then amp (meaning pos (qk V) [(k1, f)]) f else k0.
  Proof.
    intros Hi. rewrite !amp_quart.
    assert (E : forall p q r t, In p ks -> In q ks -> In r ks -> In t ks -> amp (meaning pos (q4k p q r t) [(k1, f)]) g * restr V p q r t = if N.eqb f g then amp (meaning pos (q4k p q r t) [(k1, f)]) f * V p q r t else k0).
    { intros p q r t Hp Hq Hr Ht. rewrite !amp_q4. unfold restr, mel_mono.
      destruct (act pos _ f) as [[s f']|] eqn:Ea; [|destruct (N.eqb f g), (pairing p q r t); ring].
      pose proof (q4_balance pos p q r t f s f' Hi Hp Hq Hr Ht Ea) as Hb. destruct (pairing p q r t).
      - rewrite (proj2 Hb eq_refl), N.eqb_refl. destruct (N.eqb f g); ring.
      - destruct (N.eqb_spec f' f) as [e|e]; [apply Hb in e; discriminate|]. destruct (N.eqb f g); ring. }
    destruct (N.eqb f g).
    - apply Sm_ext. intros p Hp. apply Sm_ext. intros q Hq. apply Sm_ext. intros r Hr. apply Sm_ext. intros t Ht. apply E; assumption.
    - apply (Sm_zero CS L). intros p Hp. apply (Sm_zero CS L). intros q Hq. apply (Sm_zero CS L). intros r Hr. apply (Sm_zero CS L). intros t Ht. apply E; assumption.
  Qed.

  Lemma restr_slater (U : tensor4) : qk (restr (slater_V U)) == qk (dens_V (fun i j => Cminus (U i j i j) (U i j j i)) (fun i j => U i j i j)).
  Proof.
    apply quart_asym. intros [s1 a1] [s2 a2] [s3 a3] [s4 a4] _ _ _ _. unfold restr, pairing, slater_V, dens_V, peqb, Uss. cbn [fst snd].
    destruct (String.eqb_spec s1 s3), (String.eqb_spec s2 s4), (String.eqb_spec s1 s4), (String.eqb_spec s2 s3); try congruence; subst; rewrite ?String.eqb_refl;
    destruct (Nat.eqb_spec a1 a3), (Nat.eqb_spec a2 a4), (Nat.eqb_spec a1 a4), (Nat.eqb_spec a2 a3); try congruence; subst; cbn [andb orb];
    repeat match goal with |- context [String.eqb ?a ?b] => destruct (String.eqb_spec a b); try congruence end; cbn [andb orb];
    change (RtoC 0) with (@k0 CS); unfold Cminus; change Cplus with (@kadd CS); change Cmult with (@kmul CS); change Copp with (@kopp CS); try (match goal with |- ?a = ?b => change (@eq (K CS) a b) end; ring).
  Qed.

  Lemma uses_esum {A} (l : list A) (F : A -> expr CS) i : uses (esum l F) i <-> exists x, In x l /\ uses (F x) i.
  Proof.
    induction l as [|x l IH]; cbn [OpAlg.esum fold_right uses]; [split; [intros []|intros (? & [] & _)]|].
    unfold OpAlg.esum in IH. rewrite IH. split.
    - intros [H|(y & Hy & H)]; [exists x|exists y]; cbn; auto.
    - intros (y & [<-|Hy] & H); [left; exact H|right; eauto].
  Qed.
  Lemma uses_quart V i : uses (qk V) i <-> exists p, In p ks /\ i = mk2 p.
  Proof.
    unfold quart. rewrite uses_esum. split.
    - intros (p & Hp & H). rewrite uses_esum in H. destruct H as (q & Hq & H). rewrite uses_esum in H. destruct H as (r & Hr & H). rewrite uses_esum in H. destruct H as (t & Ht & H).
      unfold q4, cd, an in H. cbn [uses] in H. destruct H as [[[H|H]|H]|H]; [exists p|exists q|exists t|exists r]; auto.
    - intros (p & Hp & ->). exists p. split; [exact Hp|]. rewrite uses_esum. exists p. split; [exact Hp|]. rewrite uses_esum. exists p. split; [exact Hp|]. rewrite uses_esum. exists p. split; [exact Hp|].
      unfold q4, cd, an. cbn [uses]. auto.
  Qed.
  Lemma meaning_vsum pos (e : expr CS) v g : modes_distinct pos (uses e) -> amp (meaning pos e v) g = vsum CS (fun f => amp (meaning pos e [(k1, f)]) g) v.
  Proof.
    intros HD. destruct (eval_wf CS L e) as (a & E & _). unfold meaning. rewrite (eval_den CS L pos e HD a E false). 
    transitivity (vsum CS (fun f => mel pos a f g) v).
    - apply vsum_ext. intros f. reflexivity.
    - apply vsum_ext. intros f. apply (meaning_mel CS L e pos a HD E).
  Qed.
  Lemma diag_quart V a : eval (qk V) = Some a -> diagonal_part a == qk (restr V).
  Proof.
    intros E. apply (thm_same_meaning CS L). intros pos v g HD.
    assert (D0 : modes_distinct pos (uses (qk V))). { intros i j Hi Hj. apply HD; right; [apply uses_quart in Hi|apply uses_quart in Hj]; apply uses_quart; assumption. }
    assert (D1 : modes_distinct pos (uses (diagonal_part a))) by (intros i j Hi Hj; apply HD; left; assumption).
    assert (D2 : modes_distinct pos (uses (qk (restr V)))) by (intros i j Hi Hj; apply HD; right; assumption).
    rewrite (meaning_vsum pos _ v g D1), (meaning_vsum pos _ v g D2). apply vsum_ext. intros f.
    destruct (thm_diag CS L (qk V) a pos D0 E) as (d & Ed & Hd).
    rewrite <- (meaning_mel CS L _ pos d D1 Ed). rewrite Hd. rewrite quart_diag.
    - rewrite (meaning_mel CS L _ pos a D0 E). reflexivity.
    - intros p q Hp Hq Epos. destruct (ks_inj off mp spins n lab HL) as [_ HI]. apply HI; auto. apply D0; [apply uses_quart; eauto|apply uses_quart; eauto|exact Epos].
  Qed.

  Lemma c2_reduce (U : tensor4) i j : c2 (fst (reduce_4index U)) i j = Cminus (used false U i j i j) (used false U i j j i).
  Proof. unfold c2, reduce_4index, used. cbn [fst]. rewrite RtoC_minus. reflexivity. Qed.
  Theorem thm_diag_slater (U : tensor4) H a : accepted false U n -> h_int_slater spins n U off mp false = Ok H -> eval H = Some a ->
    exists HD, h_int_density spins n (c2 (fst (reduce_4index U))) (c2 (snd (reduce_4index U))) off mp = Ok HD /\ same_op (diagonal_part a) HD.
  Proof.
    intros HA EH Ea. destruct (slater_ok off mp spins n lab HL U false) as (H' & E' & Heq); [exact HA|]. rewrite EH in E'. injection E' as <-.
    destruct (density_ok off mp spins n lab HL (c2 (fst (reduce_4index U))) (c2 (snd (reduce_4index U)))) as (HD & ED & Hd). exists HD. split; [exact ED|].
    change (diagonal_part a == HD). rewrite Hd. rewrite (diag_quart (slater_V (used false U)) a) by (rewrite <- Ea; symmetry; exact Heq).
    rewrite restr_slater. apply (cf_eqv CS L). intros m. rewrite (cf_add CS L), (cf_dens_y off mp spins n lab HL).
    assert (Z : Sm ks (fun p => cf (EMul (cd CS mk2 p) (an CS mk2 p)) m * (Cmult half (c2 (fst (reduce_4index U)) (snd p) (snd p)) : CS)) = k0).
    { apply (Sm_zero CS L). intros p _. rewrite c2_reduce. replace (Cminus _ _) with (RtoC 0) by (unfold Cminus; rewrite Cplus_opp_r; reflexivity).
      rewrite Cmult_0_r. change (RtoC 0) with (@k0 CS). ring. }
    rewrite Z. match goal with |- ?a = ?b + k0 => transitivity b; [|ring] end. apply cf_mDD; [|reflexivity]. apply (quart_ext CS L). intros p q r t _ _ _ _. unfold dens_V, Uss. rewrite c2_reduce. reflexivity.
  Qed.
End DD.

(** ---- real and imaginary parts ---- *)
Definition re_coef (a : omap CS) m : R := fst (coef CS m a : C).
Lemma op_real_coef a : wf a -> wf (op_real a) /\ forall m, coef CS m (op_real a) = RtoC (fst (coef CS m a : C)).
Proof. intros Ha. apply (transform_coef CS CS_laws (fun _ (c : CS) => RtoC (fst (c : C)) : CS)); [reflexivity|exact Ha]. Qed.
Lemma op_imag_coef a : wf a -> wf (op_imag a) /\ forall m, coef CS m (op_imag a) = RtoC (snd (coef CS m a : C)).
Proof. intros Ha. apply (transform_coef CS CS_laws (fun _ (c : CS) => RtoC (snd (c : C)) : CS)); [reflexivity|exact Ha]. Qed.
