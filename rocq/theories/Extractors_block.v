From Coq Require Import ZArith NArith List Bool String Lia Sorted Ring.
From Verif Require Import Base Indices Scalar Fock FockFacts OpModel OpExpr OpNormal OpUnique Op_proofs Hilbert Hilbert_proofs Extractors ExtractorsSpec Extractors_proofs.
Import ListNotations.
Local Open Scope nat_scope.

Lemma hopping_inj n i j n' i' j' : hopping n i j = hopping n' i' j' -> n = n' /\ i = i' /\ j = j'.
Proof. unfold hopping. intros H. injection H as H1 H2 _ H3. repeat split; [exact H1|lia|lia]. Qed.

Lemma block_term_dec gs m : block_term gs m \/ ~ block_term gs m.
Proof.
 unfold block_term. induction gs as [|[nm sz] gs IH].
        - right. intros (name & n & i & j & [] & _).
        - destruct IH as [(name & n & i & j & Hin & T)|IH]; [left; exists name, n, i, j; split; [right; exact Hin|exact T]|].
          assert (Dq : (exists i j, i < sz /\ j < sz /\ m = hopping nm i j) \/ ~ (exists i j, i < sz /\ j < sz /\ m = hopping nm i j)).
          { destruct m as [|[d1 [|[z1|s1] [|[z2|s2] [|]]]] [|[d2 [|[z3|s3] [|[z4|s4] [|]]]] [|]]]; try (right; intros (i & j & _ & _ & Q); discriminate Q).
            destruct d1; [|right; intros (i & j & _ & _ & Q); discriminate Q]. destruct d2; [right; intros (i & j & _ & _ & Q); discriminate Q|].
            destruct (string_dec s1 nm) as [->|Hs1]; [|right; intros (i & j & _ & _ & Q); apply Hs1; unfold hopping, cd in Q; congruence].
            destruct (string_dec s3 nm) as [->|Hs3]; [|right; intros (i & j & _ & _ & Q); apply Hs3; unfold hopping, ca in Q; congruence].
            destruct (Z_lt_dec z2 0) as [H2|H2]; [right; intros (i & j & _ & _ & Q); unfold hopping, cd in Q; injection Q as Q1 Q2; lia|].
            destruct (Z_lt_dec z4 0) as [H4|H4]; [right; intros (i & j & _ & _ & Q); unfold hopping, cd in Q; injection Q as Q1 Q2; lia|].
            destruct (lt_dec (Z.to_nat z2) sz) as [H5|H5]; [|right; intros (i & j & Hi & _ & Q); unfold hopping, cd in Q; injection Q as Q1 Q2; lia].
            destruct (lt_dec (Z.to_nat z4) sz) as [H6|H6]; [|right; intros (i & j & _ & Hj & Q); unfold hopping, cd in Q; injection Q as Q1 Q2; lia].
            left. exists (Z.to_nat z2), (Z.to_nat z4). split; [exact H5|]. split; [exact H6|]. unfold hopping, cd, ca. rewrite !Z2Nat.id by lia. reflexivity. }
          destruct Dq as [(i & j & Hi & Hj & Q)|Dq]; [left; exists nm, sz, i, j; split; [left; reflexivity|auto]|].
          right. intros (name & n & i & j & [Hin|Hin] & Hi & Hj & Q); [injection Hin as -> ->; apply Dq; eauto|apply IH; exists name, n, i, j; auto]. 
Qed.

Section P.
  Context (S : scalar_ops) (L : scalar_laws S).
  Local Open Scope K_scope.
  Add Ring Kr : (sl_ring S L).
  Notation coef := (coef S).

  Definition pick (m m' : monomial) (x : S) : S := match mcmp m m' with Eq => x | _ => k0 end.
  Lemma mcmp_refl m : mcmp m m = Eq. Proof. apply (oc_refl _ mcmp_ok). Qed.
  Lemma coef_single m m' (x : S) : x <> k0 -> coef m [(m', x)] = pick m m' x.
  Proof. intros H. unfold OpUnique.coef, pick. cbn [m_find]. destruct (mcmp m m'); reflexivity. Qed.

  Lemma product_one name i j (x : S) : exists t, op_mul (op_mul_scalar (op_c_dag S (bl_index name i)) x) (op_c S (bl_index name j)) = Some t /\ wf t /\
    forall m, coef m t = pick m (hopping name i j) x.
  Proof.
    unfold op_mul_scalar. destruct (kisz x) eqn:E.
    - apply (sl_isz S L) in E. subst x. exists []. split; [reflexivity|]. split; [apply wf_nil|]. intros m. unfold pick. destruct (mcmp m _); reflexivity.
    - assert (Nx : x <> k0) by (intros C; apply (sl_isz S L) in C; congruence).
      exists [(hopping name i j, x)]. split; [|split; [|intros m; apply coef_single; exact Nx]].
      + transitivity (Some [(hopping name i j, (k1 * x) * (k1 : S))]); [reflexivity|]. repeat f_equal. ring.
      + split; [repeat constructor|]. constructor; [|constructor]. split; [|exact Nx]. cbn. repeat constructor.
  Qed.

  Definition good (acc : option (omap S)) (P : omap S -> Prop) : Prop := exists h, acc = Some h /\ wf h /\ P h.
  Lemma add_elem_ok name i j x h : wf h ->
    good (add_elem S name i j x (Some h)) (fun h' => forall m, coef m h' = coef m h + pick m (hopping name i j) x).
  Proof.
    intros Hw. cbn [add_elem]. destruct (product_one name i j x) as (t & -> & Wt & Ct). exists (op_add h t). split; [reflexivity|]. split; [apply op_add_wf; auto|].
    intros m. rewrite (coef_add S L) by (apply Hw || apply Wt). rewrite Ct. reflexivity.
  Qed.
  Lemma pick_neq m m' (x : S) : m <> m' -> pick m m' x = k0.
  Proof. intros H. unfold pick. destruct (mcmp m m') eqn:E; try reflexivity. apply (oc_eq _ mcmp_ok) in E. contradiction. Qed.

  Lemma add_row_ok name i row : forall j h, wf h ->
    good (add_row S name i j row (Some h)) (fun h' =>
      (forall k, k < List.length row -> coef (hopping name i (j + k)) h' = coef (hopping name i (j + k)) h + nth k row k0) /\
      (forall m, (forall k, k < List.length row -> m <> hopping name i (j + k)) -> coef m h' = coef m h)).
  Proof.
    induction row as [|x row IH]; intros j h Hw; cbn [add_row].
    - exists h. split; [reflexivity|]. split; [exact Hw|]. split; [intros k Hk; cbn in Hk; lia|reflexivity].
    - destruct (add_elem_ok name i j x h Hw) as (h1 & -> & W1 & C1). destruct (IH (Datatypes.S j) h1 W1) as (h2 & E2 & W2 & C2 & D2).
      exists h2. split; [exact E2|]. split; [exact W2|]. split.
      + intros k Hk. destruct k as [|k].
        * rewrite Nat.add_0_r. rewrite D2; [|intros k' Hk' C; apply hopping_inj in C; lia]. rewrite C1. unfold pick. rewrite mcmp_refl. reflexivity.
        * replace (j + Datatypes.S k)%nat with (Datatypes.S j + k)%nat by lia. rewrite C2 by (cbn in Hk; lia). rewrite C1, pick_neq; [cbn [nth]; ring|].
          intros C. apply hopping_inj in C. lia.
      + intros m Hm. rewrite D2. * rewrite C1, pick_neq; [ring|]. specialize (Hm 0 ltac:(cbn; lia)). rewrite Nat.add_0_r in Hm. exact Hm.
        * intros k Hk. specialize (Hm (Datatypes.S k) ltac:(cbn; lia)). replace (Datatypes.S j + k)%nat with (j + Datatypes.S k)%nat by lia. exact Hm.
  Qed.
  Lemma add_rows_ok name rows : forall i h, wf h ->
    good (add_rows S name i rows (Some h)) (fun h' =>
      (forall k q r, nth_error rows k = Some r -> q < List.length r -> coef (hopping name (i + k) q) h' = coef (hopping name (i + k) q) h + nth q r k0) /\
      (forall m, (forall k q r, nth_error rows k = Some r -> q < List.length r -> m <> hopping name (i + k) q) -> coef m h' = coef m h)).
  Proof.
    induction rows as [|row rows IH]; intros i h Hw; cbn [add_rows].
    - exists h. split; [reflexivity|]. split; [exact Hw|]. split; [intros [|k] q r Hk; discriminate Hk|reflexivity].
    - destruct (add_row_ok name i row 0 h Hw) as (h1 & -> & W1 & C1 & D1). destruct (IH (Datatypes.S i) h1 W1) as (h2 & E2 & W2 & C2 & D2).
      exists h2. split; [exact E2|]. split; [exact W2|]. split.
      + intros [|k] q r Hk Hq; cbn [nth_error] in Hk.
        * injection Hk as ->. rewrite Nat.add_0_r. rewrite D2; [apply (C1 q Hq)|]. intros k' q' r' _ _ C. apply hopping_inj in C. lia.
        * replace (i + Datatypes.S k)%nat with (Datatypes.S i + k)%nat by lia. rewrite (C2 k q r Hk Hq). f_equal. apply D1. intros k' _ C. apply hopping_inj in C. lia.
      + intros m Hm. rewrite D2.
        * apply D1. intros k Hk. specialize (Hm 0 k row eq_refl Hk). rewrite Nat.add_0_r in Hm. exact Hm.
        * intros k q r Hk Hq. specialize (Hm (Datatypes.S k) q r Hk Hq). replace (Datatypes.S i + k)%nat with (i + Datatypes.S k)%nat by lia. exact Hm.
  Qed.

  Lemma add_blocks_ok gs : forall M h, wf h -> NoDup (map fst gs) -> agrees S gs M ->
    good (add_blocks S gs M (Some h)) (fun h' =>
      (forall b name n i j, nth_error gs b = Some (name, n) -> i < n -> j < n -> coef (hopping name i j) h' = coef (hopping name i j) h + entry S M b i j) /\
      (forall m, ~ block_term gs m -> coef m h' = coef m h)).
  Proof.
    induction gs as [|[nm sz] gs IH]; intros M h Hw N [HL HA].
    - destruct M; [|discriminate HL]. exists h. split; [reflexivity|]. split; [exact Hw|]. split; [intros [|b] name n i j Hb; discriminate Hb|reflexivity].
    - destruct M as [|rows M]; [discriminate HL|]. inversion N as [|? ? N1 N2]; subst. cbn [add_blocks fst].
      destruct (HA 0 nm sz eq_refl) as (rows' & Hr & Hrl & Hrr). injection Hr as <-.
      destruct (add_rows_ok nm rows 0 h Hw) as (h1 & -> & W1 & C1 & D1).
      destruct (IH M h1 W1 N2) as (h2 & E2 & W2 & C2 & D2).
      { split; [cbn in HL; lia|]. intros b name n Hb. apply (HA (Datatypes.S b) name n Hb). }
      exists h2. split; [exact E2|]. split; [exact W2|].
      assert (NT : forall i j, ~ block_term gs (hopping nm i j)).
      { intros i j (name & n & i' & j' & Hin & _ & _ & C). apply hopping_inj in C. destruct C as (-> & _ & _). apply N1. change name with (fst (name, n)). apply in_map. exact Hin. }
      split.
      + intros [|b] name n i j Hb Hi Hj; cbn [nth_error] in Hb.
        * injection Hb as -> ->. rewrite D2 by apply NT. destruct (nth_error rows i) as [r|] eqn:Er; [|apply nth_error_None in Er; lia].
          change i with (0 + i)%nat. rewrite (C1 i j r Er) by (rewrite (Hrr i r Er); exact Hj). f_equal. unfold entry. cbn [nth].
          change (0 + i)%nat with i. rewrite (nth_error_nth rows i [] Er). reflexivity.
        * rewrite (C2 b name n i j Hb Hi Hj). f_equal. apply D1. intros k q r _ _ C. apply hopping_inj in C. destruct C as (-> & _ & _).
          apply N1. apply in_map_iff. exists (nm, n). split; [reflexivity|]. eapply nth_error_In. exact Hb.
      + intros m Hm. rewrite D2.
        * apply D1. intros k q r Hk Hq C. apply Hm. exists nm, sz, k, q. split; [left; reflexivity|]. assert (k < List.length rows) by (apply nth_error_Some; congruence).
          rewrite (Hrr k r Hk) in Hq. split; [lia|]. split; [exact Hq|exact C].
        * intros (name & n & i & j & Hin & T). apply Hm. exists name, n, i, j. split; [right; exact Hin|exact T].
  Qed.

  Lemma shape_ok_agrees gs M : shape_ok S gs M = true <-> agrees S gs M.
  Proof.
    unfold shape_ok, agrees. rewrite andb_true_iff, Nat.eqb_eq. split.
    - intros [HL HF]. split; [symmetry; exact HL|]. rewrite forallb_forall in HF. intros b name n Hb.
      destruct (nth_error M b) as [rows|] eqn:E.
      + assert (I : In ((name, n), rows) (combine gs M)).
        { clear HF HL. revert M b Hb E. induction gs as [|g gs IH]; intros [|r M] [|b] Hb E; cbn in *; try discriminate; [left; congruence|right; eauto]. }
        apply HF in I. cbn [fst snd] in I. apply andb_true_iff in I. destruct I as [I1 I2]. apply Nat.eqb_eq in I1. rewrite forallb_forall in I2.
        exists rows. split; [reflexivity|]. split; [exact I1|]. intros i r Hr. apply Nat.eqb_eq. apply I2. eapply nth_error_In. exact Hr.
      + apply nth_error_None in E. assert (b < List.length gs) by (apply nth_error_Some; congruence). lia.
    - intros [HL HA]. split; [symmetry; exact HL|]. apply forallb_forall. intros [[name n] rows] I.
      assert (Q : exists b, nth_error gs b = Some (name, n) /\ nth_error M b = Some rows).
      { clear HA HL. revert M I. induction gs as [|g gs IH]; intros [|r M] I; cbn in I; try destruct I as [I|I]; try contradiction.
        - exists 0. injection I as -> ->. auto.
        - destruct (IH M I) as (b & B). exists (Datatypes.S b). exact B. }
      destruct Q as (b & B1 & B2). destruct (HA b name n B1) as (rows' & E & E1 & E2). rewrite B2 in E. injection E as <-. cbn [fst snd].
      rewrite E1, Nat.eqb_refl. cbn [andb]. apply forallb_forall. intros r Hr. apply In_nth_error in Hr. destruct Hr as [i Hr]. apply Nat.eqb_eq. eapply E2. exact Hr.
  Qed.

  (** ---- assignment ---- *)
  Lemma set_nth_ok {A} (f : A -> res A) (d : A) y : forall k l, k < List.length l -> f (nth k l d) = Ok y ->
    exists l', set_nth k f l = Ok l' /\ List.length l' = List.length l /\ nth_error l' k = Some y /\ forall k', k' <> k -> nth_error l' k' = nth_error l k'.
  Proof.
    induction k as [|k IH]; intros [|x l] Hk Hf; cbn in Hk; try lia; cbn [set_nth nth] in *.
    - rewrite Hf. cbn [bind]. eexists. split; [reflexivity|]. split; [reflexivity|]. split; [reflexivity|]. intros [|k'] H; [lia|reflexivity].
    - destruct (IH l ltac:(lia) Hf) as (l' & -> & E1 & E2 & E3). cbn [bind]. eexists. split; [reflexivity|]. split; [cbn; lia|]. split; [exact E2|].
      intros [|k'] H; [reflexivity|]. cbn. apply E3. lia.
  Qed.
  Lemma nth_of_error {A} (l l' : list A) k d : nth_error l k = nth_error l' k -> nth k l d = nth k l' d.
  Proof. intros H. rewrite <- !nth_default_eq. unfold nth_default. rewrite H. reflexivity. Qed.

  Lemma set_elem_ok gs M b name n i j x : agrees S gs M -> nth_error gs b = Some (name, n) -> i < n -> j < n ->
    exists M', set_elem S b i j x M = Ok M' /\ agrees S gs M' /\ entry S M' b i j = x /\
      forall b' i' j', (b', i', j') <> (b, i, j) -> entry S M' b' i' j' = entry S M b' i' j'.
  Proof.
    intros [HL HA] Hb Hi Hj. destruct (HA b name n Hb) as (rows & Er & Lr & Ar).
    destruct (nth_error rows i) as [row|] eqn:Erow; [|apply nth_error_None in Erow; lia]. pose proof (Ar i row Erow) as Lrow.
    destruct (set_nth_ok (fun _ : S => Ok x) k0 x j row ltac:(lia) eq_refl) as (row' & R1 & R2 & R3 & R4).
    destruct (set_nth_ok (set_nth j (fun _ : S => Ok x)) [] row' i rows ltac:(lia)) as (rows' & Q1 & Q2 & Q3 & Q4); [rewrite (nth_error_nth rows i [] Erow); exact R1|].
    assert (Hbl : b < List.length M) by (apply nth_error_Some; congruence).
    destruct (set_nth_ok (set_nth i (set_nth j (fun _ : S => Ok x))) [] rows' b M Hbl) as (M' & P1 & P2 & P3 & P4); [rewrite (nth_error_nth M b [] Er); exact Q1|].
    exists M'. split; [exact P1|]. split; [|split].
    - split; [congruence|]. intros b' name' n' Hb'. destruct (Nat.eq_dec b' b) as [->|Nb].
      + rewrite Hb in Hb'. injection Hb' as <- <-. exists rows'. split; [exact P3|]. split; [congruence|]. intros i' r Hr. destruct (Nat.eq_dec i' i) as [->|Ni].
        * rewrite Q3 in Hr. injection Hr as <-. congruence.
        * rewrite Q4 in Hr by exact Ni. apply (Ar i' r Hr).
      + rewrite P4 by exact Nb. apply (HA b' name' n' Hb').
    - unfold entry. rewrite (nth_error_nth M' b [] P3), (nth_error_nth rows' i [] Q3), (nth_error_nth row' j k0 R3). reflexivity.
    - intros b' i' j' Hne. unfold entry. destruct (Nat.eq_dec b' b) as [->|Nb].
      + rewrite (nth_error_nth M' b [] P3), (nth_error_nth M b [] Er). destruct (Nat.eq_dec i' i) as [->|Ni].
        * rewrite (nth_error_nth rows' i [] Q3), (nth_error_nth rows i [] Erow). apply nth_of_error. apply R4. intros ->. apply Hne. reflexivity.
        * f_equal. apply nth_of_error. apply Q4. exact Ni.
      + f_equal. f_equal. apply nth_of_error. apply P4. exact Nb.
  Qed.

  Lemma name_to_bl_ok gs b name n : NoDup (map fst gs) -> nth_error gs b = Some (name, n) -> name_to_bl gs name = b.
  Proof.
    revert b. induction gs as [|[nm sz] gs IH]; intros b N Hb; [destruct b; discriminate Hb|]. inversion N as [|? ? N1 N2]; subst. cbn [name_to_bl fst].
    destruct b as [|b]; cbn [nth_error] in Hb.
    - injection Hb as -> ->. rewrite String.eqb_refl. reflexivity.
    - destruct (String.eqb_spec name nm) as [->|Hn].
      + destruct N1. apply in_map_iff. exists (nm, n). split; [reflexivity|]. eapply nth_error_In. exact Hb.
      + f_equal. apply IH; assumption.
  Qed.

  Lemma lbl_eqb_refl x : lbl_eqb x x = true.
  Proof. unfold lbl_eqb. apply (cmp_eqb_eq _ Indices.lbl_ok). reflexivity. Qed.

  Lemma block_loop_ok gs ignore h : forall M, NoDup (map fst gs) -> agrees S gs M -> Forall (fun mc => block_term gs (fst mc)) h -> NoDup (map fst h) ->
    exists M', block_loop S gs ignore h M = Ok M' /\ agrees S gs M' /\
      forall b name n i j, nth_error gs b = Some (name, n) -> i < n -> j < n ->
        (forall c, In (hopping name i j, c) h -> entry S M' b i j = c) /\
        (~ In (hopping name i j) (map fst h) -> entry S M' b i j = entry S M b i j).
  Proof.
    induction h as [|[m c] h IH]; intros M N A HF Nh; cbn [block_loop].
    - exists M. split; [reflexivity|]. split; [exact A|]. intros b name n i j Hb Hi Hj. split; [intros c []|reflexivity].
    - inversion HF as [|? ? HF1 HF2]; subst. inversion Nh as [|? ? Nh1 Nh2]; subst. cbn [fst] in *.
      destruct HF1 as (name & n & i & j & Hin & Hi & Hj & ->). apply In_nth_error in Hin. destruct Hin as [b Hb].
      destruct (set_elem_ok gs M b name n i j c A Hb Hi Hj) as (M1 & E1 & A1 & X1 & X2).
      destruct (IH M1 N A1 HF2 Nh2) as (M' & E' & A' & X'). exists M'. split; [|split; [exact A'|]].
      + unfold hopping at 1 2. cbn [block_test cd ca dag ind]. cbn [andb negb at_lbl nth_error bind]. rewrite lbl_eqb_refl. cbn [andb List.length Nat.eqb bind].
        cbn [at_lbl nth_error bind get_string get_long ind cd ca]. unfold to_index.
        destruct (Z.ltb_spec (Z.of_nat i) 0); [lia|]. destruct (Z.ltb_spec (Z.of_nat j) 0); [lia|]. cbn [bind]. rewrite !Nat2Z.id.
        rewrite (name_to_bl_ok gs b name n N Hb), E1. cbn [bind]. exact E'.
      + intros b' name' n' i' j' Hb' Hi' Hj'. destruct (X' b' name' n' i' j' Hb' Hi' Hj') as [Y1 Y2]. split.
        * intros c' [I|I]; [|apply Y1; exact I]. pose proof (f_equal fst I) as Q. pose proof (f_equal snd I) as Qc. cbn [fst snd] in Q, Qc. subst c'. rewrite Y2.
          -- apply hopping_inj in Q. destruct Q as (Q1 & Q2 & Q3). subst name' i' j'.
             rewrite <- (name_to_bl_ok gs b name n N Hb), <- (name_to_bl_ok gs b' name n' N Hb') in *. exact X1.
          -- rewrite <- Q. exact Nh1.
        * intros Ni. cbn [map fst In] in Ni. rewrite Y2 by tauto. apply X2. intros Q. injection Q as -> -> ->. apply Ni. left. rewrite Hb in Hb'. injection Hb' as -> ->. reflexivity.
  Qed.

  Lemma bzeros_agrees gs : agrees S gs (bzeros S gs).
  Proof.
    split; [apply map_length|]. intros b name n Hb. exists (repeat (repeat k0 n) n). unfold bzeros. rewrite nth_error_map, Hb. cbn. split; [reflexivity|]. split; [apply repeat_length|].
    intros i r Hr. apply nth_error_In, repeat_spec in Hr. subst r. apply repeat_length.
  Qed.
  Lemma nth_repeat' {A} (a d : A) n k : nth k (repeat a n) d = a \/ nth k (repeat a n) d = d.
  Proof. revert k. induction n as [|n IH]; intros [|k]; cbn; auto. Qed.
  Lemma bzeros_entry gs b i j : entry S (bzeros S gs) b i j = k0.
  Proof.
    unfold entry, bzeros. destruct (nth_error gs b) as [[name n]|] eqn:E.
    - assert (E' : nth_error (map (fun bs : string * nat => repeat (repeat (k0 : S) (snd bs)) (snd bs)) gs) b = Some (repeat (repeat k0 n) n)) by (rewrite nth_error_map, E; reflexivity).
      rewrite (nth_error_nth _ b [] E'). destruct (nth_repeat' (repeat (k0 : S) n) [] n i) as [->| ->]; [destruct (nth_repeat' (k0 : S) k0 n j); assumption|destruct j; reflexivity].
    - rewrite (nth_overflow _ [] (n := b)); [destruct i, j; reflexivity|]. rewrite map_length. apply nth_error_None. exact E.
  Qed.

  Lemma coef_In (h : omap S) m c : keys_sorted h -> In (m, c) h -> coef m h = c.
  Proof. intros Hs I. unfold OpUnique.coef. rewrite (m_find_In_sorted S m c h Hs I). reflexivity. Qed.
  Lemma coef_absent (h : omap S) m : keys_sorted h -> ~ In m (map fst h) -> coef m h = k0.
  Proof.
    intros Hs I. unfold OpUnique.coef. destruct (m_find m h) as [c|] eqn:E; [|reflexivity]. apply m_find_some_In in E. destruct I. change m with (fst (m, c)). apply in_map. exact E.
  Qed.

  Lemma matrix_ext gs M M' : agrees S gs M -> agrees S gs M' ->
    (forall b name n i j, nth_error gs b = Some (name, n) -> i < n -> j < n -> entry S M b i j = entry S M' b i j) -> M = M'.
  Proof.
    intros [L1 A1] [L2 A2] H. apply (nth_ext _ _ [] []); [congruence|]. intros b Hb.
    destruct (nth_error gs b) as [[name n]|] eqn:E; [|apply nth_error_None in E; lia].
    destruct (A1 b name n E) as (r1 & R1 & N1 & F1). destruct (A2 b name n E) as (r2 & R2 & N2 & F2).
    rewrite (nth_error_nth M b [] R1), (nth_error_nth M' b [] R2). apply (nth_ext _ _ [] []); [congruence|]. intros i Hi.
    destruct (nth_error r1 i) as [w1|] eqn:W1; [|apply nth_error_None in W1; lia]. destruct (nth_error r2 i) as [w2|] eqn:W2; [|apply nth_error_None in W2; lia].
    rewrite (nth_error_nth r1 i [] W1), (nth_error_nth r2 i [] W2). apply (nth_ext _ _ k0 k0); [rewrite (F1 i w1 W1), (F2 i w2 W2); reflexivity|]. intros j Hj.
    rewrite (F1 i w1 W1) in Hj. specialize (H b name n i j E ltac:(lia) Hj). unfold entry in H.
    rewrite (nth_error_nth M b [] R1), (nth_error_nth M' b [] R2), (nth_error_nth r1 i [] W1), (nth_error_nth r2 i [] W2) in H. exact H.
  Qed.

  Lemma from_op_coef gs ignore h : NoDup (map fst gs) -> wf h -> Forall (fun mc => block_term gs (fst mc)) h ->
    exists M, block_matrix_from_op S gs ignore h = Ok M /\ agrees S gs M /\
      forall b name n i j, nth_error gs b = Some (name, n) -> i < n -> j < n -> entry S M b i j = coef (hopping name i j) h.
  Proof.
    intros N Hw HF. destruct Hw as [Hs Hw]. destruct (block_loop_ok gs ignore h (bzeros S gs) N (bzeros_agrees gs) HF (wf_keys_NoDup S h Hs)) as (M & E & A & X).
    exists M. split; [exact E|]. split; [exact A|]. intros b name n i j Hb Hi Hj. destruct (X b name n i j Hb Hi Hj) as [X1 X2].
    destruct (in_dec (list_eq_dec cop_eq_dec) (hopping name i j) (map fst h)) as [I|I].
    - apply in_map_iff in I. destruct I as ((m & c) & Em & I). cbn in Em. subst m. rewrite (X1 c I). symmetry. apply coef_In; assumption.
    - rewrite (X2 I), bzeros_entry. symmetry. apply coef_absent; assumption.
  Qed.

  Lemma op_round_trip gs ignore h : NoDup (map fst gs) -> wf h -> Forall (fun mc => block_term gs (fst mc)) h ->
    exists M, block_matrix_from_op S gs ignore h = Ok M /\ agrees S gs M /\
      (forall b name n i j, nth_error gs b = Some (name, n) -> i < n -> j < n -> entry S M b i j = coef (hopping name i j) h) /\
      op_from_block_matrix S gs M = Ok (Some h).
  Proof.
    intros N Hw HF. destruct (from_op_coef gs ignore h N Hw HF) as (M & E & A & X). exists M. split; [exact E|]. split; [exact A|]. split; [exact X|].
    unfold op_from_block_matrix. rewrite (proj2 (shape_ok_agrees gs M) A).
    destruct (add_blocks_ok gs M [] (wf_nil S) N A) as (h' & Eh & W' & C1 & C2). transitivity (Ok (Some h')); [f_equal; exact Eh|]. f_equal. f_equal. apply (wf_coef_ext S L h' h W' Hw). intros m.
    destruct (in_dec (list_eq_dec cop_eq_dec) m (map fst h)) as [I|I].
    - apply in_map_iff in I. destruct I as ((m' & c) & Em & I). cbn in Em. subst m'. rewrite Forall_forall in HF. destruct (HF _ I) as (name & n & i & j & Hin & Hi & Hj & Em). cbn in Em. subst m.
      apply In_nth_error in Hin. destruct Hin as [b Hb]. rewrite (C1 b name n i j Hb Hi Hj), (X b name n i j Hb Hi Hj). change (coef (hopping name i j) []) with (k0 : S). ring.
    - rewrite (coef_absent h m) by (apply Hw || exact I).
      pose proof (block_term_dec gs m) as D.
      destruct D as [(name & n & i & j & Hin & Hi & Hj & ->)|D].
      + apply In_nth_error in Hin. destruct Hin as [b Hb]. rewrite (C1 b name n i j Hb Hi Hj), (X b name n i j Hb Hi Hj). rewrite (coef_absent h) by (apply Hw || exact I).
        change (coef (hopping name i j) []) with (k0 : S). ring.
      + rewrite (C2 m D). reflexivity.
  Qed.

  Lemma matrix_round_trip gs M : NoDup (map fst gs) -> agrees S gs M ->
    exists h, op_from_block_matrix S gs M = Ok (Some h) /\ wf h /\ Forall (fun mc => block_term gs (fst mc)) h /\
      (forall b name n i j, nth_error gs b = Some (name, n) -> i < n -> j < n -> coef (hopping name i j) h = entry S M b i j) /\
      forall ignore, block_matrix_from_op S gs ignore h = Ok M.
  Proof.
    intros N A. unfold op_from_block_matrix. rewrite (proj2 (shape_ok_agrees gs M) A).
    destruct (add_blocks_ok gs M [] (wf_nil S) N A) as (h & Eh & W & C1 & C2). exists h. split; [f_equal; exact Eh|]. split; [exact W|].
    assert (CC : forall b name n i j, nth_error gs b = Some (name, n) -> i < n -> j < n -> coef (hopping name i j) h = entry S M b i j).
    { intros b name n i j Hb Hi Hj. rewrite (C1 b name n i j Hb Hi Hj). change (coef (hopping name i j) []) with (k0 : S). ring. }
    assert (BT : Forall (fun mc => block_term gs (fst mc)) h).
    { apply Forall_forall. intros [m c] I. cbn [fst]. destruct (block_term_dec gs m) as [D|D]; [exact D|]. exfalso. pose proof (C2 m D) as C. destruct W as [Ws Wn].
      rewrite (coef_In h m c Ws I) in C. rewrite Forall_forall in Wn. apply Wn in I. apply I. exact C. }
    split; [exact BT|]. split; [exact CC|]. intros ignore.
    destruct (from_op_coef gs ignore h N W BT) as (M' & E & A' & X). rewrite E. f_equal. apply (matrix_ext gs M' M A' A). intros b name n i j Hb Hi Hj.
    rewrite (X b name n i j Hb Hi Hj). apply (CC b name n i j Hb Hi Hj).
  Qed.

  (** ---- filter_op ---- *)
  Lemma pass_normal rec : forall rest x pre (c : S) t, normal (x :: rest) -> pass rec pre x rest c t false = PDone (rev pre ++ x :: rest) c t false.
  Proof.
    induction rest as [|y rest IH]; intros x pre c t H; cbn [pass]; [reflexivity|].
    pose proof H as H0. unfold normal in H. apply StronglySorted_inv in H. destruct H as [H1 H2]. inversion H2 as [|? ? H3 H4]; subst. unfold clt in H3. rewrite H3.
    rewrite (IH y (x :: pre) c t H1). cbn [rev]. rewrite <- app_assoc. reflexivity.
  Qed.
  Lemma term_normal m (c : S) : normal m -> op_term m c = Some [(m, c)].
  Proof.
    intros H. unfold op_term, normalize_and_insert. destruct m as [|x rest]; [reflexivity|]. cbn [List.length normalize_fuel passes].
    rewrite (pass_normal _ rest x [] c [] H). reflexivity.
  Qed.
  Lemma filter_loop_ok len h : forall acc, wf h -> wf acc -> exists h', filter_loop S len h acc = Some h' /\ wf h' /\
    forall m, coef m h' = coef m acc + coef m (filter (fun mc => Nat.eqb (List.length (fst mc)) len) h).
  Proof.
    induction h as [|[m c] h IH]; intros acc Hw Ha; cbn [filter_loop filter fst].
    - exists acc. split; [reflexivity|]. split; [exact Ha|]. intros m. change (coef m []) with (k0 : S). ring.
    - assert (Hw' : wf h). { destruct Hw as [H1 H2]. split; [apply StronglySorted_inv in H1; apply H1|inversion H2; assumption]. }
      pose proof Hw as [H1 H2]. inversion H2 as [|? ? [H3 H3'] H4]; subst. cbn [fst snd] in H3, H3'.
      destruct (Nat.eqb (List.length m) len); [|apply IH; assumption].
      rewrite (term_normal m c H3). assert (W1 : wf [(m, c)]) by (split; [repeat constructor|constructor; [split; assumption|constructor]]).
      destruct (IH (op_add acc [(m, c)]) Hw' (op_add_wf S L _ _ Ha W1)) as (h' & E & W & C). exists h'. split; [exact E|]. split; [exact W|]. intros m'.
      rewrite (C m'), (coef_add S L) by (apply Ha || apply W1).
      assert (Hf : wf ((m, c) :: filter (fun mc => Nat.eqb (List.length (fst mc)) len) h)).
      { split; [|constructor; [split; assumption|]].
        - apply StronglySorted_inv in H1. destruct H1 as [H1 H1']. constructor; [apply (filter_wf S _ h Hw')|]. apply Forall_forall. intros x Hx. apply filter_In in Hx. rewrite Forall_forall in H1'. apply H1'. apply Hx.
        - apply (filter_wf S _ h Hw'). }
      assert (Q : coef m' ((m, c) :: filter (fun mc => Nat.eqb (List.length (fst mc)) len) h) = coef m' [(m, c)] + coef m' (filter (fun mc => Nat.eqb (List.length (fst mc)) len) h)).
      { rewrite (coef_cons S L m' m c (filter (fun mc => Nat.eqb (List.length (fst mc)) len) h)) by apply Hf. rewrite (coef_cons S L m' m c []) by apply W1. change (coef m' []) with (k0 : S). ring. }
      assert (As : forall x y z : S, (x + y) + z = x + (y + z)) by (intros; ring). etransitivity; [apply As|]. apply f_equal. symmetry. exact Q.
  Qed.
  Lemma filter_ok h len : wf h -> filter_op S h len = Some (filter (fun mc => Nat.eqb (List.length (fst mc)) len) h).
  Proof.
    intros Hw. unfold filter_op. destruct (filter_loop_ok len h [] Hw (wf_nil S)) as (h' & E & W & C). rewrite E. f_equal.
    apply (wf_coef_ext S L); [exact W|apply filter_wf; exact Hw|]. intros m. rewrite C. change (coef m []) with (k0 : S). ring.
  Qed.

  (** ---- dict_to_matrix ---- *)
  Lemma positions_ok fs k : (forall i, In i k -> In i fs) -> exists q, positions fs k = Ok q /\ names fs k q.
  Proof.
    induction k as [|i k IH]; intros H; cbn [positions]; [exists []; split; [reflexivity|constructor]|].
    destruct (find_pos_In fs i) as [p Ep]; [apply H; left; reflexivity|]. unfold fops_at. rewrite Ep. cbn [bind].
    destruct IH as (q & -> & Q); [intros i' Hi'; apply H; right; exact Hi'|]. cbn [bind]. exists (p :: q). split; [reflexivity|]. constructor; [apply find_pos_nth; exact Ep|exact Q].
  Qed.
  Lemma positions_bad fs k i : In i k -> ~ In i fs -> positions fs k = Throw.
  Proof.
    induction k as [|i' k IH]; intros I N; [destruct I|]. cbn [positions]. unfold fops_at. destruct (find_pos fs i') as [p|] eqn:E; [|reflexivity]. cbn [bind].
    destruct I as [->|I]; [apply find_pos_None in N; congruence|]. rewrite (IH I N). reflexivity.
  Qed.
  Lemma nats_eqb_eq a : forall b, nats_eqb a b = true <-> a = b.
  Proof.
    induction a as [|x a IH]; intros [|y b]; cbn [nats_eqb]; try (split; [discriminate|discriminate]); [tauto|].
    rewrite andb_true_iff, Nat.eqb_eq, IH. split; [intros [-> ->]; reflexivity|intros H; injection H as -> ->; auto].
  Qed.
  Lemma names_fun fs k k' q : names fs k q -> names fs k' q -> k = k'.
  Proof. intros H. revert k'. induction H as [|i p k q H1 H2 IH]; intros k' H'; inversion H'; subst; [reflexivity|]. f_equal; [congruence|apply IH; assumption]. Qed.
  Lemma names_inj fs k q q' : NoDup fs -> names fs k q -> names fs k q' -> q = q'.
  Proof.
    intros N H. revert q'. induction H as [|i p k q H1 H2 IH]; intros q' H'; inversion H' as [|? p' ? q'' H3 H4]; subst; [reflexivity|]. f_equal; [|apply IH; assumption].
    apply (NoDup_nth_error fs); [exact N|apply nth_error_Some; congruence|congruence].
  Qed.

  Lemma assign_ok fs d : NoDup fs -> NoDup (map fst d) -> (forall k x i, In (k, x) d -> In i k -> In i fs) -> forall mat,
    exists f, assign_all S fs d mat = Ok f /\ forall k q, names fs k q -> (forall x, In (k, x) d -> f q = x) /\ (~ In k (map fst d) -> f q = mat q).
  Proof.
    intros N. induction d as [|[k x] d IH]; intros Nd H mat; cbn [assign_all].
    - exists mat. split; [reflexivity|]. intros k q _. split; [intros x []|reflexivity].
    - inversion Nd as [|? ? N1 N2]; subst. destruct (positions_ok fs k) as (q0 & -> & Q0); [intros i Hi; apply (H k x i); [left; reflexivity|exact Hi]|]. cbn [bind].
      destruct (IH N2 (fun k' x' i I => H k' x' i (or_intror I)) (fun q => if nats_eqb q q0 then x else mat q)) as (f & -> & F).
      exists f. split; [reflexivity|]. intros k' q Q. destruct (F k' q Q) as [F1 F2]. split.
      + intros x' [I|I]; [|apply F1; exact I]. injection I as -> ->. rewrite (F2 N1). rewrite (names_inj fs k' q q0 N Q Q0). rewrite (proj2 (nats_eqb_eq q0 q0) eq_refl). reflexivity.
      + cbn [map fst In]. intros Ni. rewrite F2 by tauto. destruct (nats_eqb q q0) eqn:E; [|reflexivity]. apply nats_eqb_eq in E. subst q. destruct Ni. left. eapply names_fun; eassumption.
  Qed.
  Lemma assign_bad fs d : (exists k x i, In (k, x) d /\ In i k /\ ~ In i fs) -> forall mat, assign_all S fs d mat = Throw.
  Proof.
    induction d as [|[k x] d IH]; intros (k' & x' & i & I & Hi & Ni) mat; [destruct I|]. cbn [assign_all]. destruct I as [I|I].
    - injection I as -> ->. rewrite (positions_bad fs k' i Hi Ni). reflexivity.
    - destruct (positions fs k) as [q| |] eqn:E; [cbn [bind]; apply IH; eauto 8|reflexivity|].
      exfalso. clear - E. induction k as [|i k IHk]; cbn [positions] in E; [discriminate E|]. unfold fops_at in E. destruct (find_pos fs i); [|discriminate E]. cbn [bind] in E.
      destruct (positions fs k); try discriminate E. apply IHk. reflexivity.
  Qed.
End P.
