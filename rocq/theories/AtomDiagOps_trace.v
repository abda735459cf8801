(** trace_rho_op and quantum_number_eigenvalues. *)
From Coq Require Import ZArith NArith List Arith Bool Lia Sorted.
From Verif Require Import Base Indices Scalar Fock FockFacts OpModel OpExpr OpNormal Op_proofs Hilbert Hilbert_proofs
  State StateSpec State_proofs ImpOp ImpOp_proofs ImpOp_run ImpOp_thms Partition Partition_imp AtomDiag AtomDiagSpec AtomDiag_lists AtomDiag_terms
  AtomDiag_mats AtomDiag_final AtomDiagOps AtomDiagOpsSpec AtomDiagOps_mono AtomDiagOps_loop AtomDiagOps_sums AtomDiagOps_proofs AtomDiagOps_act.
Import ListNotations.
Local Open Scope nat_scope.

Section Trace.
  Context (S : scalar_ops) (L : scalar_laws S) (E : energy_ops S).
  Local Open Scope K_scope.
  Add Ring Kring10 : (sl_ring S L).
  Variable l : fops.
  Variable d : Z.
  Hypothesis Hl : (length l <= 17)%nat.
  Hypothesis Hd : hs_dim (length l) = Ok d.
  Notation pos := (mode l).
  Variable keep : N -> bool.
  Variable a : atom S E.
  Hypothesis F : atom_facts S E l d keep a.
  Notation block := (block S E a).
  Notation elem := (elem S E l a).
  Notation get := (get_matrix_element_of_monomial S E a).
  Notation nb := (n_blocks S E a).
  Notation size := (size_of S E a).

  Variable op : omap S.
  Variable e : expr S.
  Hypothesis Hue : forall x, uses e x -> In x l.
  Hypothesis Hev : eval e = Some op.
  Hypothesis Hop : op_ok S l op.
  Hypothesis Hts : terms_single S E l a op.
  Notation part_ok := (term_part S L E l d Hl Hd keep a F op Hop Hts).

  Lemma dim_ok b : b < nb -> dim_of S E a b = Ok (size b).
  Proof. intros Hb. rewrite (block_dim S E l d keep a F _ _ _ _ (block_get S E l d keep a F b Hb)). reflexivity. Qed.

  Definition sq (n : nat) (rho : mat S) : Prop := m_rows rho = n /\ m_cols rho = n.
  Definition tr (m : nat -> nat -> S) (rho : mat S) (n : nat) : S := msum S n (fun i => msum S n (fun k => m i k * m_at rho k i)).
  Lemma tr_l c m rho n : tr (fun i k => c * m i k) rho n = c * tr m rho n.
  Proof. unfold tr. rewrite <- (ms_l S L). apply (ms_ext S). intros i Hi. rewrite <- (ms_l S L). apply (ms_ext S). intros k Hk. ring. Qed.

  Lemma trace_term_ok b rho x t : In t op -> b < nb -> sq (size b) rho ->
    trace_term S E a b rho (Ok x) t = Ok (x + snd t * tr (fun i k => elem (word S (fst t)) b i b k) rho (size b)).
  Proof.
    intros Ht Hb [R C]. destruct (part_ok t b Ht Hb) as (r & Er & Hsh & Hp). unfold trace_term. cbn [bind]. rewrite Er. cbn [bind]. unfold part in Hp.
    assert (Zero : (forall i k, i < size b -> k < size b -> elem (word S (fst t)) b i b k = k0) -> Ok x = Ok (x + snd t * tr (fun i k => elem (word S (fst t)) b i b k) rho (size b))).
    { intros Hz. f_equal. unfold tr. rewrite (ms_zero S L); [ring|]. intros i Hi. apply (ms_zero S L). intros k Hk. rewrite Hz by assumption. ring. }
    destruct (snd r) as [M|].
    - destruct (Hsh M eq_refl) as (b1 & Ef & Hb1 & RM & CM). rewrite Ef in Hp |- *. destruct (Z.eqb_spec (Z.of_nat b1) (Z.of_nat b)) as [Q|Q].
      + apply Nat2Z.inj in Q. subst b1. unfold m_prod. rewrite CM, R, Nat.eqb_refl. cbn [bind]. unfold m_trace. cbn [m_mul m_rows m_cols]. rewrite RM, C, Nat.eqb_refl. cbn [bind].
        f_equal. f_equal. f_equal. unfold tr. apply (ms_ext S). intros i Hi. unfold m_mul. cbn [m_at]. rewrite CM. apply (ms_ext S). intros k Hk.
        specialize (Hp b i k Hb Hi Hk). rewrite Z.eqb_refl in Hp. rewrite Hp. reflexivity.
      + apply Zero. intros i k Hi Hk. rewrite <- (Hp b i k Hb Hi Hk). destruct (Z.eqb_spec (Z.of_nat b1) (Z.of_nat b)); [contradiction|reflexivity].
    - apply Zero. intros i k Hi Hk. rewrite <- (Hp b i k Hb Hi Hk). reflexivity.
  Qed.
  Lemma trace_terms_ok b rho : b < nb -> sq (size b) rho -> forall rest x, (forall t, In t rest -> In t op) ->
    fold_left (trace_term S E a b rho) rest (Ok x) = Ok (x + ksum (map (fun t : monomial * S => snd t * tr (fun i k => elem (word S (fst t)) b i b k) rho (size b)) rest)).
  Proof.
    intros Hb Hr. induction rest as [|t rest IH]; intros x Hin; cbn [fold_left map ksum].
    - f_equal. ring.
    - rewrite (trace_term_ok b rho x t) by (auto; apply Hin; left; reflexivity). rewrite IH by (intros; apply Hin; right; assumption). f_equal. ring.
  Qed.
  Lemma trace_elem b rho : ksum (map (fun t : monomial * S => snd t * tr (fun i k => elem (word S (fst t)) b i b k) rho (size b)) op) = tr (fun i k => elem e b i b k) rho (size b).
  Proof.
    transitivity (ksum (map (fun t : monomial * S => tr (fun i k => snd t * elem (word S (fst t)) b i b k) rho (size b)) op)).
    { apply ks_ext. intros t Ht. symmetry. apply tr_l. }
    unfold tr. rewrite <- (ms_ks S L). apply (ms_ext S). intros i Hi. rewrite <- (ms_ks S L). apply (ms_ext S). intros k Hk.
    rewrite (elem_terms S L E l a op e Hue Hev b i b k), <- (ks_r S L). reflexivity.
  Qed.

  Variable dm : list (mat S).
  Definition dm_at (b : nat) : mat S := nth b dm (mkMat 0 0 (fun _ _ => k0)).
  Definition trace_spec : S := msum S nb (fun b => msum S (size b) (fun i => msum S (size b) (fun k => elem e b i b k * m_at (dm_at b) k i))).

  Section Sized.
    Hypothesis Hdm : length dm = nb.
    Hypothesis Hsq : forall b, b < nb -> sq (size b) (dm_at b).

    Lemma trace_blocks_ok : fold_left (trace_block S E a op) (enum dm) (Ok k0) = Ok trace_spec.
    Proof.
      assert (G : forall rest k x, (forall j m, nth_error rest j = Some m -> nth_error dm (k + j)%nat = Some m) -> (k + length rest)%nat = nb ->
        fold_left (trace_block S E a op) (combine (seq k (length rest)) rest) (Ok x) =
        Ok (x + ksum (map (fun b => tr (fun i k => elem e b i b k) (dm_at b) (size b)) (seq k (length rest))))).
      { induction rest as [|m rest IH]; intros k x Hr Hk; cbn [length seq combine fold_left map ksum] in *; [f_equal; ring|].
        assert (Em : dm_at k = m). { unfold dm_at. specialize (Hr 0 m eq_refl). rewrite Nat.add_0_r in Hr. apply nth_of_error. exact Hr. }
        assert (Hb : k < nb) by lia. unfold trace_block at 2. cbn [bind fst snd]. rewrite (dim_ok k Hb). cbn [bind].
        destruct (Hsq k Hb) as [R C]. rewrite Em in R, C. rewrite R, Nat.eqb_refl. cbn [negb].
        rewrite (trace_terms_ok k m Hb (conj R C) op x (fun t H => H)), trace_elem. rewrite IH.
        - f_equal. rewrite Em. ring.
        - intros j m' Hj. specialize (Hr (Datatypes.S j) m' Hj). rewrite Nat.add_succ_r in Hr. exact Hr.
        - lia. }
      unfold enum. rewrite (G dm 0 k0 (fun j m H => H) Hdm). f_equal. rewrite Hdm. unfold trace_spec, msum at 1. unfold tr. ring.
    Qed.

    (** with hermitian arguments the trace is real *)
    Lemma all_hermitian_ok : exists h, all_hermitian S dm = Ok h /\ (h = true -> forall b i j, b < nb -> i < size b -> j < size b -> m_at (dm_at b) i j = kconj (m_at (dm_at b) j i)).
    Proof.
      assert (G : forall rest k, (forall j m, nth_error rest j = Some m -> nth_error dm (k + j)%nat = Some m) -> (k + length rest)%nat = nb ->
        exists h, all_hermitian S rest = Ok h /\ (h = true -> forall b i j, k <= b < nb -> i < size b -> j < size b -> m_at (dm_at b) i j = kconj (m_at (dm_at b) j i))).
      { induction rest as [|m rest IH]; intros k Hr Hk; cbn [length all_hermitian] in *.
        - exists true. split; [reflexivity|]. intros _ b i j Hb. lia.
        - assert (Em : dm_at k = m). { unfold dm_at. specialize (Hr 0 m eq_refl). rewrite Nat.add_0_r in Hr. apply nth_of_error. exact Hr. }
          destruct (Hsq k) as [R C]; [lia|]. rewrite Em in R, C. unfold m_hermitian. rewrite R, C, Nat.eqb_refl. cbn [bind].
          destruct (forallb _ (seq 0 (size k))) eqn:Ea.
          + destruct (IH (Datatypes.S k)) as (h & Eh & Hh).
            { intros j m' Hj. specialize (Hr (Datatypes.S j) m' Hj). rewrite Nat.add_succ_r in Hr. exact Hr. } { lia. }
            exists h. split; [exact Eh|]. intros Ht b i j Hb Hi Hj. destruct (Nat.eq_dec b k) as [->|]; [|apply Hh; auto; lia].
            rewrite forallb_forall in Ea. assert (Hii : In i (seq 0 (size k))) by (apply in_seq; lia). specialize (Ea i Hii). cbv beta in Ea. rewrite forallb_forall in Ea.
            assert (Hjj : In j (seq 0 (size k))) by (apply in_seq; lia). specialize (Ea j Hjj). cbv beta in Ea. apply (sl_isz S L) in Ea. rewrite Em.
            transitivity (m_at m i j - kconj (m_at m j i) + kconj (m_at m j i)); [ring|]. rewrite Ea. ring.
          + exists false. split; [reflexivity|discriminate]. }
      destruct (G dm 0 (fun j m H => H) Hdm) as (h & Eh & Hh). exists h. split; [exact Eh|]. intros Ht b i j Hb Hi Hj. apply Hh; auto. lia.
    Qed.
    Lemma hermitian_bracket : op_is_hermitian (fun _ => false) op = true -> forall f g, bracket S l e g f = kconj (bracket S l e f g).
    Proof.
      intros H f g. assert (Hmd : modes_distinct pos (uses e)) by (intros x y Hx Hy; apply mode_inj; auto).
      destruct (thm_dagger S L e pos op Hmd Hev) as (_ & _ & Hh). apply Hh with (f := f) (g := g) in H.
      rewrite !(bracket_mel S L l e op _ _ Hue Hev). rewrite !(amp_apply pos S L) in H. unfold vsum in H. cbn [map ksum fst snd] in H.
      transitivity (k1 * mel pos op f g + k0); [ring|]. rewrite H. f_equal. ring.
    Qed.
    Lemma elem_conj : (forall f g, bracket S l e g f = kconj (bracket S l e f g)) -> forall b i k, kconj (elem e b i b k) = elem e b k b i.
    Proof.
      intros H b i k. unfold AtomDiagOpsSpec.elem, element. rewrite (ms_conj S L).
      transitivity (msum S (size b) (fun p => msum S (size b) (fun q => m_at (vectors_of S E a b) q i * bracket S l e (nth p (states_of S E a b) 0%N) (nth q (states_of S E a b) 0%N) * kconj (m_at (vectors_of S E a b) p k)))).
      - apply (ms_ext S). intros p Hp. rewrite (sl_conj_mul S L), (ms_conj S L), <- (ms_r S L). apply (ms_ext S). intros q Hq.
        rewrite (sl_conj_mul S L), (sl_conj_conj S L), <- H. reflexivity.
      - rewrite (ms_swap S L). apply (ms_ext S). intros q Hq. rewrite <- (ms_r S L). apply (ms_ext S). intros p Hp. ring.
    Qed.
    Variable re : S -> S.
    Hypothesis Hre : forall x, kconj x = x -> re x = x.
    Lemma trace_rho_op_ok : trace_rho_op S E re a dm op = Ok trace_spec.
    Proof.
      unfold trace_rho_op. rewrite Hdm, Nat.eqb_refl. cbn [negb]. rewrite trace_blocks_ok. cbn [bind].
      destruct (op_is_hermitian (fun _ => false) op) eqn:Eh; [|reflexivity]. destruct all_hermitian_ok as (h & -> & Hh). cbn [bind]. destruct h; [|reflexivity].
      f_equal. apply Hre. pose proof (elem_conj (hermitian_bracket Eh)) as Hc. specialize (Hh eq_refl). unfold trace_spec. rewrite (ms_conj S L). apply (ms_ext S). intros b Hb.
      rewrite (ms_conj S L).
      transitivity (msum S (size b) (fun i => msum S (size b) (fun k => elem e b k b i * m_at (dm_at b) i k))); [|apply (ms_swap S L)].
      apply (ms_ext S). intros i Hi. rewrite (ms_conj S L). apply (ms_ext S). intros k Hk. rewrite (sl_conj_mul S L), Hc, <- Hh by assumption. reflexivity.
    Qed.
  End Sized.

  (** ---- size mismatch ---- *)
  Variable re : S -> S.
  Lemma trace_throws_count : length dm <> nb -> trace_rho_op S E re a dm op = Throw.
  Proof. intros H. unfold trace_rho_op. destruct (Nat.eqb_spec nb (length dm)); [congruence|reflexivity]. Qed.
  Lemma trace_throws_size : length dm = nb -> (forall b, b < nb -> m_rows (dm_at b) = m_cols (dm_at b)) -> (exists b, b < nb /\ m_rows (dm_at b) <> size b) ->
    trace_rho_op S E re a dm op = Throw.
  Proof.
    intros Hdm Hs Hx. unfold trace_rho_op. rewrite Hdm, Nat.eqb_refl. cbn [negb].
    assert (Th : forall rest, fold_left (trace_block S E a op) rest Throw = Throw) by (induction rest; auto).
    assert (G : forall rest k x, (forall j m, nth_error rest j = Some m -> nth_error dm (k + j)%nat = Some m) -> (k + length rest)%nat = nb ->
      (exists b, k <= b < nb /\ m_rows (dm_at b) <> size b) -> fold_left (trace_block S E a op) (combine (seq k (length rest)) rest) (Ok x) = Throw).
    { induction rest as [|m rest IH]; intros k x Hr Hk (b & Hb & Hne); cbn [length seq combine fold_left] in *; [lia|].
      assert (Em : dm_at k = m). { unfold dm_at. specialize (Hr 0 m eq_refl). rewrite Nat.add_0_r in Hr. apply nth_of_error. exact Hr. }
      assert (Hk' : k < nb) by lia. remember (trace_block S E a op (Ok x) (k, m)) as y eqn:Ey. unfold trace_block in Ey. cbn [bind fst snd] in Ey. rewrite (dim_ok k Hk') in Ey. cbn [bind] in Ey.
      destruct (Nat.eqb_spec (size k) (m_rows m)) as [Q|Q]; cbn [negb] in Ey; [|subst y; apply Th].
      assert (Hsq : sq (size k) m). { split; [congruence|]. rewrite <- Em, <- Hs by exact Hk'. rewrite Em. congruence. }
      rewrite (trace_terms_ok k m Hk' Hsq op x (fun t H => H)) in Ey. subst y. apply IH.
      - intros j m' Hj. specialize (Hr (Datatypes.S j) m' Hj). rewrite Nat.add_succ_r in Hr. exact Hr.
      - lia.
      - exists b. split; [|exact Hne]. destruct (Nat.eq_dec b k) as [->|]; [|lia]. rewrite Em in Hne. congruence. }
    unfold enum. rewrite (G dm 0 k0 (fun j m H => H) Hdm); [reflexivity|]. destruct Hx as (b & H1 & H2). exists b. split; [lia|exact H2].
  Qed.
End Trace.

Section Qn.
  Context (S : scalar_ops) (L : scalar_laws S) (E : energy_ops S).
  Local Open Scope K_scope.
  Add Ring Kring11 : (sl_ring S L).
  Variable l : fops.
  Variable d : Z.
  Hypothesis Hl : (length l <= 17)%nat.
  Hypothesis Hd : hs_dim (length l) = Ok d.
  Variable keep : N -> bool.
  Variable a : atom S E.
  Hypothesis F : atom_facts S E l d keep a.
  Notation elem := (elem S E l a).
  Notation nb := (n_blocks S E a).
  Notation size := (size_of S E a).
  Variable op : omap S.
  Variable e : expr S.
  Hypothesis Hue : forall x, uses e x -> In x l.
  Hypothesis Hev : eval e = Some op.
  Hypothesis Hop : op_ok S l op.
  Hypothesis Hts : terms_single S E l a op.
  Variable re : S -> S.
  Hypothesis Hre0 : re k0 = k0.
  Hypothesis Hre : forall x y, re (x + y) = re x + re y.
  Notation part_ok := (term_part S L E l d Hl Hd keep a F op Hop Hts).

  Lemma nth_map_seq n (f : nat -> S) i : i < n -> nth i (map f (seq 0 n)) k0 = f i.
  Proof.
    intros Hi. rewrite (nth_of_error _ i _ k0 (eq_trans (nth_error_map _ _ _) (f_equal (option_map _) (nth_error_nth' (seq 0 n) 0%nat (eq_ind_r (fun n => i < n) Hi (seq_length _ _)))))).
    rewrite seq_nth by exact Hi. reflexivity.
  Qed.
  Lemma qn_term_ok b v t : In t op -> b < nb -> length v = size b ->
    exists v', qn_term S E re a b (size b) (Ok v) t = Ok v' /\ length v' = size b /\
      forall i, i < size b -> nth i v' k0 = nth i v k0 + re (snd t * elem (word S (fst t)) b i b i).
  Proof.
    intros Ht Hb Hv. destruct (part_ok t b Ht Hb) as (r & Er & Hsh & Hp). unfold qn_term. cbn [bind]. rewrite Er. cbn [bind]. unfold part in Hp.
    assert (Zero : (forall i, i < size b -> elem (word S (fst t)) b i b i = k0) -> forall i, i < size b -> nth i v k0 = nth i v k0 + re (snd t * elem (word S (fst t)) b i b i)).
    { intros Hz i Hi. rewrite (Hz i Hi). assert (Q : snd t * k0 = (k0 : S)) by ring. rewrite Q, Hre0. ring. }
    destruct (snd r) as [M|].
    - destruct (Hsh M eq_refl) as (b1 & Ef & Hb1 & RM & CM). rewrite Ef in Hp |- *. destruct (Z.eqb_spec (Z.of_nat b1) (Z.of_nat b)) as [Q|Q].
      + apply Nat2Z.inj in Q. subst b1. rewrite RM, CM, Nat.leb_refl. cbn [andb]. eexists. split; [reflexivity|]. split; [rewrite map_length, seq_length; reflexivity|].
        intros i Hi. rewrite nth_map_seq by exact Hi. specialize (Hp b i i Hb Hi Hi). rewrite Z.eqb_refl in Hp. rewrite Hp. reflexivity.
      + exists v. split; [reflexivity|]. split; [exact Hv|]. apply Zero. intros i Hi. rewrite <- (Hp b i i Hb Hi Hi). destruct (Z.eqb_spec (Z.of_nat b1) (Z.of_nat b)); [contradiction|reflexivity].
    - exists v. split; [reflexivity|]. split; [exact Hv|]. apply Zero. intros i Hi. rewrite <- (Hp b i i Hb Hi Hi). reflexivity.
  Qed.
  Lemma qn_terms_ok b : b < nb -> forall rest v, (forall t, In t rest -> In t op) -> length v = size b ->
    exists v', fold_left (qn_term S E re a b (size b)) rest (Ok v) = Ok v' /\ length v' = size b /\
      forall i, i < size b -> nth i v' k0 = nth i v k0 + re (ksum (map (fun t : monomial * S => snd t * elem (word S (fst t)) b i b i) rest)).
  Proof.
    intros Hb. induction rest as [|t rest IH]; intros v Hin Hv; cbn [fold_left].
    - exists v. split; [reflexivity|]. split; [exact Hv|]. intros i Hi. cbn [map ksum]. rewrite Hre0. ring.
    - destruct (qn_term_ok b v t (Hin t (or_introl eq_refl)) Hb Hv) as (v1 & E1 & L1 & V1). rewrite E1.
      destruct (IH v1 (fun t' H => Hin t' (or_intror H)) L1) as (v2 & E2 & L2 & V2). exists v2. split; [exact E2|]. split; [exact L2|].
      intros i Hi. rewrite V2, V1 by exact Hi. cbn [map ksum]. rewrite Hre. ring.
  Qed.
  Lemma qn_block_ok b : b < nb -> exists v, qn_block S E re a op b = Ok v /\ length v = size b /\ forall i, i < size b -> nth i v k0 = re (elem e b i b i).
  Proof.
    intros Hb. unfold qn_block. rewrite (dim_ok S E l d keep a F b Hb). cbn [bind].
    destruct (qn_terms_ok b Hb op (repeat k0 (size b)) (fun t H => H) (repeat_length _ _)) as (v & Ev & Lv & Vv). exists v. split; [exact Ev|]. split; [exact Lv|].
    intros i Hi. rewrite Vv by exact Hi. rewrite nth_repeat, (elem_terms S L E l a op e Hue Hev b i b i). ring.
  Qed.
  Variable small : S -> bool.
  Lemma qn_values : (exists c, commutes_with_h S E small a op = Ok c) ->
    match commutes_with_h S E small a op with
    | Ok true => exists r, quantum_number_eigenvalues S E re small a op = Ok r /\ length r = nb /\
        forall b v, nth_error r b = Some v -> length v = size b /\ forall i, i < size b -> nth i v k0 = re (elem e b i b i)
    | _ => quantum_number_eigenvalues S E re small a op = Throw
    end.
  Proof.
    intros [c Hc]. unfold quantum_number_eigenvalues. rewrite Hc. cbn [bind]. destruct c; cbn [negb]; [|reflexivity].
    destruct (mapM_ok (qn_block S E re a op) (fun b v => length v = size b /\ forall i, i < size b -> nth i v k0 = re (elem e b i b i)) (seq 0 nb)) as (r & Er & Pr).
    { intros b Hb. apply in_seq in Hb. destruct (qn_block_ok b) as (v & H1 & H2); [lia|]. exists v. auto. }
    exists r. split; [exact Er|]. assert (Lr : length r = nb).
    { clear - Pr. assert (Q := seq_length nb 0). revert Q. generalize (seq 0 nb) Pr. clear. intros xs P Q. rewrite <- Q. clear Q. induction P; cbn; congruence. }
    split; [exact Lr|]. intros b v Hv. assert (Hb : b < nb) by (rewrite <- Lr; eapply nth_error_Some_lt; exact Hv).
    assert (Hs : nth_error (seq 0 nb) b = Some b) by (rewrite (nth_error_nth' _ 0%nat) by (rewrite seq_length; exact Hb); rewrite seq_nth by exact Hb; reflexivity).
    destruct (Forall2_nth _ _ _ _ _ Pr Hs) as (v' & Hv' & Pv). rewrite Hv in Hv'. injection Hv' as <-. exact Pv.
  Qed.
End Qn.
