(** Consequences for the constructors of atom_diag and its observers. *)
From Coq Require Import ZArith NArith List Arith Bool Lia Sorted Permutation Relations.
From Verif Require Import Base Indices Scalar Fock FockFacts OpModel OpExpr OpNormal Op_proofs Hilbert Hilbert_proofs
  State StateSpec State_proofs ImpOp ImpOp_proofs ImpOp_run ImpOp_thms Partition PartitionSpec Partition_proofs Partition_merge
  Partition_imp Partition_thms AtomDiag AtomDiagSpec AtomDiag_lists AtomDiag_terms AtomDiag_mats AtomDiag_complete AtomDiag_auto AtomDiag_thms.
Import ListNotations.
Local Open Scope nat_scope.

(** ---- flat numbering ---- *)
Definition total (ns : list nat) : nat := fold_right Nat.add 0 ns.
Lemma first_from_spec ns : forall k, length (first_from k ns) = length ns /\
  (forall b f n, nth_error (first_from k ns) b = Some f -> nth_error ns b = Some n -> k <= f /\ f + n <= k + total ns) /\
  (forall b b' f f' n, b < b' -> nth_error (first_from k ns) b = Some f -> nth_error (first_from k ns) b' = Some f' -> nth_error ns b = Some n -> f + n <= f') /\
  (forall p, k <= p < k + total ns -> exists b f n, nth_error (first_from k ns) b = Some f /\ nth_error ns b = Some n /\ f <= p < f + n).
Proof.
  induction ns as [|n ns IH]; intros k.
  - cbn. repeat split; try (intros b; destruct b; discriminate); intros; try lia; destruct b; discriminate.
  - cbn [first_from length total fold_right]. fold (total ns). destruct (IH (k + n)) as (I1 & I2 & I3 & I4). split; [lia|]. split; [|split].
    + intros [|b] f m H1 H2; cbn in H1, H2; [injection H1 as <-; injection H2 as <-; lia|]. specialize (I2 b f m H1 H2). lia.
    + intros [|b] [|b'] f f' m Hb H1 H2 H3; cbn in H1, H2, H3; try lia.
      * injection H1 as <-. injection H3 as <-. destruct (nth_error_lt ns b') as [m' Hm']; [apply nth_error_Some_lt in H2; lia|]. specialize (I2 b' f' m' H2 Hm'). lia.
      * apply (I3 b b' f f' m); auto. lia.
    + intros p Hp. destruct (Nat.lt_ge_cases p (k + n)) as [Hlt|Hge].
      * exists 0, k, n. cbn. split; [reflexivity|]. split; [reflexivity|lia].
      * destruct (I4 p) as (b & f & m & H1 & H2 & H3); [lia|]. exists (S b), f, m. cbn. auto.
Qed.

Section Flat.
  Context (S : scalar_ops) (E : energy_ops S).
  Variable a : atom S E.
  Hypothesis Hf : a_first S E a = fill_first S E (a_eigs S E a).
  Notation dims := (map (fun x => length (evals S E x)) (a_eigs S E a)).

  Lemma flatten_bijection :
    (forall b n i, dim_of S E a b = Ok n -> i < n -> exists p, flatten_subspace_index S E a b i = Ok p /\ p < total dims /\
       exists r, index_range_of_subspace S E a b = Ok r /\ fst r <= p < snd r) /\
    (forall b b' n n' i i' p, dim_of S E a b = Ok n -> dim_of S E a b' = Ok n' -> i < n -> i' < n' ->
       flatten_subspace_index S E a b i = Ok p -> flatten_subspace_index S E a b' i' = Ok p -> b = b' /\ i = i') /\
    (forall p, p < total dims -> exists b n i, dim_of S E a b = Ok n /\ i < n /\ flatten_subspace_index S E a b i = Ok p) /\
    (forall b n r, dim_of S E a b = Ok n -> index_range_of_subspace S E a b = Ok r -> snd r - fst r = n).
  Proof.
    destruct (first_from_spec dims 0) as (F1 & F2 & F3 & F4). fold (fill_first S E (a_eigs S E a)) in F1, F2, F3, F4. rewrite <- Hf in *.
    assert (D : forall b n, dim_of S E a b = Ok n <-> nth_error dims b = Some n).
    { intros b n. unfold dim_of. rewrite nth_error_map. destruct (nth_error (a_eigs S E a) b); cbn [option_map]; split; intros H; try discriminate H; injection H as <-; reflexivity. }
    assert (G : forall b n, nth_error dims b = Some n -> exists f, nth_error (a_first S E a) b = Some f).
    { intros b n H. apply nth_error_Some_lt in H. rewrite <- F1 in H. apply nth_error_lt; exact H. }
    assert (R : forall b n f, nth_error dims b = Some n -> nth_error (a_first S E a) b = Some f -> index_range_of_subspace S E a b = Ok (f, f + n)).
    { intros b n f H1 H2. unfold index_range_of_subspace. rewrite H2. rewrite nth_error_map in H1. destruct (nth_error (a_eigs S E a) b); [|discriminate H1].
      injection H1 as <-. reflexivity. }
    split; [|split; [|split]].
    - intros b n i H Hi. apply D in H. destruct (G b n H) as [f Hfb]. exists (f + i). unfold flatten_subspace_index. rewrite Hfb. split; [reflexivity|].
      specialize (F2 b f n Hfb H). split; [lia|]. exists (f, f + n). split; [apply R; assumption|]. cbn. lia.
    - intros b b' n n' i i' p H H' Hi Hi' P P'. apply D in H. apply D in H'. unfold flatten_subspace_index in P, P'.
      destruct (nth_error (a_first S E a) b) as [f|] eqn:Ef; [|discriminate P]. destruct (nth_error (a_first S E a) b') as [f'|] eqn:Ef'; [|discriminate P'].
      injection P as <-. injection P' as P'. destruct (lt_eq_lt_dec b b') as [[Hlt|Heq]|Hgt].
      + specialize (F3 b b' f f' n Hlt Ef Ef' H). lia.
      + subst b'. rewrite Ef in Ef'. injection Ef' as <-. split; [reflexivity|lia].
      + specialize (F3 b' b f' f n' Hgt Ef' Ef H'). lia.
    - intros p Hp. destruct (F4 p) as (b & f & n & H1 & H2 & H3); [lia|]. exists b, n, (p - f). split; [apply D; exact H2|]. split; [lia|].
      unfold flatten_subspace_index. rewrite H1. f_equal. lia.
    - intros b n r H Hr. apply D in H. destruct (G b n H) as [f Hfb]. rewrite (R b n f H Hfb) in Hr. injection Hr as <-. cbn. lia.
  Qed.
End Flat.

Section Vac.
  Context (S : scalar_ops) (E : energy_ops S).
  Variable a : atom S E.
  Variable d : Z.
  Hypothesis Hf : a_first S E a = fill_first S E (a_eigs S E a).
  Hypothesis Hv : (a_vac_index S E a, a_vac S E a) = compute_vacuum S E d (a_subs S E a) (a_eigs S E a) (a_first S E a).
  Hypothesis Hsub : forall b sp, nth_error (a_subs S E a) b = Some sp -> space_ok (Sub sp) /\ StronglySorted N.lt (sub_states sp).
  Hypothesis Hle : length (a_eigs S E a) = length (a_subs S E a).
  Hypothesis Hone : forall b b' sp sp', nth_error (a_subs S E a) b = Some sp -> nth_error (a_subs S E a) b' = Some sp' ->
    In 0%N (sub_states sp) -> In 0%N (sub_states sp') -> b = b'.
  Hypothesis Hsz : total (map (fun x => length (evals S E x)) (a_eigs S E a)) <= Z.to_nat d.

  Lemma vacuum_spec :
    (forall b, a_vac_index S E a = Some b <-> exists B ev u, block S E a b B ev u /\ In 0%N B) /\
    (forall b i p B ev u q, block S E a b B ev u -> i < length ev -> flatten_subspace_index S E a b i = Ok p ->
       nth_error B q = Some 0%N -> nth_error (a_vac S E a) p = Some (kconj (m_at u q i))) /\
    (forall b i p B ev u, block S E a b B ev u -> i < length ev -> flatten_subspace_index S E a b i = Ok p ->
       ~ In 0%N B -> nth_error (a_vac S E a) p = Some k0).
  Proof.
    assert (Hm : forall b sp, nth_error (a_subs S E a) b = Some sp -> (sub_has sp 0 = true <-> In 0%N (sub_states sp))).
    { intros b sp H. destruct (Hsub b sp H) as [(idx & fs & Hn & ->) _]. destruct (thm_sub_bijection idx fs Hn) as (_ & _ & Es & Hh & _). rewrite Es. apply Hh. }
    assert (Hb : forall b, vacuum_block (a_subs S E a) = Some b <-> exists sp, nth_error (a_subs S E a) b = Some sp /\ In 0%N (sub_states sp)).
    { intros b. unfold vacuum_block. destruct (filter (fun ks : nat * sub_hs => sub_has (snd ks) 0) (enum (a_subs S E a))) as [|[k sp] r] eqn:Ef.
      - split; [discriminate|]. intros (sp & H1 & H2). exfalso. assert (Hin : In (b, sp) []); [|exact Hin]. rewrite <- Ef. apply filter_In.
        split; [apply enum_In; exact H1|]. apply (Hm b sp H1). exact H2.
      - assert (Hin : In (k, sp) ((k, sp) :: r)) by (left; reflexivity). rewrite <- Ef in Hin. apply filter_In in Hin. destruct Hin as [H1 H2].
        apply enum_In in H1. cbn [snd] in H2. apply (Hm k sp H1) in H2. cbn [fst]. split.
        + intros H. injection H as <-. eauto.
        + intros (sp' & H1' & H2'). f_equal. apply (Hone k b sp sp'); assumption. }
    assert (Bk : forall b sp, nth_error (a_subs S E a) b = Some sp -> exists x, nth_error (a_eigs S E a) b = Some x).
    { intros b sp H. apply nth_error_lt. rewrite Hle. eapply nth_error_Some_lt; exact H. }
    unfold compute_vacuum in Hv.
    destruct (first_from_spec (map (fun x => length (evals S E x)) (a_eigs S E a)) 0) as (F1 & F2 & F3 & F4).
    fold (fill_first S E (a_eigs S E a)) in F1, F2, F3, F4. rewrite <- Hf in *.
    assert (Fl : forall b i p B ev u, block S E a b B ev u -> i < length ev -> flatten_subspace_index S E a b i = Ok p ->
       exists f, nth_error (a_first S E a) b = Some f /\ p = f + i /\ p < Z.to_nat d /\ nth_error (map (fun x => length (evals S E x)) (a_eigs S E a)) b = Some (length ev)).
    { intros b i p B ev u (sp & es & X1 & X2 & X3 & X4 & X5) Hi Hp. unfold flatten_subspace_index in Hp. destruct (nth_error (a_first S E a) b) as [f|] eqn:Ef; [|discriminate Hp].
      injection Hp as <-. exists f. assert (Hn : nth_error (map (fun x => length (evals S E x)) (a_eigs S E a)) b = Some (length ev)) by (rewrite nth_error_map, X2; cbn; congruence).
      specialize (F2 b f _ Ef Hn). split; [reflexivity|]. split; [reflexivity|]. split; [lia|exact Hn]. }
    assert (Iff : forall b, a_vac_index S E a = Some b <-> vacuum_block (a_subs S E a) = Some b).
    { intros b. destruct (vacuum_block (a_subs S E a)); injection Hv as -> _; split; congruence. }
    split; [|split].
    - intros b. rewrite Iff, Hb. split.
      + intros (sp & H1 & H2). destruct (Bk b sp H1) as [x Hx]. exists (sub_states sp), (evals S E x), (umat S E x). split; [|exact H2]. exists sp, x. auto.
      + intros (B & ev & u & (sp & es & X1 & X2 & X3 & X4 & X5) & H2). exists sp. subst B. auto.
    - intros b i p B ev u q HB Hi Hp Hq. destruct (Fl b i p B ev u HB Hi Hp) as (f & Ef & -> & Hpd & Hn). destruct HB as (sp & es & X1 & X2 & X3 & X4 & X5).
      assert (Hin : In 0%N (sub_states sp)) by (rewrite X3; eapply nth_error_In; exact Hq).
      assert (Vb : vacuum_block (a_subs S E a) = Some b) by (apply Hb; eauto).
      rewrite Vb in Hv. injection Hv as _ Hv. rewrite Hv. rewrite nth_error_map.
      rewrite (nth_error_nth' (seq 0 (Z.to_nat d)) 0) by (rewrite seq_length; exact Hpd). rewrite seq_nth by exact Hpd. cbn [option_map plus].
      rewrite (nth_of_error _ _ _ _ Ef), (nth_of_error _ _ _ _ X2). rewrite X4, X5.
      destruct (Nat.leb_spec f (f + i)); [|lia]. destruct (Nat.ltb_spec (f + i) (f + length ev)); [|lia]. cbn [andb m_at m_dag]. f_equal. f_equal.
      replace (f + i - f) with i by lia. f_equal.
      (* 0 is the first of an increasing list *)
      destruct (Hsub b sp X1) as [_ Ss]. rewrite X3 in Ss. destruct q as [|q]; [reflexivity|]. exfalso. destruct B as [|x B]; [discriminate|]. cbn in Hq.
      inversion_clear Ss as [|? ? _ HF]. rewrite Forall_forall in HF. apply nth_error_In in Hq. specialize (HF _ Hq). lia.
    - intros b i p B ev u HB Hi Hp Hno. destruct (Fl b i p B ev u HB Hi Hp) as (f & Ef & -> & Hpd & Hn). destruct HB as (sp & es & X1 & X2 & X3 & X4 & X5).
      destruct (vacuum_block (a_subs S E a)) as [b0|] eqn:Vb.
      + destruct (proj1 (Hb b0) eq_refl) as (sp0 & S1 & S2). injection Hv as _ Hv. rewrite Hv, nth_error_map.
        rewrite (nth_error_nth' (seq 0 (Z.to_nat d)) 0) by (rewrite seq_length; exact Hpd). rewrite seq_nth by exact Hpd. cbn [option_map plus].
        destruct (Bk b0 sp0 S1) as [x Hx]. assert (Hn0 : nth_error (map (fun x => length (evals S E x)) (a_eigs S E a)) b0 = Some (length (evals S E x))) by (rewrite nth_error_map, Hx; reflexivity).
        destruct (nth_error_lt (a_first S E a) b0) as [f0 Hf0]; [rewrite F1; eapply nth_error_Some_lt; exact Hn0|].
        rewrite (nth_of_error _ _ _ _ Hf0), (nth_of_error _ _ _ _ Hx).
        destruct (Nat.leb_spec f0 (f + i)); cbn [andb]; [|reflexivity]. destruct (Nat.ltb_spec (f + i) (f0 + length (evals S E x))); [|reflexivity]. exfalso.
        destruct (lt_eq_lt_dec b b0) as [[Hlt|Heq]|Hgt].
        * specialize (F3 b b0 f f0 _ Hlt Ef Hf0 Hn). lia.
        * subst b0. rewrite X1 in S1. injection S1 as <-. rewrite X3 in S2. contradiction.
        * specialize (F3 b0 b f0 f _ Hgt Hf0 Ef Hn0). lia.
      + injection Hv as _ Hv. rewrite Hv. rewrite (nth_error_nth' (repeat k0 (Z.to_nat d)) k0) by (rewrite repeat_length; exact Hpd). f_equal. apply nth_repeat.
  Qed.
End Vac.

Lemma NoDup_app' {A} (l1 l2 : list A) : NoDup l1 -> NoDup l2 -> (forall x, In x l1 -> ~ In x l2) -> NoDup (l1 ++ l2).
Proof.
  induction 1 as [|x l1 Hx _ IH]; intros H2 H; [exact H2|]. cbn. constructor.
  - intros Hin. apply in_app_iff in Hin. destruct Hin as [Hin|Hin]; [contradiction|]. apply (H x); [left; reflexivity|exact Hin].
  - apply IH; [exact H2|]. intros y Hy. apply H. right; exact Hy.
Qed.

Section Ctor.
  Context (S : scalar_ops) (L : scalar_laws S) (E : energy_ops S) (EL : energy_laws S E).
  Variable l : fops.
  Variable d : Z.
  Hypothesis Hl : (length l <= 17)%nat.
  Hypothesis Hnd : NoDup l.
  Hypothesis Hd : hs_dim (length l) = Ok d.
  Variable choose : labels -> nat -> nat -> bool.
  Variable norm : labels -> labels.
  Hypothesis Nok : norm_ok norm.
  Variable eigen : mat S -> list E * mat S.
  Variables (e eh : expr S) (op hop : omap S).
  Hypothesis Hu : forall j, uses e j -> In j l.
  Hypothesis He : eval e = Some op.
  Hypothesis Huh : forall j, uses eh j -> In j l.
  Hypothesis Heh : eval eh = Some hop.
  Hypothesis Sv : solves S E l e eigen.
  Notation size := (Z.to_nat d).

  Definition aligned (a : atom S E) : Prop :=
    a_first S E a = fill_first S E (a_eigs S E a) /\ a_h S E a = op /\ a_fops S E a = l /\ a_dim S E a = d /\
    (a_vac_index S E a, a_vac S E a) = compute_vacuum S E d (a_subs S E a) (a_eigs S E a) (a_first S E a) /\
    (forall b sp, nth_error (a_subs S E a) b = Some sp -> space_ok (Sub sp) /\ sub_index sp = Z.of_nat b) /\
    sorted_by_energy S E a.

  Lemma ctor n_min n_max :
    (forall s, merges S kisz choose norm (s0 S l d choose norm op hop) (pairs_of S l d l) = Some s -> forall i j, i < size -> j < size -> lookup_basis_state s i = lookup_basis_state s j ->
       fock_filter n_min n_max (N.of_nat i) = fock_filter n_min n_max (N.of_nat j)) ->
    exists s a, autopartition S E eigen choose norm l op hop n_min n_max = Ok a /\
      merges S kisz choose norm (s0 S l d choose norm op hop) (pairs_of S l d l) = Some s /\
      good S E l e n_min n_max s a /\ aligned a.
  Proof.
    intros Hk. destruct (auto_final S L E EL l d Hl Hnd Hd choose norm Nok eigen e eh op hop Hu He Huh Heh Sv n_min n_max Hk)
      as (s & a & ord & C1 & C2 & C3 & P & Hat & Hord & F1 & F2 & F3 & F4 & F5).
    exists s, a. split; [exact C1|]. split; [exact C2|]. split; [exact C3|]. set (ss := subs S n_min n_max s) in *.
    destruct C3 as ((Bc1 & Bc2 & Bc3 & Bc4) & _).
    assert (Blk : forall b, b < n_blocks S E a -> exists B ev u, block S E a b B ev u).
    { intros b Hb. unfold n_blocks in Hb. destruct (nth_error_lt (a_eigs S E a) b Hb) as [x Hx]. rewrite Bc4 in Hb. destruct (nth_error_lt (a_subs S E a) b Hb) as [sp Hsp].
      exists (sub_states sp), (evals S E x), (umat S E x). exists sp, x. auto. }
    assert (Nb : n_blocks S E a = length ss).
    { destruct (Nat.lt_trichotomy (n_blocks S E a) (length ss)) as [H|[H|H]]; [|exact H|].
      - (* a block of ord with no position *)
        exfalso. destruct (partition_made S L l d Hl Hd choose norm Nok e eh op hop Hu He Huh Heh) as (s1 & mes & M1 & M2 & Is & Lm & Hm).
        rewrite C2 in M2. injection M2 as <-.
        destruct (auto_with S L E EL l d Hl Hnd Hd choose norm Nok eigen e eh op hop Hu He Huh Heh Sv n_min n_max s mes C2 Is Lm Hm (Hk s C2)) as (a' & ord' & C' & G' & P' & _).
        destruct (nth_error_lt ord (n_blocks S E a)) as [k Hk']; [rewrite (ord_len _ _ P); exact H|].
        pose proof (ord_lt _ _ P _ _ Hk') as Hkn. fold ss in Hkn. destruct (nth_error_lt ss k Hkn) as [sp Hsp].
        destruct (subs_nth S d n_min n_max s Is k sp Hsp) as (q & K1 & K2 & K3 & _). destruct (sub_states sp) as [|f r] eqn:Es; [rewrite <- K2 in K3; congruence|].
        assert (Hf : In f (cls (lookup_basis_state s) (fock_filter n_min n_max) (seq 0 size) q)) by (rewrite <- K2; left; reflexivity).
        apply (Bk_In S l d Hl Hd n_min n_max s mes Lm) in Hf. destruct Hf as (X1 & X2 & X3).
        destruct (proj2 (Bc1 f) (conj X1 X2)) as (b & B & ev & u & Hb & Hf'). destruct (Hat b B ev u Hb) as (k2 & sp2 & ev2 & (A1 & A2 & _) & HB).
        fold ss in A2. destruct (subs_nth S d n_min n_max s Is k2 sp2 A2) as (q2 & K1' & K2' & _). rewrite <- HB, K2' in Hf'. apply (Bk_In S l d Hl Hd n_min n_max s mes Lm) in Hf'.
        destruct Hf' as (_ & _ & X3'). assert (q2 = q) by congruence. subst q2. assert (k2 = k).
        { pose proof (kept_nodup S d n_min n_max s Is) as ND. rewrite NoDup_nth_error in ND. apply ND; [eapply nth_error_Some_lt; exact K1'|congruence]. }
        subst k2. assert (b = n_blocks S E a).
        { pose proof (ord_nodup _ _ P) as ND. rewrite NoDup_nth_error in ND. apply ND; [eapply nth_error_Some_lt; exact A1|congruence]. }
        destruct Hb as (y1 & y2 & _ & Y2 & _). apply nth_error_Some_lt in Y2. unfold n_blocks in *. lia.
      - exfalso. destruct (Blk (length ss) H) as (B & ev & u & Hb). destruct (Hat _ B ev u Hb) as (k & sp & ev0 & (A1 & _) & _).
        apply nth_error_Some_lt in A1. rewrite (ord_len _ _ P) in A1. lia. }
    split; [exact F4|]. split; [exact F1|]. split; [exact F2|]. split; [exact F3|]. split; [exact F5|]. split.
    - intros b sp Hsp. assert (Hb : b < n_blocks S E a) by (unfold n_blocks; rewrite Bc4; eapply nth_error_Some_lt; exact Hsp).
      destruct (Blk b Hb) as (B & ev & u & HB). destruct (Hat b B ev u HB) as (k & sp0 & ev0 & (A1 & A2 & A3 & _) & _). rewrite Hsp in A3. injection A3 as ->.
      split; [|reflexivity]. apply set_index_ok.
      destruct (partition_made S L l d Hl Hd choose norm Nok e eh op hop Hu He Huh Heh) as (s1 & mes & M1 & M2 & Is & Lm & Hm). rewrite C2 in M2. injection M2 as <-.
      destruct (subs_nth S d n_min n_max s Is k sp0 A2) as (q & _ & _ & _ & K4). exact K4.
    - exists (fun b => nth b ord 0). rewrite Nb. split; [|split].
      + intros b b' Hb Hb' Hn. pose proof (ord_nodup _ _ P) as ND. rewrite (NoDup_nth ord 0) in ND. apply ND; try (rewrite (ord_len _ _ P); assumption). exact Hn.
      + intros b Hb. destruct (ord_at _ _ P b Hb) as (k & K1 & _ & K2). rewrite (nth_of_error _ _ _ _ K1). exact K2.
      + intros g b b' B B' ev ev' u u' x x' Hg Hbb Hb Hb' H0 H0'.
        destruct (Hat b B ev u Hb) as (k & sp & ev0 & At & HB). destruct (Hat b' B' ev' u' Hb') as (k' & sp' & ev0' & At' & HB').
        assert (K1 : nth_error ord b = Some k) by apply At. assert (K2 : nth_error ord b' = Some k') by apply At'.
        rewrite (nth_of_error _ _ _ _ K1), (nth_of_error _ _ _ _ K2).
        assert (X : forall b B ev u k sp ev0 x, block S E a b B ev u -> at_new S E l e ss a ord b k sp ev0 u -> nth_error ev 0 = Some (e_sub x g) -> nth_error ev0 0 = Some x).
        { intros b1 B1 ev1 u1 k1' sp1 ev01 x1 (z1 & z2 & Z1 & Z2 & Z3 & Z4 & Z5) (_ & _ & _ & g1 & G1 & G2 & _) Hx. rewrite Hg in G1. injection G1 as <-.
          rewrite G2 in Z2. injection Z2 as <-. cbn [evals] in Z4. subst ev1. rewrite nth_error_map in Hx. destruct (nth_error ev01 0) as [y|]; [|discriminate Hx].
          cbn in Hx. injection Hx as Hx. f_equal. apply (el_total S E EL).
          - rewrite <- (el_sub_lt S E EL y x1 g), Hx. apply (el_irrefl S E EL).
          - rewrite <- (el_sub_lt S E EL x1 y g), Hx. apply (el_irrefl S E EL). }
        pose proof (X b B ev u k sp ev0 x Hb At H0) as X0. pose proof (X b' B' ev' u' k' sp' ev0' x' Hb' At' H0') as X0'.
        pose proof (Hord b b' k k' sp sp' ev0 ev0' u u' x x' Hbb At At' X0 X0') as Q. unfold em_lt in Q. cbn [fst snd] in Q.
        destruct (e_lt (e_add x (e_split E k)) (e_add x' (e_split E k'))) eqn:Q1.
        * destruct (e_lt (e_add x' (e_split E k')) (e_add x (e_split E k))) eqn:Q2; [|reflexivity].
          pose proof (el_trans S E EL _ _ _ Q1 Q2) as Q3. rewrite (el_irrefl S E EL) in Q3. discriminate Q3.
        * destruct (e_lt (e_add x' (e_split E k')) (e_add x (e_split E k))); [discriminate Q|reflexivity].
  Qed.

  (** the total number of eigenstates is the number of states kept *)
  Lemma total_states (a : atom S E) keep : blocks_cover S E (length l) keep a ->
    (forall b B ev u, block S E a b B ev u -> length ev = length B) ->
    total (map (fun x => length (evals S E x)) (a_eigs S E a)) = length (filter (fun i => keep (N.of_nat i)) (seq 0 size)).
  Proof.
    intros (B1 & B2 & B3 & B4) Hlen.
    assert (T : total (map (fun x => length (evals S E x)) (a_eigs S E a)) = length (concat (map sub_states (a_subs S E a)))).
    { assert (G : forall (es : list (eigsys S E)) (ss : list sub_hs), length es = length ss ->
        (forall b sp x, nth_error ss b = Some sp -> nth_error es b = Some x -> length (evals S E x) = length (sub_states sp)) ->
        total (map (fun x => length (evals S E x)) es) = length (concat (map sub_states ss))).
      { induction es as [|x es IH]; intros [|sp ss] HL H; try discriminate HL; [reflexivity|]. cbn [map concat total fold_right]. rewrite app_length.
        rewrite (H 0 sp x eq_refl eq_refl). f_equal. apply IH; [injection HL as HL; exact HL|]. intros b. apply (H (Datatypes.S b)). }
      apply G; [exact B4|]. intros b sp x H1 H2. apply (Hlen b (sub_states sp) (evals S E x) (umat S E x)). exists sp, x. auto. }
    rewrite T. rewrite <- (map_length N.of_nat). apply Nat.le_antisymm.
    - apply NoDup_incl_length.
      + assert (G : forall ss : list sub_hs, (forall sp, In sp ss -> NoDup (sub_states sp)) ->
          (forall b b' sp sp' f, nth_error ss b = Some sp -> nth_error ss b' = Some sp' -> In f (sub_states sp) -> In f (sub_states sp') -> b = b') ->
          NoDup (concat (map sub_states ss))).
        { induction ss as [|sp ss IH]; intros H1 H2; [constructor|]. cbn [map concat]. apply NoDup_app'.
          - apply H1. left; reflexivity.
          - apply IH; [intros; apply H1; right; assumption|]. intros b b' sp1 sp2 f Q1 Q2 Q3 Q4. specialize (H2 (Datatypes.S b) (Datatypes.S b') sp1 sp2 f Q1 Q2 Q3 Q4). lia.
          - intros f Hf Hc. apply in_concat in Hc. destruct Hc as (x & Hx & Hfx). apply in_map_iff in Hx. destruct Hx as (sp' & <- & Hsp). apply In_nth_error in Hsp.
            destruct Hsp as [b Hb]. specialize (H2 0 (Datatypes.S b) sp sp' f eq_refl Hb Hf Hfx). lia. }
        assert (Bl : forall b sp, nth_error (a_subs S E a) b = Some sp -> exists ev u, block S E a b (sub_states sp) ev u).
        { intros b sp Hsp. destruct (nth_error_lt (a_eigs S E a) b) as [x Hx]; [rewrite B4; eapply nth_error_Some_lt; exact Hsp|]. exists (evals S E x), (umat S E x), sp, x. auto. }
        apply G.
        * intros sp Hsp. apply In_nth_error in Hsp. destruct Hsp as [b Hb]. destruct (Bl b sp Hb) as (ev & u & HB). apply sorted_nodup. apply (B2 b _ ev u HB).
        * intros b b' sp sp' f Q1 Q2 Q3 Q4. destruct (Bl b sp Q1) as (ev & u & HB). destruct (Bl b' sp' Q2) as (ev' & u' & HB'). exact (B3 b b' _ _ _ _ _ _ f HB HB' Q3 Q4).
      + intros f Hf. apply in_concat in Hf. destruct Hf as (x & Hx & Hfx). apply in_map_iff in Hx. destruct Hx as (sp & <- & Hsp). apply In_nth_error in Hsp. destruct Hsp as [b Hb].
        destruct (nth_error_lt (a_eigs S E a) b) as [x Hx]; [rewrite B4; eapply nth_error_Some_lt; exact Hb|].
        destruct (proj1 (B1 f)) as [X1 X2]. { exists b, (sub_states sp), (evals S E x), (umat S E x). split; [|exact Hfx]. exists sp, x. auto. }
        apply in_map_iff. exists (N.to_nat f). rewrite N2Nat.id. split; [reflexivity|]. apply filter_In. rewrite N2Nat.id. split; [|exact X2].
        apply in_seq. split; [lia|]. cbn. apply (size_lt l d Hl Hd). rewrite N2Nat.id. exact X1.
    - apply NoDup_incl_length.
      + apply FinFun.Injective_map_NoDup; [intros x y; apply Nat2N.inj|]. apply NoDup_filter, seq_NoDup.
      + intros f Hf. apply in_map_iff in Hf. destruct Hf as (i & <- & Hi). apply filter_In in Hi. destruct Hi as [Hi Hk]. apply in_seq in Hi.
        destruct (proj2 (B1 (N.of_nat i))) as (b & B & ev & u & (sp & x & X1 & X2 & X3 & _) & HB). { split; [apply (size_lt l d Hl Hd); lia|exact Hk]. }
        apply in_concat. exists B. split; [|exact HB]. apply in_map_iff. exists sp. split; [exact X3|eapply nth_error_In; exact X1].
  Qed.

  (** number conservation makes the filter drop whole subspaces *)
  Lemma conserve_blocks n_min n_max s : conserves_number S l e -> hop = [] ->
    merges S kisz choose norm (s0 S l d choose norm op hop) (pairs_of S l d l) = Some s -> forall i j, i < size -> j < size -> lookup_basis_state s i = lookup_basis_state s j ->
       fock_filter n_min n_max (N.of_nat i) = fock_filter n_min n_max (N.of_nat j).
  Proof.
    intros Hc Hh Hm i j Hi Hj Q. assert (C : count (N.of_nat i) = count (N.of_nat j)); [|unfold fock_filter; rewrite C; reflexivity].
    destruct (cols_spec S L l d Hl Hd e op Hu He) as (H1 & _ & _).
    destruct (new_indexed S kisz choose norm Nok size (imp_cols S l op d) None false H1 Logic.I) as [I0 K0].
    rewrite Hh in Hm. unfold s0, hyb_cols in Hm.
    refine (merges_count S L l d Hl Hd choose norm Nok l (incl_refl l) _ s I0 _ Hm i j Hi Hj Q).
    intros x y Hx Hy Qx. apply (lookup_same S size _ x y I0 Hx Hy) in Qx. apply (K0 x y Hx Hy) in Qx. clear Hx Hy.
    induction Qx as [x y [Hx Hs]|x|x y _ IH|x y z _ IH1 _ IH2]; [|reflexivity|symmetry; assumption|congruence].
    destruct Hs as [Hs|[]]. apply (cols_nonzero S L l d Hl Hd e op Hu He x y Hx) in Hs. destruct Hs as [Hy Hz].
    assert (Fx : (N.of_nat x < 2 ^ N.of_nat (length l))%N) by (apply (size_lt l d Hl Hd); exact Hx).
    assert (Fy : (N.of_nat y < 2 ^ N.of_nat (length l))%N) by (apply (size_lt l d Hl Hd); exact Hy).
    assert (H64 : length l <= 64) by lia.
    rewrite (count_particles _ _ H64 Fx), (count_particles _ _ H64 Fy). symmetry. apply (Hc _ _ Fx Fy Hz).
  Qed.

  (** the three constructors *)
  Lemma ctor_all (Hh : hop = [] \/ True) : exists a, atom_diag_hyb S E eigen choose norm op hop l = Ok a /\ represents S E l e (fun _ => true) a /\ aligned a.
  Proof.
    unfold atom_diag_hyb. destruct (ctor 0 (2 ^ 31 - 1)) as (s & a & C1 & _ & (G1 & _ & G2 & G3 & G4 & G5) & C3).
    { intros s _ i j _ _ _. rewrite !keep_any. reflexivity. }
    exists a. split; [exact C1|]. split; [|exact C3]. split; [|auto]. destruct G1 as (B1 & B2). split; [|exact B2].
    intros f. rewrite (B1 f), keep_any. reflexivity.
  Qed.
  Lemma ctor_range n_min n_max : conserves_number S l e -> hop = [] -> (0 <= n_min < 2 ^ 31)%Z -> (0 <= n_max < 2 ^ 31)%Z ->
    exists a, atom_diag_filter S E eigen choose norm op l n_min n_max = Ok a /\ represents S E l e (in_range (length l) n_min n_max) a /\ aligned a.
  Proof.
    intros Hc Hh H1 H2. unfold atom_diag_filter. rewrite <- Hh. destruct (ctor n_min n_max) as (s & a & C1 & _ & (G1 & _ & G2 & G3 & G4 & G5) & C3).
    { intros s Hs. apply conserve_blocks; assumption. }
    exists a. split; [exact C1|]. split; [|exact C3]. split; [|auto]. destruct G1 as (B1 & B2). split; [|exact B2].
    intros f. rewrite (B1 f). assert (H64 : length l <= 64) by lia. split; intros [Q1 Q2]; (split; [exact Q1|]).
    - rewrite <- (keep_range (length l) n_min n_max f H64 Q1 H1 H2). exact Q2.
    - rewrite (keep_range (length l) n_min n_max f H64 Q1 H1 H2). exact Q2.
  Qed.

  (** a negative minimum: as a size_t it is above every count *)
  Lemma ctor_negative n_min n_max : hop = [] -> (- 2 ^ 31 <= n_min < 0)%Z ->
    exists a, atom_diag_filter S E eigen choose norm op l n_min n_max = Ok a /\ n_blocks S E a = 0.
  Proof.
    intros Hh H1. unfold atom_diag_filter. rewrite <- Hh.
    assert (K : forall f, fock_filter n_min n_max f = false).
    { intros f. unfold fock_filter. assert (W : (64 < wrap64 n_min)%Z).
      { unfold wrap64. change (- 2 ^ 31)%Z with (-2147483648)%Z in H1. change two64 with 18446744073709551616%Z.
        replace (n_min mod 18446744073709551616)%Z with (n_min + 18446744073709551616)%Z; [lia|]. apply Z.mod_unique with (q := (-1)%Z); lia. }
      pose proof (pop_le 64 f) as P. unfold count. destruct (Z.leb_spec (wrap64 n_min) (Z.of_nat (pop 64 f))); [lia|reflexivity]. }
    destruct (ctor n_min n_max) as (s & a & C1 & _ & ((B1 & B2 & _ & B4) & _) & _).
    { intros s _ i j _ _ _. rewrite !K. reflexivity. }
    exists a. split; [exact C1|]. unfold n_blocks. rewrite B4. destruct (a_subs S E a) as [|sp ss] eqn:Es; [reflexivity|]. exfalso.
    destruct (a_eigs S E a) as [|x xs] eqn:Ex; [discriminate B4|].
    assert (HB : block S E a 0 (sub_states sp) (evals S E x) (umat S E x)) by (exists sp, x; rewrite Es, Ex; auto).
    destruct (B2 _ _ _ _ HB) as [_ Hne]. destruct (sub_states sp) as [|f fs]; [congruence|].
    destruct (proj1 (B1 f)) as [_ Q]; [exists 0, (f :: fs), (evals S E x), (umat S E x); split; [exact HB|left; reflexivity]|]. rewrite K in Q. discriminate Q.
  Qed.
End Ctor.

Section Lost.
  Context (S : scalar_ops) (L : scalar_laws S) (E : energy_ops S).
  Lemma lost_iff l (a : atom S E) conn mats eo n o : operator_represented S E l a conn mats eo -> nth_error l n = Some o ->
    (no_element_lost S E l a conn n (eo o) <-> single_target S E l a (eo o)).
  Proof.
    intros H Hn. split.
    - intros NL b b1 b2 B B1 B2 ev ev1 ev2 u u1 u2 f f' g1 g2 Hb H1 H2 Hf Hf' Hg1 Hg2 Z1 Z2.
      pose proof (NL b b1 B B1 ev ev1 u u1 f g1 Hb H1 Hf Hg1 Z1) as C1. pose proof (NL b b2 B B2 ev ev2 u u2 f' g2 Hb H2 Hf' Hg2 Z2) as C2.
      rewrite C1 in C2. injection C2 as C2. lia.
    - intros ST b b' B B' ev ev' u u' f f' Hb Hb' Hf Hf' Z. destruct (H n o b B ev u Hn Hb) as (c & Hc & [(-> & _ & Hz)|(b2 & B2 & ev2 & u2 & M & -> & Hb2 & _ & (f2 & g2 & F2 & G2 & Z2) & _)]).
      + exfalso. apply Z. eapply Hz; eassumption.
      + rewrite Hc. f_equal. f_equal. exact (ST b b2 b' B B2 B' ev ev2 ev' u u2 u' f2 f g2 f' Hb Hb2 Hb' F2 Hf G2 Hf' Z2 Z).
  Qed.
End Lost.

Lemma dim_small (l : fops) : length l <= 17 -> exists d, hs_dim (length l) = Ok d.
Proof.
  intros H. do 18 (destruct l as [|? l]; [eexists; reflexivity|]). cbn [length] in H. lia.
Qed.
Lemma scal0 (S : scalar_ops) : scalar_laws S -> eval (EScal (k0 : S)) = Some [].
Proof. intros L. cbn. unfold op_scalar. rewrite (proj2 (sl_isz S L k0) eq_refl). reflexivity. Qed.

Lemma dim_pow (l : fops) d : length l <= 17 -> hs_dim (length l) = Ok d -> Z.to_nat d = 2 ^ length l.
Proof.
  intros Hl Hd. assert (H30 : length l <= 30) by lia. destruct (thm_hs_bijection (length l) d H30 Hd) as (-> & _).
  change 2%Z with (Z.of_nat 2). rewrite <- Nat2Z.inj_pow. apply Nat2Z.id.
Qed.
Lemma represents_total S E l d (Hl : length l <= 17) (Hd : hs_dim (length l) = Ok d) e keep (a : atom S E) : represents S E l e keep a ->
  total (map (fun x => length (evals S E x)) (a_eigs S E a)) = length (filter (fun i => keep (N.of_nat i)) (seq 0 (Z.to_nat d))).
Proof.
  intros (R1 & R2 & _). apply (total_states S E l d Hl Hd); [exact R1|]. intros b B ev u HB. destruct (proj1 R2 b B ev u HB) as (g & _ & D1 & _). exact D1.
Qed.
Lemma filter_length_le' {A} (f : A -> bool) l : length (filter f l) <= length l.
Proof. induction l as [|x l IH]; [reflexivity|]. cbn. destruct (f x); cbn; lia. Qed.
