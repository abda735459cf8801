(** complete(): diagonalization and reordering of given subspaces. *)
From Coq Require Import ZArith NArith List Arith Bool Lia Sorted Permutation.
From Verif Require Import Base Indices Scalar Fock FockFacts OpModel OpExpr OpNormal Op_proofs Hilbert Hilbert_proofs
  State StateSpec State_proofs ImpOp ImpOp_proofs ImpOp_run ImpOp_thms Partition Partition_imp AtomDiag AtomDiagSpec AtomDiag_lists
  AtomDiag_terms AtomDiag_mats.
Import ListNotations.
Local Open Scope nat_scope.

Lemma set_index_states i s : sub_states (set_index i s) = sub_states s. Proof. reflexivity. Qed.
Lemma set_index_ok i s : space_ok (Sub s) -> space_ok (Sub (set_index i s)).
Proof.
  intros (idx & fs & H & ->). exists (Z.of_nat i), fs. split; [exact H|].
  assert (G : forall fs s t, sub_states s = sub_states t -> sub_map s = sub_map t ->
    sub_states (sub_adds s fs) = sub_states (sub_adds t fs) /\ sub_map (sub_adds s fs) = sub_map (sub_adds t fs)).
  { clear. induction fs as [|f fs IH]; intros s t H1 H2; [auto|]. unfold sub_adds. cbn [fold_left]. apply IH; unfold sub_add; cbn; congruence. }
  assert (Ix : forall fs s, sub_index (sub_adds s fs) = sub_index s).
  { clear. induction fs as [|f fs IH]; intros s; [reflexivity|]. unfold sub_adds in *. cbn [fold_left]. rewrite IH. reflexivity. }
  destruct (G fs (sub_new idx) (sub_new (Z.of_nat i)) eq_refl eq_refl) as [G1 G2].
  unfold set_index. rewrite G1, G2. specialize (Ix fs (sub_new (Z.of_nat i))). destruct (sub_adds (sub_new (Z.of_nat i)) fs). cbn in *. congruence.
Qed.

Section Complete.
  Context (S : scalar_ops) (L : scalar_laws S) (E : energy_ops S) (EL : energy_laws S E).
  Local Open Scope K_scope.
  Add Ring Kring4 : (sl_ring S L).
  Variable l : fops.
  Variable d : Z.
  Hypothesis Hl : (length l <= 17)%nat.
  Hypothesis Hd : hs_dim (length l) = Ok d.
  Notation pos := (mode l).
  Variable eigen : mat S -> list E * mat S.
  Variables (e : expr S) (op : omap S).
  Hypothesis Hu : forall j, uses e j -> In j l.
  Hypothesis He : eval e = Some op.
  Hypothesis Sv : solves S E l e eigen.

  (** a subspace which the Hamiltonian does not leave *)
  Definition sub_good (sp : sub_hs) : Prop :=
    sub_ok l sp /\ sub_states sp <> [] /\ StronglySorted N.lt (sub_states sp) /\ maps_into S l op (Sub sp) (Sub sp) /\ closed_set S l e (sub_states sp).

  Lemma mel_term (o : omap S) f g : mel pos o f g <> k0 -> exists m c b, In (m, c) o /\ act pos m f = Some (b, g).
  Proof.
    induction o as [|[m c] o IH]; cbn [mel]; intros H; [congruence|]. unfold mel_mono in H. destruct (act pos m f) as [[b g']|] eqn:Ea.
    - destruct (N.eqb_spec g' g) as [->|Hne].
      + exists m, c, b. split; [left; reflexivity|exact Ea].
      + destruct IH as (m' & c' & b' & H1 & H2); [intros Hz; apply H; rewrite Hz; ring|]. exists m', c', b'. split; [right; exact H1|exact H2].
    - destruct IH as (m' & c' & b' & H1 & H2); [intros Hz; apply H; rewrite Hz; ring|]. exists m', c', b'. split; [right; exact H1|exact H2].
  Qed.
  Lemma k_dec (x y : S) : {x = y} + {x <> y}.
  Proof.
    destruct (kisz (x - y)) eqn:Ez.
    - left. apply (sl_isz S L) in Ez. transitivity (x - y + y); [ring|rewrite Ez; ring].
    - right. intros ->. assert (H : kisz (y - y) = true) by (apply (sl_isz S L); ring). congruence.
  Qed.
  Lemma closed_of_maps sp : maps_into S l op (Sub sp) (Sub sp) -> closed_set S l e (sub_states sp).
  Proof.
    intros H f g Hf _ Hg. rewrite (bracket_mel S L l e op f g Hu He). destruct (k_dec (mel pos op f g) k0) as [|Hz]; [assumption|].
    exfalso. apply mel_term in Hz. destruct Hz as (m & c & b & H1 & H2). apply Hg. exact (H m c f b g H1 Hf H2).
  Qed.

  Notation decomposes := (decomposes S E).

  (** one subspace *)
  Lemma diag_block_ok k sp : sub_good sp ->
    exists ev u e0, diag_block S E eigen l op (k, sp) = Ok ((e_add e0 (e_split E k), k), mkEig S E ev u) /\ nth_error ev 0 = Some e0 /\
      decomposes (length (sub_states sp)) (fun j i => bracket S l e (nth j (sub_states sp) 0%N) (nth i (sub_states sp) 0%N)) ev u k0.
  Proof.
    intros (Hok & Hne & Hs & Hcl & Hc). pose proof (eval_op_ok S L l e op Hu He) as Hop.
    destruct (h_matrix_ok S L l Hl op sp Hop Hok Hcl) as (m & Em & R1 & R2 & Ha).
    assert (D := Sv (sub_states sp) m Hne Hs (proj2 Hok) Hc R1 R2).
    assert (D' : forall j i fj fi, nth_error (sub_states sp) j = Some fj -> nth_error (sub_states sp) i = Some fi -> m_at m j i = bracket S l e fj fi).
    { intros j i fj fi Hj Hi. rewrite (bracket_mel S L l e op fi fj Hu He). apply Ha; assumption. }
    specialize (D D'). unfold diag_block. cbn [fst snd]. rewrite Em. cbn [bind]. destruct (eigen m) as [ev u]. cbn [fst snd] in D.
    destruct D as (D1 & D2 & D3 & D4 & D5 & D6). destruct ev as [|e0 ev].
    { exfalso. apply Hne. destruct (sub_states sp); [reflexivity|discriminate]. }
    exists (e0 :: ev), u, e0. split; [reflexivity|]. split; [reflexivity|]. repeat (split; [assumption|]).
    intros j i Hj Hi. rewrite <- D6 by assumption. symmetry.
    destruct (nth_error_lt (sub_states sp) j Hj) as [fj Fj]. destruct (nth_error_lt (sub_states sp) i Hi) as [fi Fi].
    rewrite (nth_of_error _ j fj _ Fj), (nth_of_error _ i fi _ Fi). apply D'; assumption.
  Qed.

  Definition row_ok (nb : nat) (row : list Z) : Prop := length row = nb /\ forall c, In c row -> c = (-1)%Z \/ (0 <= c < Z.of_nat nb)%Z.

  (** one operator *)
  Lemma make_c_mat_ok subs (es : list (eigsys S E)) eo oo row : (forall j, uses eo j -> In j l) -> eval eo = Some oo ->
    length subs = length es -> row_ok (length subs) row ->
    (forall b sp x, nth_error subs b = Some sp -> nth_error es b = Some x ->
       sub_ok l sp /\ m_rows (umat S E x) = sub_size sp /\ m_cols (umat S E x) = sub_size sp) ->
    exists ms, make_c_mat S E l d subs es oo row = Ok ms /\ length ms = length row /\
    forall b c, nth_error row b = Some c ->
      (c = (-1)%Z /\ nth_error ms b = Some None) \/
      (exists b' sf st ef et M, c = Z.of_nat b' /\ nth_error ms b = Some (Some M) /\
        nth_error subs b = Some sf /\ nth_error subs b' = Some st /\ nth_error es b = Some ef /\ nth_error es b' = Some et /\
        m_rows M = sub_size st /\ m_cols M = sub_size sf /\
        forall j i, (j < sub_size st)%nat -> (i < sub_size sf)%nat ->
        m_at M j i = msum S (sub_size sf) (fun k => msum S (sub_size st) (fun q =>
           kconj (m_at (umat S E et) q j) * bracket S l eo (nth q (sub_states st) 0%N) (nth k (sub_states sf) 0%N)) * m_at (umat S E ef) k i)).
  Proof.
    intros Hue Hev Hlen [Hrow Hr] Hs. pose proof (eval_op_ok S L l eo oo Hue Hev) as Hop. unfold make_c_mat.
    set (Q := fun (bc : nat * Z) (om : option (mat S)) => let '(b, c) := bc in
      (c = (-1)%Z /\ om = None) \/
      (exists b' sf st ef et M, c = Z.of_nat b' /\ om = Some M /\
        nth_error subs b = Some sf /\ nth_error subs b' = Some st /\ nth_error es b = Some ef /\ nth_error es b' = Some et /\
        m_rows M = sub_size st /\ m_cols M = sub_size sf /\
        forall j i, (j < sub_size st)%nat -> (i < sub_size sf)%nat ->
        m_at M j i = msum S (sub_size sf) (fun k => msum S (sub_size st) (fun q =>
           kconj (m_at (umat S E et) q j) * bracket S l eo (nth q (sub_states st) 0%N) (nth k (sub_states sf) 0%N)) * m_at (umat S E ef) k i))).
    destruct (mapM_ok (fun bc : nat * Z => if (snd bc =? -1)%Z then Ok None
            else do m <- make_op_matrix S E l d subs es oo (fst bc) (Z.to_nat (snd bc)) ; Ok (Some m)) Q (enum row)) as (ms & Ems & Pms).
    { intros [b c] Hin. apply enum_In in Hin. cbn [fst snd]. unfold Q. destruct (Z.eqb_spec c (-1)) as [->|Hne].
      - exists None. auto.
      - destruct (Hr c) as [|Hc]; [eapply nth_error_In; exact Hin|contradiction|].
        assert (Hb : (b < length subs)%nat) by (apply nth_error_Some_lt in Hin; lia).
        assert (Hb' : (Z.to_nat c < length subs)%nat) by lia.
        destruct (nth_error_lt subs b Hb) as [sf Esf]. destruct (nth_error_lt subs (Z.to_nat c) Hb') as [st Est].
        destruct (nth_error_lt es b) as [ef Eef]; [lia|]. destruct (nth_error_lt es (Z.to_nat c)) as [et Eet]; [lia|].
        destruct (Hs b sf ef Esf Eef) as (O1 & _ & O3). destruct (Hs (Z.to_nat c) st et Est Eet) as (P1 & P2 & P3).
        destruct (make_op_matrix_ok S L E l d Hl Hd subs es oo b (Z.to_nat c) sf st ef et Hop Esf Est Eef Eet O1 P1 P2 P3 O3) as (M & EM & M1 & M2 & M3).
        rewrite EM. cbn [bind]. exists (Some M). split; [reflexivity|]. right. exists (Z.to_nat c), sf, st, ef, et, M.
        split; [lia|]. repeat (split; [first [reflexivity|assumption]|]).
        intros j i Hj Hi. rewrite M3 by assumption. unfold msum. f_equal. apply map_ext. intros k. f_equal. f_equal. apply map_ext. intros q.
        f_equal. symmetry. apply (bracket_mel S L l eo oo _ _ Hue Hev). }
    exists ms. split; [exact Ems|]. split; [rewrite <- (Forall2_len _ _ _ Pms); apply enum_length|].
    intros b c Hb. apply enum_nth' in Hb. destruct (Forall2_nth _ _ _ _ _ Pms Hb) as (om & Hom & HQ). cbn in HQ.
    destruct HQ as [[-> ->]|(b' & sf & st & ef & et & M & H1 & -> & H)]; [left; auto|]. right. exists b', sf, st, ef, et, M. auto.
  Qed.

  Lemma nth_error_map' {A B} (f : A -> B) xs i : nth_error (map f xs) i = option_map f (nth_error xs i).
  Proof. revert i. induction xs as [|x xs IH]; intros [|i]; cbn; auto. Qed.

  Lemma decomposes_shift n m ev u g : decomposes n m ev u k0 -> decomposes n m (map (fun x => e_sub x g) ev) u (e_emb g).
  Proof.
    intros (D1 & D2 & D3 & D4 & D5 & D6). split; [rewrite map_length; exact D1|]. repeat (split; [assumption|]). split.
    - intros a b x y Hab Ha Hb. rewrite nth_error_map' in Ha, Hb. destruct (nth_error ev a) as [x0|] eqn:Ea; [|discriminate].
      destruct (nth_error ev b) as [y0|] eqn:Eb; [|discriminate]. injection Ha as <-. injection Hb as <-. rewrite (el_sub_lt S E EL). eapply D5; eassumption.
    - intros j i Hj Hi. rewrite D6 by assumption. unfold msum. f_equal. apply map_ext_in. intros a Ha. apply in_seq in Ha. f_equal. f_equal.
      unfold energy. rewrite nth_error_map'. destruct (nth_error ev a) as [x|] eqn:Ea; [|apply nth_error_None in Ea; lia].
      cbn [option_map]. rewrite (el_emb_sub S E EL). ring.
  Qed.

  Variable subs : list sub_hs.
  Hypothesis Hsubs : Forall sub_good subs.
  Variables cdconn cconn : list (list Z).
  Hypothesis Hcd : length cdconn = length l /\ Forall (row_ok (length subs)) cdconn.
  Hypothesis Hcc : length cconn = length l /\ Forall (row_ok (length subs)) cconn.
  Variable qn : list (list E).
  Notation nb := (length subs).

  (** what the reordering [ord] gives at the new position b *)
  Definition at_new (a : atom S E) (ord : list nat) (b k : nat) (sp : sub_hs) (ev : list E) (u : mat S) : Prop :=
    nth_error ord b = Some k /\ nth_error subs k = Some sp /\
    nth_error (a_subs S E a) b = Some (set_index b sp) /\
    exists g, a_gs S E a = Some g /\ nth_error (a_eigs S E a) b = Some (mkEig S E (map (fun x => e_sub x g) ev) u) /\
    decomposes (length (sub_states sp)) (fun j i => bracket S l e (nth j (sub_states sp) 0%N) (nth i (sub_states sp) 0%N)) ev u k0.

  Definition mats_ok (a : atom S E) (conn : list (list Z)) (mats : list (list (option (mat S)))) (eo : indices -> expr S) : Prop :=
    forall n o, nth_error l n = Some o -> exists row ms, nth_error conn n = Some row /\ nth_error mats n = Some ms /\
    length row = nb /\ length ms = nb /\
    forall b c, nth_error row b = Some c ->
      (c = (-1)%Z /\ nth_error ms b = Some None) \/
      (exists b' sf st ef et M, c = Z.of_nat b' /\ nth_error ms b = Some (Some M) /\
        nth_error (a_subs S E a) b = Some sf /\ nth_error (a_subs S E a) b' = Some st /\
        nth_error (a_eigs S E a) b = Some ef /\ nth_error (a_eigs S E a) b' = Some et /\
        m_rows M = sub_size st /\ m_cols M = sub_size sf /\
        forall j i, (j < sub_size st)%nat -> (i < sub_size sf)%nat ->
        m_at M j i = msum S (sub_size sf) (fun k => msum S (sub_size st) (fun q =>
           kconj (m_at (umat S E et) q j) * bracket S l (eo o) (nth q (sub_states st) 0%N) (nth k (sub_states sf) 0%N)) * m_at (umat S E ef) k i)).

  Lemma remap_row_ok ord row : Permutation ord (seq 0 nb) -> row_ok nb row -> row_ok nb (remap_row ord row).
  Proof.
    intros P [H1 H2]. destruct (remap_row_spec nb ord P row H1) as [R1 R2]. split; [exact R1|].
    intros c Hc. apply In_nth_error in Hc. destruct Hc as [b Hb]. assert (Bn : (b < nb)%nat) by (apply nth_error_Some_lt in Hb; lia).
    destruct (ord_at nb ord P b Bn) as (k & Hk & _ & Kn). destruct (nth_error_lt row k) as [c0 Hc0]; [lia|].
    rewrite (R2 b k c0 Hk Hc0) in Hb. injection Hb as <-. unfold remap_val. destruct (Z.eqb_spec c0 (-1)) as [|Hne]; [left; reflexivity|].
    right. destruct (H2 c0) as [|Hr]; [eapply nth_error_In; exact Hc0|contradiction|].
    destruct (ord_pos nb ord P (Z.to_nat c0)) as (b' & _ & -> & Hb'); [lia|]. lia.
  Qed.

  Lemma mapM_mats (subs' : list sub_hs) es conn (eo : indices -> expr S) oo : length conn = length l -> Forall (row_ok nb) conn ->
    (forall o, In o l -> (forall j, uses (eo o) j -> In j l) /\ eval (eo o) = Some (oo o)) ->
    length subs' = nb -> length es = nb ->
    (forall b sp x, nth_error subs' b = Some sp -> nth_error es b = Some x ->
       sub_ok l sp /\ m_rows (umat S E x) = sub_size sp /\ m_cols (umat S E x) = sub_size sp) ->
    exists mm, mapM (fun nx : nat * indices => make_c_mat S E l d subs' es (oo (snd nx)) (nth (fst nx) conn [])) (enum l) = Ok mm /\
    forall n o, nth_error l n = Some o -> exists row ms, nth_error conn n = Some row /\ nth_error mm n = Some ms /\ row_ok nb row /\ length ms = nb /\
    forall b c, nth_error row b = Some c ->
      (c = (-1)%Z /\ nth_error ms b = Some None) \/
      (exists b' sf st ef et M, c = Z.of_nat b' /\ nth_error ms b = Some (Some M) /\
        nth_error subs' b = Some sf /\ nth_error subs' b' = Some st /\
        nth_error es b = Some ef /\ nth_error es b' = Some et /\
        m_rows M = sub_size st /\ m_cols M = sub_size sf /\
        forall j i, (j < sub_size st)%nat -> (i < sub_size sf)%nat ->
        m_at M j i = msum S (sub_size sf) (fun k => msum S (sub_size st) (fun q =>
           kconj (m_at (umat S E et) q j) * bracket S l (eo o) (nth q (sub_states st) 0%N) (nth k (sub_states sf) 0%N)) * m_at (umat S E ef) k i)).
  Proof.
    intros Hc1 Hc2 Ho Hs1 Hs2 Hse.
    match goal with |- exists mm, _ /\ forall n o, _ -> exists row ms, _ /\ _ /\ _ /\ _ /\ @?Q o row ms => set (QQ := Q) end.
    destruct (mapM_ok (fun nx : nat * indices => make_c_mat S E l d subs' es (oo (snd nx)) (nth (fst nx) conn []))
      (fun nx ms => forall n o, nx = (n, o) -> exists row, nth_error conn n = Some row /\ row_ok nb row /\ length ms = nb /\ QQ o row ms) (enum l)) as (mm & Emm & Pmm).
    { intros [n o] Hin. apply enum_In in Hin. cbn [fst snd]. destruct (nth_error_lt conn n) as [row Hrow]; [apply nth_error_Some_lt in Hin; lia|].
      rewrite (nth_of_error conn n row [] Hrow). destruct (Ho o) as [O1 O2]; [eapply nth_error_In; exact Hin|].
      assert (Hr : row_ok nb row) by (rewrite Forall_forall in Hc2; apply Hc2; eapply nth_error_In; exact Hrow).
      destruct (make_c_mat_ok subs' es (eo o) (oo o) row O1 O2) as (ms & Ems & Lms & Pms); [congruence|rewrite Hs1; exact Hr|exact Hse|].
      exists ms. split; [exact Ems|]. intros n' o' Heq. injection Heq as <- <-. exists row. split; [exact Hrow|]. split; [exact Hr|].
      split; [rewrite Lms; apply Hr|exact Pms]. }
    exists mm. split; [exact Emm|]. intros n o Hn. apply enum_nth' in Hn. destruct (Forall2_nth _ _ _ _ _ Pmm Hn) as (ms & Hms & HQ).
    destruct (HQ n o eq_refl) as (row & H1 & H2 & H3 & H4). exists row, ms. auto.
  Qed.

  Lemma complete_ok : exists a ord,
    complete S E eigen l op d subs cdconn cconn qn = Ok a /\ Permutation ord (seq 0 nb) /\
    length (a_subs S E a) = nb /\ length (a_eigs S E a) = nb /\
    (forall b, (b < nb)%nat -> exists k sp ev u, at_new a ord b k sp ev u) /\
    (forall b b' k k' sp sp' ev ev' u u' x x', (b < b')%nat -> at_new a ord b k sp ev u -> at_new a ord b' k' sp' ev' u' ->
       nth_error ev 0 = Some x -> nth_error ev' 0 = Some x' ->
       em_lt S E (e_add x (e_split E k), k) (e_add x' (e_split E k'), k') = true) /\
    (forall g, a_gs S E a = Some g ->
       (exists b k sp ev u, at_new a ord b k sp ev u /\ nth_error ev 0 = Some g) /\
       (forall b k sp ev u x, at_new a ord b k sp ev u -> In x ev -> e_lt x g = false)) /\
    a_cdconn S E a = map (remap_row ord) cdconn /\ a_cconn S E a = map (remap_row ord) cconn /\
    mats_ok a (a_cdconn S E a) (a_cdmats S E a) ECdag /\ mats_ok a (a_cconn S E a) (a_cmats S E a) EC /\
    a_h S E a = op /\ a_fops S E a = l /\ a_dim S E a = d /\ a_qn S E a = qn /\ a_first S E a = fill_first S E (a_eigs S E a) /\
    (a_vac_index S E a, a_vac S E a) = compute_vacuum S E d (a_subs S E a) (a_eigs S E a) (a_first S E a).
  Proof.
    rewrite Forall_forall in Hsubs. pose proof (eval_op_ok S L l e op Hu He) as Hop.
    (* diagonalization *)
    set (P := fun (ks : nat * sub_hs) (b : em_key S E * eigsys S E) =>
      exists ev u e0, b = ((e_add e0 (e_split E (fst ks)), fst ks), mkEig S E ev u) /\ nth_error ev 0 = Some e0 /\
      decomposes (length (sub_states (snd ks))) (fun j i => bracket S l e (nth j (sub_states (snd ks)) 0%N) (nth i (sub_states (snd ks)) 0%N)) ev u k0).
    destruct (mapM_ok (diag_block S E eigen l op) P (enum subs)) as (bs & Ebs & Pbs).
    { intros [k sp] Hin. apply enum_In in Hin. destruct (diag_block_ok k sp) as (ev & u & e0 & E1 & E2 & E3).
      { apply Hsubs. eapply nth_error_In; exact Hin. }
      eexists. split; [exact E1|]. exists ev, u, e0. auto. }
    assert (Lbs : length bs = nb) by (rewrite <- (Forall2_len _ _ _ Pbs); apply enum_length).
    assert (Hbs : forall k b, nth_error bs k = Some b -> exists sp, nth_error subs k = Some sp /\ P (k, sp) b).
    { intros k b Hb. destruct (Forall2_nth' _ _ _ _ _ Pbs Hb) as ([k' sp] & Hk & HP). apply enum_nth in Hk.
      destruct Hk as (sp' & Hsp & Heq). injection Heq as -> ->. eauto. }
    assert (Hkeys : map (fun b : em_key S E * eigsys S E => snd (fst b)) bs = seq 0 nb).
    { apply nth_ext with (d := 0%nat) (d' := 0%nat); [rewrite map_length, seq_length; exact Lbs|].
      intros k Hk. rewrite map_length, Lbs in Hk. rewrite seq_nth by exact Hk. destruct (nth_error_lt bs k) as [b Hb]; [lia|].
      destruct (Hbs k b Hb) as (sp & _ & ev & u & e0 & Heq & _). apply nth_of_error. rewrite nth_error_map', Hb. subst b. reflexivity. }
    assert (Hnd : NoDup (map fst bs)).
    { apply (NoDup_map_inv snd). rewrite map_map, Hkeys. apply seq_NoDup. }
    destruct (em_build S E EL bs Hnd) as [Hsrt Hperm]. set (em := fold_left (fun m b => em_insert S E b m) bs []) in *.
    set (ord := map (fun x : em_key S E * eigsys S E => snd (fst x)) em).
    assert (HP : Permutation ord (seq 0 nb)) by (rewrite <- Hkeys; apply Permutation_map, Hperm).
    (* ground state *)
    set (gs := fold_left (gs_step S E) bs None).
    assert (Hfe : forall b, In b bs -> first_energy S E b <> None).
    { intros b Hb. apply In_nth_error in Hb. destruct Hb as [k Hb]. destruct (Hbs k b Hb) as (sp & _ & ev & u & e0 & -> & H0 & _).
      unfold first_energy. cbn [snd evals]. congruence. }
    set (shift := fun x : E => match gs with Some g => e_sub x g | None => x end).
    set (es := map (fun x : em_key S E * eigsys S E => mkEig S E (map shift (evals S E (snd x))) (umat S E (snd x))) em).
    set (subs' := map (fun ko : nat * nat => set_index (fst ko) (nth (snd ko) subs (sub_new 0))) (enum ord)).
    assert (Lem : length em = nb) by (rewrite (Permutation_length Hperm); exact Lbs).
    assert (Les : length es = nb) by (unfold es; rewrite map_length; exact Lem).
    assert (Lord : length ord = nb) by (unfold ord; rewrite map_length; exact Lem).
    assert (Lsubs' : length subs' = nb) by (unfold subs'; rewrite map_length, enum_length; exact Lord).
    (* the entry at the new position b *)
    assert (Hem : forall b x, nth_error em b = Some x -> exists sp ev u e0, nth_error ord b = Some (snd (fst x)) /\ nth_error subs (snd (fst x)) = Some sp /\
      In x bs /\ x = ((e_add e0 (e_split E (snd (fst x))), snd (fst x)), mkEig S E ev u) /\ nth_error ev 0 = Some e0 /\ 
      nth_error subs' b = Some (set_index b sp) /\ nth_error es b = Some (mkEig S E (map shift ev) u) /\
      decomposes (length (sub_states sp)) (fun j i => bracket S l e (nth j (sub_states sp) 0%N) (nth i (sub_states sp) 0%N)) ev u k0).
    { intros b x Hx. assert (Hin : In x bs) by (apply (Permutation_in _ Hperm); eapply nth_error_In; exact Hx).
      destruct (In_nth_error _ _ Hin) as [k Hk]. destruct (Hbs k x Hk) as (sp & Hsp & ev & u & e0 & Heq & H0 & HD).
      cbn [fst snd] in *. assert (Hk' : snd (fst x) = k) by (subst x; reflexivity). rewrite Hk'.
      assert (Ho : nth_error ord b = Some k) by (unfold ord; rewrite nth_error_map', Hx; cbn [option_map]; congruence).
      exists sp, ev, u, e0. repeat (split; [assumption|]). split; [|split; [|exact HD]].
      - unfold subs'. rewrite nth_error_map', (enum_nth' _ _ _ Ho). cbn [option_map fst snd]. rewrite (nth_of_error _ _ _ _ Hsp). reflexivity.
      - unfold es. rewrite nth_error_map', Hx. subst x. reflexivity. }
    assert (Hat : forall b, (b < nb)%nat -> exists x, nth_error em b = Some x) by (intros b Hb; apply nth_error_lt; lia).
    assert (Hshape : forall b sp x, nth_error subs' b = Some sp -> nth_error es b = Some x ->
       sub_ok l sp /\ m_rows (umat S E x) = sub_size sp /\ m_cols (umat S E x) = sub_size sp).
    { intros b sp x Hsp Hx. destruct (Hat b) as [y Hy]; [apply nth_error_Some_lt in Hsp; lia|].
      destruct (Hem b y Hy) as (s0 & ev & u & e0 & _ & Hs0 & _ & _ & _ & H1 & H2 & (_ & D2 & D3 & _)). rewrite Hsp in H1. rewrite Hx in H2.
      injection H1 as ->. injection H2 as ->. assert (Hg : sub_good s0) by (apply Hsubs; eapply nth_error_In; exact Hs0).
      destruct Hg as ((G1 & G2) & _). split; [split; [apply set_index_ok, G1|exact G2]|]. split; [exact D2|exact D3]. }
    (* operator matrices *)
    assert (Rcd : Forall (row_ok nb) (map (remap_row ord) cdconn)).
    { apply Forall_forall. intros r Hr. apply in_map_iff in Hr. destruct Hr as (r0 & <- & Hr0). apply remap_row_ok; [exact HP|].
      destruct Hcd as [_ H]. rewrite Forall_forall in H. apply H, Hr0. }
    assert (Rcc : Forall (row_ok nb) (map (remap_row ord) cconn)).
    { apply Forall_forall. intros r Hr. apply in_map_iff in Hr. destruct Hr as (r0 & <- & Hr0). apply remap_row_ok; [exact HP|].
      destruct Hcc as [_ H]. rewrite Forall_forall in H. apply H, Hr0. }
    destruct (mapM_mats subs' es (map (remap_row ord) cconn) EC (op_c S)) as (cm & Ecm & Pcm);
      [rewrite map_length; apply Hcc|exact Rcc|intros o Ho; split; [cbn; intros; subst; exact Ho|reflexivity]|exact Lsubs'|exact Les|exact Hshape|].
    destruct (mapM_mats subs' es (map (remap_row ord) cdconn) ECdag (op_c_dag S)) as (cdm & Ecdm & Pcdm);
      [rewrite map_length; apply Hcd|exact Rcd|intros o Ho; split; [cbn; intros; subst; exact Ho|reflexivity]|exact Lsubs'|exact Les|exact Hshape|].
    (* the result *)
    assert (Hts : exists ts, imp_terms l op = Ok ts).
    { destruct (full_maps_into S l op d Hl Hop Hd) as [F1 F2]. assert (Hl64 : (length l <= 64)%nat) by lia.
      destruct (imp_apply_terms S L l op (Full d) (Full d) Hl64 Hop (full_ok l d Hl Hd) (full_ok l d Hl Hd) F1 F2) as (ts & Ets & _). eauto. }
    destruct Hts as [ts Ets].
    destruct (compute_vacuum S E d subs' es (fill_first S E es)) as [vi v] eqn:Ev.
    exists (mkAtom S E op l d subs' es (map (remap_row ord) cdconn) (map (remap_row ord) cconn) cdm cm gs qn (fill_first S E es) vi v), ord.
    split.
    { unfold complete. rewrite Ets. cbn [bind]. rewrite Ebs. cbn [bind].
      match goal with |- _ = ?R => change (
        (do cm0 <- mapM (fun nx : nat * indices => make_c_mat S E l d subs' es (op_c S (snd nx)) (nth (fst nx) (map (remap_row ord) cconn) [])) (enum l) ;
         do cdm0 <- mapM (fun nx : nat * indices => make_c_mat S E l d subs' es (op_c_dag S (snd nx)) (nth (fst nx) (map (remap_row ord) cdconn) [])) (enum l) ;
         let '(vi0, v0) := compute_vacuum S E d subs' es (fill_first S E es) in
         Ok (mkAtom S E op l d subs' es (map (remap_row ord) cdconn) (map (remap_row ord) cconn) cdm0 cm0 gs qn (fill_first S E es) vi0 v0)) = R) end.
      rewrite Ecm. cbn [bind]. rewrite Ecdm. cbn [bind]. rewrite Ev. reflexivity. }
    split; [exact HP|]. cbn [a_subs a_eigs a_gs a_cdconn a_cconn a_cdmats a_cmats a_h a_fops a_dim a_qn a_first a_vac_index a_vac].
    split; [exact Lsubs'|]. split; [exact Les|].
    assert (Hgs : nb <> O -> exists g, gs = Some g /\ (exists b, In b bs /\ first_energy S E b = Some g) /\
      forall b x, In b bs -> first_energy S E b = Some x -> e_lt x g = false).
    { intros Hnb. apply (gs_fold S E EL bs Hfe). intros ->. cbn in Lbs. congruence. }
    assert (Anew : forall b x, nth_error em b = Some x -> forall sp ev u, nth_error subs (snd (fst x)) = Some sp -> nth_error subs' b = Some (set_index b sp) ->
      nth_error es b = Some (mkEig S E (map shift ev) u) ->
      decomposes (length (sub_states sp)) (fun j i => bracket S l e (nth j (sub_states sp) 0%N) (nth i (sub_states sp) 0%N)) ev u k0 ->
      at_new (mkAtom S E op l d subs' es (map (remap_row ord) cdconn) (map (remap_row ord) cconn) cdm cm gs qn (fill_first S E es) vi v)
        ord b (snd (fst x)) sp ev u).
    { intros b x Hx sp ev u H1 H2 H3 H4. split; [unfold ord; rewrite nth_error_map', Hx; reflexivity|]. split; [exact H1|]. split; [exact H2|].
      destruct Hgs as (g & Eg & _). { apply nth_error_Some_lt in Hx. lia. }
      exists g. cbn [a_gs a_eigs]. split; [exact Eg|]. split; [|exact H4]. rewrite H3. unfold shift. rewrite Eg. reflexivity. }
    assert (Aold : forall b k sp ev u, at_new (mkAtom S E op l d subs' es (map (remap_row ord) cdconn) (map (remap_row ord) cconn) cdm cm gs qn (fill_first S E es) vi v)
        ord b k sp ev u -> exists x e0, nth_error em b = Some x /\ In x bs /\ snd (fst x) = k /\ nth_error (evals S E (snd x)) 0 = Some e0 /\
        fst (fst x) = e_add e0 (e_split E k) /\ exists g, gs = Some g /\ map (fun y => e_sub y g) ev = map (fun y => e_sub y g) (evals S E (snd x)) /\ ascending S E (evals S E (snd x))).
    { intros b k sp ev u (A1 & A2 & A3 & g & A4 & A5 & A6). cbn [a_gs a_eigs a_subs] in *.
      destruct (Hat b) as [x Hx]; [apply nth_error_Some_lt in A1; lia|].
      destruct (Hem b x Hx) as (sp0 & ev0 & u0 & e0 & B1 & B2 & B3 & B4 & B5 & B6 & B7 & (_ & _ & _ & _ & B8 & _)).
      rewrite A1 in B1. injection B1 as Bk. exists x, e0. split; [exact Hx|]. split; [exact B3|]. split; [congruence|].
      rewrite B4. cbn [fst snd evals]. split; [exact B5|]. split; [congruence|]. exists g. split; [exact A4|].
      rewrite A5 in B7. injection B7 as Bm _. split; [|exact B8]. rewrite Bm. unfold shift. rewrite A4. reflexivity. }
    split.
    { intros b Hb. destruct (Hat b Hb) as [x Hx]. destruct (Hem b x Hx) as (sp & ev & u & e0 & B1 & B2 & B3 & B4 & B5 & B6 & B7 & B8).
      exists (snd (fst x)), sp, ev, u. apply Anew; auto. }
    (* injectivity of the shift on sorted keys *)
    assert (Inj : forall g x y : E, e_sub x g = e_sub y g -> x = y).
    { intros g x y H. apply (el_total S E EL).
      - rewrite <- (el_sub_lt S E EL x y g), H. apply (el_irrefl S E EL).
      - rewrite <- (el_sub_lt S E EL y x g), H. apply (el_irrefl S E EL). }
    assert (Injm : forall g (xs ys : list E), map (fun y => e_sub y g) xs = map (fun y => e_sub y g) ys -> xs = ys).
    { intros g. induction xs as [|x xs IH]; intros [|y ys] H; try discriminate; [reflexivity|]. injection H as H1 H2. f_equal; [eapply Inj; exact H1|apply IH, H2]. }
    split.
    { intros b b' k k' sp sp' ev ev' u u' x x' Hbb A A' Hx Hx'.
      destruct (Aold b k sp ev u A) as (y & y0 & Y1 & _ & Y2 & Y3 & Y4 & g & _ & Y5 & _). apply Injm in Y5. rewrite <- Y5, Hx in Y3. injection Y3 as <-.
      destruct (Aold b' k' sp' ev' u' A') as (z & z0 & Z1 & _ & Z2 & Z3 & Z4 & g' & _ & Z5 & _). apply Injm in Z5. rewrite <- Z5, Hx' in Z3. injection Z3 as <-.
      assert (Ky : fst y = (e_add x (e_split E k), k)) by (destruct y as [[ya yb] yc]; cbn in *; congruence).
      assert (Kz : fst z = (e_add x' (e_split E k'), k')) by (destruct z as [[ya yb] yc]; cbn in *; congruence).
      rewrite <- Ky, <- Kz. clear -Hsrt Y1 Z1 Hbb. revert b b' Hbb Y1 Z1. induction Hsrt as [|q em0 _ IH HF]; intros b b' Hbb Y1 Z1; [destruct b; discriminate|].
      destruct b' as [|b']; [lia|]. cbn in Z1. destruct b as [|b].
      - cbn in Y1. injection Y1 as ->. rewrite Forall_forall in HF. apply HF. eapply nth_error_In; exact Z1.
      - cbn in Y1. apply (IH b b'); [lia|assumption|assumption]. }
    split.
    { intros g Hg. assert (Hnb : nb <> O). { intros H0. rewrite H0 in Lbs. destruct bs; [|discriminate]. cbn in gs. unfold gs in Hg. discriminate. }
      destruct (Hgs Hnb) as (g' & Eg' & (b0 & Hb0 & Hf0) & Hmin). rewrite Hg in Eg'. injection Eg' as <-. split.
      - apply (Permutation_in _ (Permutation_sym Hperm)) in Hb0. apply In_nth_error in Hb0. destruct Hb0 as [b Hb].
        destruct (Hem b b0 Hb) as (sp & ev & u & e0 & B1 & B2 & B3 & B4 & B5 & B6 & B7 & B8).
        exists b, (snd (fst b0)), sp, ev, u. split; [apply Anew; auto|]. unfold first_energy in Hf0. rewrite B4 in Hf0. exact Hf0.
      - intros b k sp ev u x A Hin. destruct (Aold b k sp ev u A) as (y & y0 & Y1 & Y1' & Y2 & Y3 & Y4 & g' & _ & Y5 & Y6). apply Injm in Y5. subst ev.
        assert (Hy : e_lt y0 g = false) by (apply (Hmin y); [exact Y1'|exact Y3]).
        apply In_nth_error in Hin. destruct Hin as [q Hq]. destruct q as [|q]; [rewrite Y3 in Hq; injection Hq as <-; exact Hy|].
        pose proof (Y6 O (Datatypes.S q) y0 x ltac:(lia) Y3 Hq) as Hlt.
        destruct (e_lt x g) eqn:C; [|reflexivity].
        destruct (e_lt y0 x) eqn:D; [rewrite (el_trans S E EL y0 x g D C) in Hy; discriminate|].
        pose proof (el_total S E EL y0 x D Hlt) as ->. congruence. }
    split; [reflexivity|]. split; [reflexivity|].
    split. { intros n o Hn. destruct (Pcdm n o Hn) as (row & ms & R1 & R2 & R3 & R4 & R5). exists row, ms. cbn [a_subs a_eigs]. destruct R3. auto 6. }
    split. { intros n o Hn. destruct (Pcm n o Hn) as (row & ms & R1 & R2 & R3 & R4 & R5). exists row, ms. cbn [a_subs a_eigs]. destruct R3. auto 6. }
    split; [reflexivity|]. split; [reflexivity|]. split; [reflexivity|]. split; [reflexivity|]. split; [reflexivity|]. symmetry. exact Ev.
  Qed.
End Complete.
