(** Proofs about the archives of atom_diag. *)
From Coq Require Import String Ascii ZArith NArith List Bool Arith Lia Permutation Decimal DecimalString.
From Verif Require Import Base Indices Scalar Fock OpModel Hilbert Hilbert_proofs RealOrComplex OpH5 OpH5Spec OpH5_proofs AtomDiag AtomDiag_lists AtomH5 AtomH5Spec.
Import ListNotations.
Local Open Scope nat_scope.

(** ---- names ---- *)
Fixpoint no_space (s : string) : Prop := match s with EmptyString => True | String c s' => c <> " "%char /\ no_space s' end.
Lemma no_space_uint d : no_space (NilEmpty.string_of_uint d).
Proof. induction d; simpl; auto; split; auto; discriminate. Qed.
Lemma no_space_to_string z : no_space (to_string z).
Proof.
  assert (G : forall d, no_space (NilZero.string_of_uint d)).
  { intros d. unfold NilZero.string_of_uint. destruct d; try apply no_space_uint. simpl. split; [discriminate|auto]. }
  unfold to_string, NilZero.string_of_int. destruct (Z.to_int z) as [d|d]; [apply G|]. simpl. split; [discriminate|apply G].
Qed.
Lemma getline_space s r : no_space s -> getline (s ++ String " " r) = (s, r).
Proof.
  induction s as [|c s IH]; intros H; [reflexivity|]. destruct H as [H1 H2]. cbn [append getline]. destruct (Ascii.eqb_spec c " ") as [e|_]; [contradiction|].
  rewrite (IH H2). reflexivity.
Qed.
Lemma getline_end s : no_space s -> getline s = (s, EmptyString).
Proof.
  induction s as [|c s IH]; intros H; [reflexivity|]. destruct H as [H1 H2]. cbn [getline]. destruct (Ascii.eqb_spec c " ") as [e|_]; [contradiction|].
  rewrite (IH H2). reflexivity.
Qed.

(** ---- lists ---- *)
Lemma list_ext {A} (l l' : list A) : (forall i, nth_error l i = nth_error l' i) -> l = l'.
Proof.
  revert l'. induction l as [|x l IH]; intros [|y l'] H; [reflexivity|specialize (H 0); discriminate H|specialize (H 0); discriminate H|].
  pose proof (H 0) as H0. injection H0 as ->. f_equal. apply IH. intros i. apply (H (S i)).
Qed.
Lemma nth_repeat {A} (x : A) n i : nth_error (repeat x n) i = if i <? n then Some x else None.
Proof. revert i. induction n as [|n IH]; intros [|i]; cbn [repeat nth_error]; try reflexivity. rewrite IH. reflexivity. Qed.
Lemma nth_firstn {A} n (l : list A) i : nth_error (firstn n l) i = if i <? n then nth_error l i else None.
Proof. revert l i. induction n as [|n IH]; intros [|x l] [|i]; cbn [firstn nth_error]; try reflexivity. - destruct (_ <? _); reflexivity. - rewrite IH. reflexivity. Qed.
Lemma resize_nth {A} n (x : A) v i : nth_error (resize n x v) i = if i <? n then (if i <? length v then nth_error v i else Some x) else None.
Proof.
  unfold resize. destruct (i <? n) eqn:E1; [apply Nat.ltb_lt in E1|apply Nat.ltb_ge in E1].
  - destruct (i <? length v) eqn:E2; [apply Nat.ltb_lt in E2|apply Nat.ltb_ge in E2].
    + rewrite nth_error_app1 by (rewrite firstn_length; lia). rewrite nth_firstn. apply Nat.ltb_lt in E1. rewrite E1. reflexivity.
    + rewrite nth_error_app2 by (rewrite firstn_length; lia). rewrite firstn_length, nth_repeat, Nat.min_r by lia.
      replace (i - length v <? n - length v) with true by (symmetry; apply Nat.ltb_lt; lia). reflexivity.
  - apply nth_error_None. rewrite app_length, firstn_length, repeat_length. lia.
Qed.
Lemma resize_length {A} n (x : A) v : length (resize n x v) = n.
Proof. unfold resize. rewrite app_length, firstn_length, repeat_length. lia. Qed.

Section Tables.
  Context (S : scalar_ops).
  Notation table := (table S). Notation group := (group S). Notation entry := (entry S).

  Lemma table_ext (t t' : table) : map (@length _) t = map (@length _) t' -> (forall i j, entry t i j = entry t' i j) -> t = t'.
  Proof.
    revert t'. induction t as [|r t IH]; intros [|r' t'] Hl He; try discriminate Hl; [reflexivity|]. injection Hl as _ Hl. f_equal.
    - apply list_ext. intros j. exact (He 0 j).
    - apply IH; [exact Hl|]. intros i j. exact (He (Datatypes.S i) j).
  Qed.
  Lemma upd_entry i j x (t : table) i' j' : entry (upd i (upd j (fun _ => x)) t) i' j' =
    if (i =? i') && (j =? j') then option_map (fun _ => x) (entry t i' j') else entry t i' j'.
  Proof.
    unfold AtomH5Spec.entry. rewrite upd_nth. destruct (Nat.eqb_spec i i') as [<-|Hi]; cbn [andb]; [|reflexivity].
    destruct (nth_error t i) as [row|]; cbn [option_map]; [|destruct (_ =? _); reflexivity]. rewrite upd_nth. destruct (j =? j'); reflexivity.
  Qed.
  Lemma upd_shape i j (x : option (mat S)) (t : table) : map (@length _) (upd i (upd j (fun _ => x)) t) = map (@length _) t.
  Proof.
    revert i. induction t as [|r t IH]; intros [|i]; try reflexivity; cbn [upd map].
    - rewrite upd_length. reflexivity.
    - rewrite IH. reflexivity.
  Qed.
  Lemma shape_entry (t t' : table) i j : map (@length _) t = map (@length _) t' -> (entry t i j = None <-> entry t' i j = None).
  Proof.
    revert t' i. induction t as [|r t IH]; intros [|r' t'] i Hl; try discriminate Hl; [tauto|]. injection Hl as H0 Hl. destruct i as [|i].
    - unfold AtomH5Spec.entry. cbn [nth_error]. rewrite !nth_error_None, H0. tauto.
    - exact (IH t' i Hl).
  Qed.

  (** one dataset *)
  Lemma read_cell_ok (t : table) i j m : (Z.of_nat i < 2 ^ 31)%Z -> (Z.of_nat j < 2 ^ 31)%Z ->
    read_cell S t (cell_name i j, m) = if match entry t i j with Some _ => true | None => false end then Ok (upd i (upd j (fun _ => Some m)) t) else UB.
  Proof.
    intros Hi Hj. unfold read_cell. cbn [fst snd]. unfold cell_name. rewrite !to_int32_id by lia.
    rewrite (getline_space _ _ (no_space_to_string _)), (getline_end _ (no_space_to_string _)), !stoi_to_string. cbn [bind].
    replace (Z.of_nat i <? 0)%Z with false by (symmetry; apply Z.ltb_ge; lia). replace (Z.of_nat j <? 0)%Z with false by (symmetry; apply Z.ltb_ge; lia).
    cbn [orb]. rewrite !Nat2Z.id. unfold AtomH5Spec.entry. destruct (nth_error t i) as [row|]; [|reflexivity].
    destruct (nth_error row j) as [x|] eqn:E.
    - replace (j <? length row) with true; [reflexivity|]. symmetry. apply Nat.ltb_lt. apply nth_error_Some. congruence.
    - replace (j <? length row) with false; [reflexivity|]. symmetry. apply Nat.ltb_ge, nth_error_None, E.
  Qed.

  (** ---- reading a list of cells ---- *)
  Definition cell : Type := (nat * nat) * mat S.
  Definition dset (c : cell) : string * mat S := (cell_name (fst (fst c)) (snd (fst c)), snd c).
  Definition small (c : cell) : Prop := (Z.of_nat (fst (fst c)) < 2 ^ 31)%Z /\ (Z.of_nat (snd (fst c)) < 2 ^ 31)%Z.
  Definition run (ds : group) (r : res table) : res table := fold_left (fun r d => do t <- r ; read_cell S t d) ds r.

  Lemma run_ub ds : run ds UB = UB.
  Proof. induction ds as [|d ds IH]; [reflexivity|exact IH]. Qed.
  Lemma run_ok cs : Forall small cs -> (forall k m m', In (k, m) cs -> In (k, m') cs -> m = m') -> forall t,
    (forall i j m, In ((i, j), m) cs -> entry t i j <> None) ->
    exists t', run (map dset cs) (Ok t) = Ok t' /\ map (@length _) t' = map (@length _) t /\
      forall i j, (forall m, In ((i, j), m) cs -> entry t' i j = Some (Some m)) /\ ((forall m, ~ In ((i, j), m) cs) -> entry t' i j = entry t i j).
  Proof.
    induction cs as [|[[i0 j0] m0] cs IH]; intros Hs Hf t Hr.
    - exists t. split; [reflexivity|]. split; [reflexivity|]. intros i j. split; [intros m []|auto].
    - inversion_clear Hs as [|? ? [H1 H2] Hs']. cbn [fst snd] in H1, H2.
      assert (E0 : read_cell S t (cell_name i0 j0, m0) = Ok (upd i0 (upd j0 (fun _ => Some m0)) t)).
      { rewrite (read_cell_ok t i0 j0 m0 H1 H2). specialize (Hr i0 j0 m0 (or_introl eq_refl)). destruct (entry t i0 j0); [reflexivity|congruence]. }
      destruct (IH Hs') with (t := upd i0 (upd j0 (fun _ => Some m0)) t) as (t' & E & Sh & Sp).
      + intros k m m' A B. apply (Hf k); right; assumption.
      + intros i j m Hin Hn. apply (shape_entry _ t i j (upd_shape i0 j0 _ t)) in Hn. revert Hn. apply (Hr i j m). right; exact Hin.
      + exists t'. split; [|split].
        * cbn [map]. unfold run in *. cbn [fold_left bind]. unfold dset at 2. cbn [fst snd]. rewrite E0. exact E.
        * rewrite Sh. apply upd_shape.
        * intros i j. destruct (Sp i j) as [Sp1 Sp2]. split.
          -- intros m [Hm|Hm]; [|exact (Sp1 m Hm)]. injection Hm as -> -> ->.
             assert (D : (exists m', In ((i, j), m') cs) \/ (forall m', ~ In ((i, j), m') cs)).
             { clear. induction cs as [|[[a b] x] cs IH]; [right; intros m' []|]. destruct IH as [[m' H]|H]; [left; exists m'; right; exact H|].
               destruct (Nat.eq_dec a i) as [->|]; [destruct (Nat.eq_dec b j) as [->|]|]; [left; exists x; left; reflexivity| |]; right; intros m' [Q|Q]; try congruence; exact (H m' Q). }
             destruct D as [[m' D]|D].
             ++ rewrite (Hf (i, j) m m'); [exact (Sp1 m' D)|left; reflexivity|right; exact D].
             ++ rewrite (Sp2 D), upd_entry, !Nat.eqb_refl. cbn [andb]. specialize (Hr i j m (or_introl eq_refl)). destruct (entry t i j); [reflexivity|congruence].
          -- intros Hn. rewrite Sp2 by (intros m Hm; apply (Hn m); right; exact Hm). rewrite upd_entry.
             destruct (Nat.eqb_spec i0 i) as [->|]; [destruct (Nat.eqb_spec j0 j) as [->|]|]; try reflexivity. exfalso. apply (Hn m0). left; reflexivity.
  Qed.
  Lemma run_out cs : Forall small cs -> forall t i j m, In ((i, j), m) cs -> entry t i j = None -> run (map dset cs) (Ok t) = UB.
  Proof.
    induction cs as [|[[i0 j0] m0] cs IH]; intros Hs t i j m Hin Hn; [destruct Hin|]. inversion_clear Hs as [|? ? [H1 H2] Hs']. cbn [fst snd] in H1, H2.
    cbn [map]. unfold run in *. cbn [fold_left bind]. unfold dset at 2. cbn [fst snd]. rewrite (read_cell_ok t i0 j0 m0 H1 H2).
    destruct (entry t i0 j0) as [z0|] eqn:E0; [|apply run_ub]. destruct Hin as [Hin|Hin]; [injection Hin as -> -> ->; congruence|].
    apply (IH Hs' _ i j m Hin). apply (shape_entry _ t i j (upd_shape i0 j0 _ t)). exact Hn.
  Qed.

  Lemma run_nt cs : Forall small cs -> forall t, run (map dset cs) (Ok t) = UB \/ exists t', run (map dset cs) (Ok t) = Ok t'.
  Proof.
    induction cs as [|[[i0 j0] m0] cs IH]; intros Hs t; [right; exists t; reflexivity|]. inversion_clear Hs as [|? ? [H1 H2] Hs']. cbn [fst snd] in H1, H2.
    cbn [map]. unfold run in *. cbn [fold_left bind]. unfold dset at 2 4. cbn [fst snd]. rewrite (read_cell_ok t i0 j0 m0 H1 H2).
    destruct (entry t i0 j0) as [z0|] eqn:E0; [apply (IH Hs')|left; apply run_ub].
  Qed.

  (** ---- the cells of a table ---- *)
  Definition cells (t : table) : list cell :=
    flat_map (fun ir => flat_map (fun jm => match snd jm with
                                            | Some m => if is_empty S m then [] else [((fst ir, fst jm), m)]
                                            | None => [] end) (enum (snd ir))) (enum t).
  Lemma map_flat {A B C} (f : B -> C) (g : A -> list B) l : map f (flat_map g l) = flat_map (fun x => map f (g x)) l.
  Proof. induction l as [|x l IH]; [reflexivity|]. cbn [flat_map]. rewrite map_app, IH. reflexivity. Qed.
  Lemma flat_ext {A B} (f g : A -> list B) l : (forall x, f x = g x) -> flat_map f l = flat_map g l.
  Proof. intros H. induction l as [|x l IH]; [reflexivity|]. cbn [flat_map]. rewrite H, IH. reflexivity. Qed.
  Lemma write_sparse_cells (t : table) : write_sparse S t = map dset (cells t).
  Proof.
    unfold write_sparse, cells. rewrite map_flat. apply flat_ext. intros [i row]. cbn [fst snd]. rewrite map_flat. apply flat_ext. intros [j [m|]]; unfold write_cell; cbn [fst snd]; [|reflexivity].
    destruct (is_empty S m); reflexivity.
  Qed.
  Lemma cells_In (t : table) i j m : In ((i, j), m) (cells t) <-> entry t i j = Some (Some m) /\ is_empty S m = false.
  Proof.
    unfold cells. rewrite in_flat_map. unfold AtomH5Spec.entry. split.
    - intros ([i' row] & H1 & H2). cbn [fst snd] in H2. apply in_flat_map in H2. destruct H2 as ([j' [m'|]] & H2 & H3); cbn [fst snd] in H3; [|destruct H3].
      destruct (is_empty S m') eqn:Em; [destruct H3|]. destruct H3 as [H3|[]]. injection H3 as -> -> ->.
      apply enum_In in H1. apply enum_In in H2. rewrite H1. auto.
    - intros [H1 H2]. destruct (nth_error t i) as [row|] eqn:E; [|discriminate H1]. exists (i, row). split; [apply enum_In; exact E|]. cbn [fst snd].
      apply in_flat_map. exists (j, Some m). split; [apply enum_In; exact H1|]. cbn [fst snd]. rewrite H2. left; reflexivity.
  Qed.
  Lemma is_empty_false (m : mat S) : is_empty S m = false <-> 0 < m_rows m /\ 0 < m_cols m.
  Proof. unfold is_empty. rewrite orb_false_iff, !Nat.eqb_neq. lia. Qed.

  Variable listing : group -> group.
  Hypothesis Hlist : forall g, Permutation (listing g) g.

  Lemma listing_cells (t : table) : exists cs, listing (write_sparse S t) = map dset cs /\ Permutation cs (cells t).
  Proof.
    rewrite write_sparse_cells. destruct (Permutation_map_inv dset (cells t) (Hlist _)) as (cs & H1 & H2).
    exists cs. split; [exact H1|apply Permutation_sym; exact H2].
  Qed.
  Lemma rect_entry n nb (t : table) i j : rectangular S n nb t -> (entry t i j <> None <-> i < n /\ j < nb).
  Proof.
    intros [H1 H2]. unfold AtomH5Spec.entry. rewrite Forall_forall in H2. destruct (nth_error t i) as [row|] eqn:Er.
    - rewrite nth_error_Some. rewrite (H2 row (nth_error_In _ _ Er)). assert (i < length t) by (apply nth_error_Some; congruence). lia.
    - apply nth_error_None in Er. split; [congruence|lia].
  Qed.

  (** reading into a table [old] that has room *)
  Lemma read_sparse_ok n nb (conn : list (list Z)) (t old : table) : length conn = n -> Forall (fun r => length r = nb) conn ->
    (Z.of_nat n < 2 ^ 31)%Z -> (Z.of_nat nb < 2 ^ 31)%Z ->
    rectangular S n nb t -> no_hollow S t -> wide S n nb old ->
    exists t', read_sparse S listing conn (write_sparse S t) old = Ok t' /\ length t' = n /\
      (old = [] -> t' = t) /\
      forall i j, i < n -> j < nb -> entry t' i j = match entry t i j with
                                                   | Some (Some m) => Some (Some m)
                                                   | _ => if i <? length old then entry old i j else Some None
                                                   end.
  Proof.
    intros Hn Hc Sn Sb Hr Hh Hw. destruct (listing_cells t) as (cs & El & Hp).
    set (t0 := resize (length conn) (repeat None (extent1 conn)) old).
    assert (Hext : 0 < n -> extent1 conn = nb).
    { intros H. destruct conn as [|r conn]; [cbn in Hn; lia|]. inversion_clear Hc; assumption. }
    assert (E0 : forall i j, i < n -> j < nb -> entry t0 i j = if i <? length old then entry old i j else Some None).
    { intros i j Hi Hj. unfold AtomH5Spec.entry, t0. rewrite resize_nth, Hn. replace (i <? n) with true by (symmetry; apply Nat.ltb_lt; lia).
      destruct (i <? length old); [reflexivity|]. rewrite nth_repeat, Hext by lia. replace (j <? nb) with true by (symmetry; apply Nat.ltb_lt; lia). reflexivity. }
    assert (Hin : forall i j m, In ((i, j), m) cs <-> entry t i j = Some (Some m)).
    { intros i j m. rewrite <- (Permutation_in' (eq_refl (i, j, m)) (Permutation_sym Hp)), cells_In. split; [tauto|]. intros H. split; [exact H|]. apply is_empty_false. exact (Hh i j m H). }
    destruct (run_ok cs) with (t := t0) as (t' & E & Sh & Sp).
    - apply Forall_forall. intros [[i j] m] H. apply Hin in H. unfold small. cbn [fst snd]. assert (H' : entry t i j <> None) by congruence. apply (rect_entry n nb t i j Hr) in H'. lia.
    - intros [i j] m m' A B. apply Hin in A. apply Hin in B. congruence.
    - intros i j m A. apply Hin in A. assert (H' : entry t i j <> None) by congruence. apply (rect_entry n nb t i j Hr) in H'. destruct H' as [Hi Hj]. rewrite (E0 i j Hi Hj).
      destruct (i <? length old) eqn:Eo; [|discriminate]. apply Nat.ltb_lt in Eo. unfold AtomH5Spec.entry. destruct (nth_error old i) as [row|] eqn:Er; [|apply nth_error_None in Er; lia].
      specialize (Hw i row Hi Er). apply nth_error_Some. lia.
    - assert (Hlen : length t' = n).
      { rewrite <- (map_length (@length _) t'), Sh, map_length. unfold t0. rewrite resize_length. exact Hn. }
      assert (Hent : forall i j, i < n -> j < nb -> entry t' i j = match entry t i j with
                                                   | Some (Some m) => Some (Some m)
                                                   | _ => if i <? length old then entry old i j else Some None
                                                   end).
      { intros i j Hi Hj. destruct (Sp i j) as [Sp1 Sp2]. destruct (entry t i j) as [[m|]|] eqn:Ee.
        - apply Sp1, Hin, Ee.
        - rewrite Sp2; [apply E0; assumption|]. intros m Hm. apply Hin in Hm. congruence.
        - rewrite Sp2; [apply E0; assumption|]. intros m Hm. apply Hin in Hm. congruence. }
      exists t'. split; [unfold read_sparse; rewrite El; exact E|]. split; [exact Hlen|]. split; [|exact Hent].
      intros ->. assert (Hr' : rectangular S n nb t').
      { split; [exact Hlen|]. apply Forall_forall. intros row Hrow. apply (in_map (@length _)) in Hrow. rewrite Sh in Hrow. unfold t0, resize in Hrow. rewrite firstn_nil in Hrow. cbn [app] in Hrow.
        apply in_map_iff in Hrow. destruct Hrow as (r & <- & Hrr). pose proof (repeat_spec _ _ _ Hrr) as ->. rewrite repeat_length. apply Hext. rewrite <- Hn. destruct (length conn); [destruct Hrr|lia]. }
      apply table_ext.
      + apply list_ext. intros i. destruct Hr' as [A1 A2]. destruct Hr as [B1 B2]. rewrite Forall_forall in A2, B2.
        destruct (nth_error t' i) as [r'|] eqn:Q1; destruct (nth_error t i) as [r|] eqn:Q2.
        * rewrite (map_nth_error _ _ _ Q1), (map_nth_error _ _ _ Q2), (A2 _ (nth_error_In _ _ Q1)), (B2 _ (nth_error_In _ _ Q2)). reflexivity.
        * apply nth_error_None in Q2. assert (i < length t') by (apply nth_error_Some; congruence). lia.
        * apply nth_error_None in Q1. assert (i < length t) by (apply nth_error_Some; congruence). lia.
        * transitivity (@None nat); [|symmetry]; apply nth_error_None; rewrite map_length; apply nth_error_None; assumption.
      + intros i j. destruct (entry t i j) as [x|] eqn:Ee.
        * assert (H' : entry t i j <> None) by congruence. apply (rect_entry n nb t i j Hr) in H'. destruct H' as [Hi Hj]. rewrite (Hent i j Hi Hj), Ee. destruct x; reflexivity.
        * destruct (entry t' i j) as [x|] eqn:Ee'; [|reflexivity]. assert (H' : entry t' i j <> None) by congruence. apply (rect_entry n nb t' i j Hr') in H'. apply (rect_entry n nb t i j Hr) in H'. congruence.
  Qed.
  Lemma read_sparse_nt n nb (conn : list (list Z)) (t old : table) : (Z.of_nat n < 2 ^ 31)%Z -> (Z.of_nat nb < 2 ^ 31)%Z -> rectangular S n nb t ->
    read_sparse S listing conn (write_sparse S t) old = UB \/ exists t', read_sparse S listing conn (write_sparse S t) old = Ok t'.
  Proof.
    intros Sn Sb Hr. destruct (listing_cells t) as (cs & El & Hp). unfold read_sparse. rewrite El. apply run_nt.
    apply Forall_forall. intros [[i' j'] m'] H. apply (Permutation_in _ Hp) in H. apply cells_In in H. destruct H as [H _]. assert (H' : entry t i' j' <> None) by congruence.
    apply (rect_entry n nb t i' j' Hr) in H'. unfold small. cbn [fst snd]. lia.
  Qed.
  Lemma read_sparse_out n nb (conn : list (list Z)) (t old : table) i j m row : length conn = n ->
    (Z.of_nat n < 2 ^ 31)%Z -> (Z.of_nat nb < 2 ^ 31)%Z -> rectangular S n nb t -> no_hollow S t ->
    entry t i j = Some (Some m) -> nth_error old i = Some row -> length row <= j ->
    read_sparse S listing conn (write_sparse S t) old = UB.
  Proof.
    intros Hn Sn Sb Hr Hh He Ho Hl. destruct (listing_cells t) as (cs & El & Hp). unfold read_sparse. rewrite El.
    assert (Hb : forall i j m, In ((i, j), m) cs -> i < n /\ j < nb).
    { intros i' j' m' H. apply (Permutation_in _ Hp) in H. apply cells_In in H. apply (rect_entry n nb t i' j' Hr). destruct H. congruence. }
    apply (run_out cs) with (i := i) (j := j) (m := m).
    - apply Forall_forall. intros [[i' j'] m'] H. apply Hb in H. unfold small. cbn [fst snd]. lia.
    - apply (Permutation_in _ (Permutation_sym Hp)), cells_In. split; [exact He|]. apply is_empty_false. exact (Hh i j m He).
    - assert (Hi : entry t i j <> None) by congruence. apply (rect_entry n nb t i j Hr) in Hi. unfold AtomH5Spec.entry. rewrite resize_nth, Hn.
      replace (i <? n) with true by (symmetry; apply Nat.ltb_lt; lia). replace (i <? length old) with true by (symmetry; apply Nat.ltb_lt; apply nth_error_Some; congruence).
      rewrite Ho. apply nth_error_None. exact Hl.
  Qed.
End Tables.
