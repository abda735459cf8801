(** Lists, maps and reordering used by atom_diag's complete(). *)
From Coq Require Import ZArith NArith List Arith Bool Lia Sorted Permutation.
From Verif Require Import Base Scalar Hilbert Partition AtomDiag AtomDiagSpec.
Import ListNotations.
Local Open Scope nat_scope.

Lemma mapM_ok {A B} (f : A -> res B) (P : A -> B -> Prop) l :
  (forall x, In x l -> exists y, f x = Ok y /\ P x y) -> exists ys, mapM f l = Ok ys /\ Forall2 P l ys.
Proof.
  induction l as [|x l IH]; intros H; [exists []; split; [reflexivity|constructor]|].
  destruct (H x) as (y & Ey & Py); [left; reflexivity|]. destruct IH as (ys & Eys & Pys); [intros; apply H; right; assumption|].
  exists (y :: ys). split; [cbn [mapM]; rewrite Ey; cbn [bind]; rewrite Eys; reflexivity|constructor; assumption].
Qed.
Lemma mapM_inv {A B} (f : A -> res B) l ys : mapM f l = Ok ys -> Forall2 (fun x y => f x = Ok y) l ys.
Proof.
  revert ys. induction l as [|x l IH]; intros ys H; cbn [mapM] in H; [injection H as <-; constructor|].
  destruct (f x) as [y| |] eqn:E; cbn [bind] in H; try discriminate. destruct (mapM f l) as [zs| |]; cbn [bind] in H; try discriminate.
  injection H as <-. constructor; auto.
Qed.
Lemma Forall2_nth {A B} (P : A -> B -> Prop) l l' i x : Forall2 P l l' -> nth_error l i = Some x -> exists y, nth_error l' i = Some y /\ P x y.
Proof.
  intros H. revert i. induction H as [|a b l l' Hp H IH]; intros [|i] E; cbn in E; try discriminate.
  - injection E as <-. exists b. auto.
  - apply IH. exact E.
Qed.
Lemma Forall2_nth' {A B} (P : A -> B -> Prop) l l' i y : Forall2 P l l' -> nth_error l' i = Some y -> exists x, nth_error l i = Some x /\ P x y.
Proof.
  intros H. revert i. induction H as [|a b l l' Hp H IH]; intros [|i] E; cbn in E; try discriminate.
  - injection E as <-. exists a. auto.
  - apply IH. exact E.
Qed.
Lemma Forall2_len {A B} (P : A -> B -> Prop) l l' : Forall2 P l l' -> length l = length l'.
Proof. induction 1; cbn; congruence. Qed.

Lemma combine_seq_nth {A} (l : list A) k i x : nth_error (combine (seq k (length l)) l) i = Some x <-> exists y, nth_error l i = Some y /\ x = (k + i, y).
Proof.
  revert k i. induction l as [|a l IH]; intros k i; cbn.
  - destruct i; cbn; split; try discriminate; intros (y & H & _); discriminate.
  - destruct i as [|i]; cbn.
    + rewrite Nat.add_0_r. split; [intros H; injection H as <-; eauto|intros (y & H & ->); injection H as ->; reflexivity].
    + rewrite IH. rewrite Nat.add_succ_r. reflexivity.
Qed.
Lemma enum_nth {A} (l : list A) i x : nth_error (enum l) i = Some x <-> exists y, nth_error l i = Some y /\ x = (i, y).
Proof. unfold enum. rewrite combine_seq_nth. reflexivity. Qed.
Lemma enum_nth' {A} (l : list A) i y : nth_error l i = Some y -> nth_error (enum l) i = Some (i, y).
Proof. intros H. apply enum_nth. eauto. Qed.
Lemma enum_In {A} (l : list A) i y : In (i, y) (enum l) <-> nth_error l i = Some y.
Proof.
  split.
  - intros H. apply In_nth_error in H. destruct H as [k H]. apply enum_nth in H. destruct H as (z & H & E). injection E as -> ->. exact H.
  - intros H. eapply nth_error_In. apply enum_nth'. exact H.
Qed.
Lemma enum_length {A} (l : list A) : length (enum l) = length l.
Proof. unfold enum. rewrite combine_length, seq_length. apply Nat.min_id. Qed.

Lemma upd_length {A} i (u : A -> A) l : length (upd i u l) = length l.
Proof. revert i. induction l as [|x l IH]; intros [|i]; cbn; auto. Qed.
Lemma upd_nth {A} i (u : A -> A) l k : nth_error (upd i u l) k = if i =? k then option_map u (nth_error l k) else nth_error l k.
Proof.
  revert i k. induction l as [|x l IH]; intros i k.
  - destruct i, k; cbn; try reflexivity; destruct (_ =? _); reflexivity.
  - destruct i as [|i], k as [|k]; cbn; auto.
Qed.
Lemma nth_error_Some_lt {A} (l : list A) i x : nth_error l i = Some x -> i < length l.
Proof. intros H. apply nth_error_Some. congruence. Qed.
Lemma nth_error_lt {A} (l : list A) i : i < length l -> exists x, nth_error l i = Some x.
Proof. intros H. destruct (nth_error l i) eqn:E; [eauto|]. apply nth_error_None in E. lia. Qed.
Lemma nth_of_error {A} (l : list A) i x d : nth_error l i = Some x -> nth i l d = x.
Proof. apply nth_error_nth. Qed.

(** positions in a permutation of 0..n-1 *)
Lemma pos_of_spec ks r p : NoDup ks -> (pos_of ks r = Some p <-> nth_error ks p = Some r).
Proof.
  intros H. revert p. induction H as [|k ks Hk _ IH]; intros p; cbn.
  - split; [discriminate|destruct p; discriminate].
  - destruct (Nat.eqb_spec k r) as [->|Hne].
    + split; [intros E; injection E as <-; reflexivity|]. destruct p as [|p]; [reflexivity|]. cbn. intros E. exfalso. apply Hk. eapply nth_error_In; exact E.
    + destruct p as [|p]; cbn.
      * split; [destruct (pos_of ks r); discriminate|congruence].
      * rewrite <- IH. destruct (pos_of ks r); cbn; split; congruence.
Qed.
Lemma pos_of_None ks r : pos_of ks r = None <-> ~ In r ks.
Proof.
  induction ks as [|k ks IH]; cbn; [tauto|]. destruct (Nat.eqb_spec k r) as [->|Hne].
  - split; [discriminate|tauto].
  - destruct (pos_of ks r) as [q|]; cbn; [|tauto]. split; [discriminate|]. intros H. exfalso.
    assert (Some q = None) by (apply IH; tauto). discriminate.
Qed.
Lemma index_of_spec ks r p : NoDup ks -> nth_error ks p = Some r -> index_of ks r = p.
Proof. intros H E. unfold index_of. apply (pos_of_spec ks r p H) in E. rewrite E. reflexivity. Qed.

Section Perm.
  Variable n : nat.
  Variable ord : list nat.
  Hypothesis P : Permutation ord (seq 0 n).
  Lemma ord_nodup : NoDup ord.
  Proof. eapply Permutation_NoDup; [apply Permutation_sym, P|apply seq_NoDup]. Qed.
  Lemma ord_len : length ord = n.
  Proof. rewrite (Permutation_length P). apply seq_length. Qed.
  Lemma ord_lt b k : nth_error ord b = Some k -> k < n.
  Proof. intros H. apply nth_error_In in H. apply (Permutation_in _ P) in H. apply in_seq in H. lia. Qed.
  Lemma ord_pos k : k < n -> exists b, nth_error ord b = Some k /\ index_of ord k = b /\ b < n.
  Proof.
    intros H. assert (Hin : In k ord) by (apply (Permutation_in _ (Permutation_sym P)), in_seq; lia).
    apply In_nth_error in Hin. destruct Hin as [b Hb]. exists b. split; [exact Hb|]. split; [apply index_of_spec; auto using ord_nodup|].
    apply nth_error_Some_lt in Hb. rewrite ord_len in Hb. exact Hb.
  Qed.
  Lemma ord_at b : b < n -> exists k, nth_error ord b = Some k /\ index_of ord k = b /\ k < n.
  Proof.
    intros H. destruct (nth_error_lt ord b) as [k Hk]; [rewrite ord_len; exact H|]. exists k. split; [exact Hk|].
    split; [apply index_of_spec; auto using ord_nodup|]. eapply ord_lt; exact Hk.
  Qed.

  Definition remap_val (c : Z) : Z := if (c =? -1)%Z then (-1)%Z else Z.of_nat (index_of ord (Z.to_nat c)).
  Lemma remap_row_spec row : length row = n -> length (remap_row ord row) = n /\
    forall b k c, nth_error ord b = Some k -> nth_error row k = Some c -> nth_error (remap_row ord row) b = Some (remap_val c).
  Proof.
    intros HL. unfold remap_row.
    set (f := fun (r : list Z) (ic : nat * Z) => upd (index_of ord (fst ic)) (fun _ => if (snd ic =? -1)%Z then (-1)%Z else Z.of_nat (index_of ord (Z.to_nat (snd ic)))) r).
    assert (F1 : forall es r, length (fold_left f es r) = length r).
    { induction es as [|x es IH]; intros r; [reflexivity|]. cbn [fold_left]. rewrite IH. apply upd_length. }
    split; [rewrite F1; exact HL|].
    intros b k c Hb Hk. pose proof (index_of_spec ord k b ord_nodup Hb) as Ib.
    assert (Blt : b < n) by (apply nth_error_Some_lt in Hb; rewrite ord_len in Hb; exact Hb).
    assert (G : forall es r, length r = n -> (forall i x, In (i, x) es -> nth_error row i = Some x) ->
      (In (k, c) es \/ nth_error r b = Some (remap_val c)) -> nth_error (fold_left f es r) b = Some (remap_val c)).
    { induction es as [|[i x] es IH]; intros r Hr He H; cbn [fold_left]; [destruct H as [[]|H]; exact H|].
      apply IH; [unfold f; rewrite upd_length; exact Hr|intros; apply He; right; assumption|].
      pose proof (He i x (or_introl eq_refl)) as Hx. unfold f. cbn [fst snd]. fold (remap_val x). rewrite upd_nth.
      destruct (Nat.eqb_spec (index_of ord i) b) as [e|e].
      - assert (i = k).
        { assert (Hi : i < n) by (apply nth_error_Some_lt in Hx; lia). destruct (ord_pos i Hi) as (b' & Hb' & Ib' & _).
          rewrite e in Ib'. subst b'. rewrite Hb in Hb'. congruence. }
        subst i. rewrite Hk in Hx. injection Hx as <-. right. destruct (nth_error_lt r b) as [y Hy]; [lia|]. rewrite Hy. reflexivity.
      - destruct H as [[H|H]|H]; [injection H as -> ->; congruence|auto|auto]. }
    apply G; [exact HL|intros i x; apply enum_In|left; apply enum_In; exact Hk].
  Qed.
End Perm.

(** ---- eign_map ---- *)
Section Order.
  Context (S : scalar_ops) (E : energy_ops S) (EL : energy_laws S E).
  Notation em_lt := (em_lt S E). Notation em_insert := (em_insert S E).

  Lemma em_lt_irrefl x : em_lt x x = false.
  Proof. unfold em_lt. rewrite (el_irrefl S E EL). apply Nat.ltb_irrefl. Qed.
  Lemma em_lt_total x y : em_lt x y = false -> em_lt y x = false -> x = y.
  Proof.
    unfold em_lt. destruct x as [x i], y as [y j]. cbn [fst snd]. intros H1 H2.
    destruct (e_lt x y) eqn:A; [discriminate|]. destruct (e_lt y x) eqn:B; [discriminate|].
    pose proof (el_total S E EL x y A B) as ->. f_equal. apply Nat.ltb_ge in H1. apply Nat.ltb_ge in H2. lia.
  Qed.
  Lemma em_lt_trans x y z : em_lt x y = true -> em_lt y z = true -> em_lt x z = true.
  Proof.
    unfold em_lt. destruct x as [x i], y as [y j], z as [z k]. cbn [fst snd]. intros H1 H2.
    destruct (e_lt x y) eqn:A.
    - destruct (e_lt y z) eqn:B; [rewrite (el_trans S E EL x y z A B); reflexivity|].
      destruct (e_lt z y) eqn:C; [discriminate|]. pose proof (el_total S E EL y z B C) as ->. rewrite A. reflexivity.
    - destruct (e_lt y x) eqn:A'; [discriminate|]. pose proof (el_total S E EL x y A A') as ->.
      destruct (e_lt y z); [reflexivity|]. destruct (e_lt z y); [discriminate|]. apply Nat.ltb_lt in H1. apply Nat.ltb_lt in H2. apply Nat.ltb_lt. lia.
  Qed.
  Definition em_sorted (m : list (em_key S E * eigsys S E)) : Prop := StronglySorted (fun x y => em_lt (fst x) (fst y) = true) m.

  Lemma em_insert_spec x m : em_sorted m -> ~ In (fst x) (map fst m) -> em_sorted (em_insert x m) /\ Permutation (em_insert x m) (x :: m).
  Proof.
    induction 1 as [|y m Hm IH HF]; intros Hn; cbn [em_insert AtomDiag.em_insert].
    - split; [constructor; [constructor|constructor]|apply Permutation_refl].
    - destruct (em_lt (fst x) (fst y)) eqn:A.
      + split; [|apply Permutation_refl]. constructor; [constructor; assumption|]. constructor; [exact A|].
        rewrite Forall_forall in *. intros z Hz. eapply em_lt_trans; [exact A|apply HF, Hz].
      + destruct (em_lt (fst y) (fst x)) eqn:B.
        * destruct IH as [I1 I2]; [intros H; apply Hn; right; exact H|]. split.
          -- constructor; [exact I1|]. rewrite Forall_forall in *. intros z Hz. apply (Permutation_in _ I2) in Hz. destruct Hz as [<-|Hz]; auto.
          -- eapply Permutation_trans; [apply perm_skip, I2|apply perm_swap].
        * exfalso. apply Hn. left. symmetry. apply em_lt_total; assumption.
  Qed.
  Lemma em_build bs : NoDup (map fst bs) ->
    let em := fold_left (fun m b => em_insert b m) bs [] in em_sorted em /\ Permutation em bs.
  Proof.
    intros HN. assert (G : forall bs m, em_sorted m -> NoDup (map fst bs) -> (forall x, In x bs -> ~ In (fst x) (map fst m)) ->
      let em := fold_left (fun m b => em_insert b m) bs m in em_sorted em /\ Permutation em (m ++ bs)).
    { clear -EL. induction bs as [|x bs IH]; intros m Hm HN Hd; cbn [fold_left].
      - split; [exact Hm|]. rewrite app_nil_r. apply Permutation_refl.
      - cbn [map] in HN. inversion_clear HN as [|? ? Hx HN']. destruct (em_insert_spec x m Hm) as [I1 I2]; [apply Hd; left; reflexivity|].
        destruct (IH (em_insert x m) I1 HN') as [J1 J2].
        { intros y Hy Hin. apply (Permutation_in _ (Permutation_map fst I2)) in Hin. cbn [map] in Hin. destruct Hin as [Hin|Hin].
          - apply Hx. rewrite Hin. apply in_map, Hy.
          - apply (Hd y); [right; exact Hy|exact Hin]. }
        split; [exact J1|]. eapply Permutation_trans; [exact J2|]. eapply Permutation_trans; [apply Permutation_app_tail, I2|].
        cbn. apply Permutation_middle. }
    destruct (G bs [] (SSorted_nil _) HN) as [G1 G2]; [intros x _ []|]. split; assumption.
  Qed.

  (** ground state energy *)
  Definition first_energy (b : em_key S E * eigsys S E) : option E := nth_error (evals S E (snd b)) 0.
  Lemma gs_fold bs : (forall b, In b bs -> first_energy b <> None) -> bs <> [] ->
    exists g, fold_left (gs_step S E) bs None = Some g /\ (exists b, In b bs /\ first_energy b = Some g) /\
      forall b x, In b bs -> first_energy b = Some x -> e_lt x g = false.
  Proof.
    intros Hne Hnn.
    assert (G : forall bs g0, (forall b, In b bs -> first_energy b <> None) ->
      exists g, fold_left (gs_step S E) bs (Some g0) = Some g /\ (g = g0 \/ exists b, In b bs /\ first_energy b = Some g) /\
        e_lt g0 g = false /\ forall b x, In b bs -> first_energy b = Some x -> e_lt x g = false).
    { clear -EL. induction bs as [|b bs IH]; intros g0 Hne; cbn [fold_left].
      - exists g0. split; [reflexivity|]. split; [auto|]. split; [apply (el_irrefl S E EL)|]. intros b x [].
      - assert (Hb : first_energy b <> None) by (apply Hne; left; reflexivity). unfold first_energy in Hb.
        unfold gs_step at 2. destruct (evals S E (snd b)) as [|e0 ev] eqn:Ee; [exfalso; apply Hb; reflexivity|].
        assert (Fb : first_energy b = Some e0) by (unfold first_energy; rewrite Ee; reflexivity).
        destruct (e_lt e0 g0) eqn:A.
        + destruct (IH e0) as (g & E1 & E2 & E3 & E4); [intros; apply Hne; right; assumption|]. rewrite E1. exists g. split; [reflexivity|].
          split. { right. destruct E2 as [->|(b' & H1 & H2)]; [exists b; cbn; auto|exists b'; cbn; auto]. }
          split.
          { destruct (e_lt g0 g) eqn:C; [|reflexivity]. rewrite (el_trans S E EL e0 g0 g A C) in E3. discriminate. }
          intros b' x [<-|H] Hx; [rewrite Fb in Hx; injection Hx as <-; exact E3|apply (E4 b'); assumption].
        + destruct (IH g0) as (g & E1 & E2 & E3 & E4); [intros; apply Hne; right; assumption|]. rewrite E1. exists g. split; [reflexivity|].
          split. { destruct E2 as [->|(b' & H1 & H2)]; [auto|right; exists b'; cbn; auto]. }
          split; [exact E3|].
          intros b' x [<-|H] Hx; [|apply (E4 b'); assumption]. rewrite Fb in Hx. injection Hx as <-.
          destruct (e_lt e0 g) eqn:C; [|reflexivity].
          destruct (e_lt g g0) eqn:D; [rewrite (el_trans S E EL e0 g g0 C D) in A; discriminate|].
          pose proof (el_total S E EL g0 g E3 D) as ->. congruence. }
    destruct bs as [|b bs]; [congruence|]. cbn [fold_left].
    assert (Hb : first_energy b <> None) by (apply Hne; left; reflexivity). unfold first_energy in Hb. unfold gs_step at 2.
    destruct (evals S E (snd b)) as [|e0 ev] eqn:Ee; [exfalso; apply Hb; reflexivity|].
    assert (Fb : first_energy b = Some e0) by (unfold first_energy; rewrite Ee; reflexivity).
    destruct (G bs e0) as (g & E1 & E2 & E3 & E4); [intros; apply Hne; right; assumption|]. exists g. split; [exact E1|].
    split. { destruct E2 as [->|(b' & H1 & H2)]; [exists b; cbn; auto|exists b'; cbn; auto]. }
    intros b' x [<-|H] Hx; [rewrite Fb in Hx; injection Hx as <-; exact E3|apply (E4 b'); assumption].
  Qed.
End Order.
