From Coq Require Import ZArith List Bool Lia.
From Verif Require Import Base GfSym GfSymSpec GfSym_proofs Flatten FlattenSpec.
Import ListNotations.
Local Open Scope nat_scope.


Lemma subscript_len sh q : subscript sh q -> length q = length sh.
Proof. unfold subscript. induction 1; cbn; auto. Qed.
Lemma rank_lt sh q : subscript sh q -> rank sh q < size sh.
Proof. unfold subscript. induction 1 as [|n i sh q H1 H2 IH]; cbn; [lia|]. nia. Qed.
Lemma indices_length sh : length (target_indices sh) = size sh.
Proof.
  induction sh as [|n sh IH]; cbn [target_indices size]; [reflexivity|]. rewrite <- IH. generalize (target_indices sh). intros l. generalize 0. induction n as [|n IHn]; intros k; cbn [seq flat_map]; [reflexivity|].
  rewrite app_length, map_length, IHn. lia.
Qed.
Lemma indices_rank sh : forall q, subscript sh q -> nth_error (target_indices sh) (rank sh q) = Some q.
Proof.
  unfold subscript. induction sh as [|n sh IH]; intros q H; inversion H as [|? i ? q' H1 H2]; subst; cbn [target_indices rank]; [reflexivity|].
  assert (G : forall k m, i < m -> nth_error (flat_map (fun i => map (cons i) (target_indices sh)) (seq k m)) (i * size sh + rank sh q') = Some ((k + i) :: q')).
  { pose proof (rank_lt sh q' H2) as R. rewrite <- (indices_length sh) in *. clear H1 H. induction i as [|i IHi]; intros k m Hm.
    - destruct m as [|m]; [lia|]. cbn [seq flat_map]. rewrite nth_error_app1 by (rewrite map_length; lia). rewrite nth_error_map. cbn [Nat.mul Nat.add]. rewrite (indices_length sh) in *. rewrite (IH q' H2). cbn. do 2 f_equal. lia.
    - destruct m as [|m]; [lia|]. cbn [seq flat_map]. rewrite nth_error_app2 by (rewrite map_length; lia). rewrite map_length. replace (S i * _ + rank sh q' - _) with (i * length (target_indices sh) + rank sh q') by lia.
      rewrite IHi by lia. do 2 f_equal. lia. }
  apply (G 0 n H1).
Qed.

Section V.
  Context {V : Type}.
  Lemma map_res_total {A B} (f : A -> res B) l : (forall x, In x l -> exists y, f x = Ok y) ->
    exists ys, map_res f l = Ok ys /\ length ys = length l /\ forall k x, nth_error l k = Some x -> exists y, nth_error ys k = Some y /\ f x = Ok y.
  Proof.
    induction l as [|x l IH]; intros H; cbn [map_res].
    - exists []. split; [reflexivity|]. split; [reflexivity|]. intros [|k] x E; discriminate E.
    - destruct (H x (or_introl eq_refl)) as [y Ey]. rewrite Ey. cbn [bind]. destruct IH as (ys & -> & L' & G); [intros z Hz; apply H; right; exact Hz|]. cbn [bind]. exists (y :: ys).
      split; [reflexivity|]. split; [cbn; lia|]. intros [|k] z E; cbn in *; [injection E as <-; eauto|apply G; exact E].
  Qed.
  Lemma at_ok (a : arr V) q : full a -> subscript (a_sh a) q -> exists x, a_at a q = Ok x /\ nth_error (a_dat a) (rank (a_sh a) q) = Some x.
  Proof.
    intros F H. unfold a_at. destruct (nth_error (a_dat a) (rank (a_sh a) q)) as [x|] eqn:E; [exists x; auto|]. apply nth_error_None in E. pose proof (rank_lt _ _ H). rewrite <- F in *. lia.
  Qed.
End V.

Lemma upd_same {A} (l : list A) : forall n x, nth_error l n = Some x -> upd l n x = l.
Proof. induction l as [|y l IH]; intros [|n] x H; cbn in *; try congruence. f_equal. apply IH. exact H. Qed.
Lemma upd_upd {A} (l : list A) : forall n x y, upd (upd l n x) n y = upd l n y.
Proof. induction l as [|z l IH]; intros [|n] x y; cbn; try reflexivity. f_equal. apply IH. Qed.
Lemma upd_at {A} (l : list A) n x : n < length l -> nth_error (upd l n x) n = Some x.
Proof. intros H. rewrite upd_nth by exact H. rewrite Nat.eqb_refl. reflexivity. Qed.
Lemma swap0_ok {A} N (l : list A) : N < length l -> exists l', swap0 N l = Some l' /\ length l' = length l /\ swap0 N l' = Some l.
Proof.
  destruct l as [|x l]; intros H; cbn in H; [lia|]. destruct N as [|n]; cbn [swap0]; [exists (x :: l); auto|].
  destruct (nth_error l n) as [y|] eqn:E; [|apply nth_error_None in E; lia]. exists (y :: upd l n x). split; [reflexivity|]. split; [cbn; rewrite upd_length; reflexivity|].
  cbn [swap0]. rewrite upd_at by lia. rewrite upd_upd. rewrite (upd_same l n y E). reflexivity.
Qed.
Lemma swap0_hd {A} N (l l' : list A) : swap0 N l = Some l' -> exists x r, l' = x :: r /\ nth_error l N = Some x.
Proof.
  destruct l as [|x l]; [destruct N; discriminate|]. destruct N as [|n]; cbn [swap0 nth_error]; [intros [= <-]; eauto|]. destruct (nth_error l n) as [y|]; [|discriminate]. intros [= <-]. eauto.
Qed.
Lemma swap0_subscript N sh q sh' q' : subscript sh q -> swap0 N sh = Some sh' -> swap0 N q = Some q' -> subscript sh' q'.
Proof.
  unfold subscript. intros H. destruct H as [|n i sh q H1 H2]; [destruct N; discriminate|]. destruct N as [|k]; cbn [swap0]; [intros [= <-] [= <-]; constructor; assumption|].
  destruct (nth_error sh k) as [s|] eqn:Es; [|discriminate]. destruct (nth_error q k) as [j|] eqn:Ej; [|discriminate]. intros [= <-] [= <-].
  assert (G : j < s /\ Forall2 (fun n i => i < n) (upd sh k n) (upd q k i)).
  { clear - H1 H2 Es Ej. revert k Es Ej. induction H2 as [|m l sh q H3 H4 IH]; intros [|k] Es Ej; cbn in *; try discriminate.
    - injection Es as ->. injection Ej as ->. split; [exact H3|constructor; assumption].
    - destruct (IH k Es Ej) as [G1 G2]. split; [exact G1|constructor; assumption]. }
  destruct G. constructor; assumption.
Qed.
Lemma size_upd l : forall n x y, nth_error l n = Some y -> x * size l = y * size (upd l n x).
Proof. induction l as [|z l IH]; intros [|n] x y H; cbn in *; try discriminate; [injection H as ->; lia|]. specialize (IH n x y H). nia. Qed.
Lemma swap0_size N l l' : swap0 N l = Some l' -> size l' = size l.
Proof.
  destruct l as [|x l]; [destruct N; discriminate|]. destruct N as [|n]; cbn [swap0]; [intros [= <-]; reflexivity|]. destruct (nth_error l n) as [y|] eqn:E; [|discriminate]. intros [= <-].
  cbn [size]. symmetry. apply size_upd. exact E.
Qed.


Section W.
  Context {V : Type}.
  Lemma transposed_ok N (a : arr V) : full a -> N < length (a_sh a) ->
    exists sh' t, swap0 N (a_sh a) = Some sh' /\ transposed N a = Ok t /\ a_sh t = sh' /\ full t /\
      forall q q', subscript (a_sh a) q -> swap0 N q = Some q' -> a_at t q' = a_at a q.
  Proof.
    intros F HN. destruct (swap0_ok N (a_sh a) HN) as (sh' & E & L' & E'). unfold transposed. rewrite E.
    set (f := fun q : list nat => match swap0 N q with Some q' => a_at a q' | None => UB end).
    destruct (map_res_total f (target_indices sh')) as (d & Ed & Ld & G).
    { intros q Hq. apply target_indices_spec in Hq. unfold f. destruct (swap0_ok N q) as (q' & Eq & _); [rewrite (subscript_len _ _ Hq), L'; exact HN|]. rewrite Eq.
      destruct (at_ok a q' F (swap0_subscript N _ _ _ _ Hq E' Eq)) as (x & Ex & _). eauto. }
    rewrite Ed. cbn [bind]. exists sh', (mkArr sh' d). split; [reflexivity|]. split; [reflexivity|]. split; [reflexivity|].
    split; [unfold full; cbn; rewrite Ld; apply indices_length|]. intros q q' Hq Eq.
    pose proof (swap0_subscript N _ _ _ _ Hq E Eq) as Hq'. destruct (G _ _ (indices_rank sh' q' Hq')) as (y & Ey & Fy). unfold a_at at 1. cbn [a_sh a_dat]. rewrite Ey.
    unfold f in Fy. destruct (swap0_ok N q) as (q2 & Eq2 & _ & Eb); [rewrite (subscript_len _ _ Hq); exact HN|]. rewrite Eq in Eq2. injection Eq2 as <-. rewrite Eb in Fy. congruence.
  Qed.

  Lemma arr_ext (a b : arr V) : full a -> full b -> a_sh a = a_sh b -> (forall q, subscript (a_sh a) q -> a_at a q = a_at b q) -> a = b.
  Proof.
    intros Fa Fb Es H. destruct a as [sh da], b as [sh' db]. cbn in Es. subst sh'. unfold full in *. cbn [a_sh a_dat] in *. f_equal. apply list_ext; [congruence|]. intros d Hd.
    destruct (nth_error (target_indices sh) d) as [q|] eqn:Eq; [|apply nth_error_None in Eq; rewrite indices_length in Eq; lia].
    assert (Hq : subscript sh q) by (apply target_indices_spec; eapply nth_error_In; exact Eq).
    assert (Er : rank sh q = d).
    { pose proof (indices_rank sh q Hq) as E2. assert (N : NoDup (target_indices sh)).
      { clear. induction sh as [|n sh IH]; cbn [target_indices]; [repeat constructor; intros []|]. generalize 0. induction n as [|n IHn]; intros k; cbn [seq flat_map]; [constructor|].
        assert (Nm : forall (i : nat) l, NoDup l -> NoDup (map (@cons nat i) l)).
        { intros i l. induction 1 as [|x l H1 H2 IHl]; cbn; constructor; [|exact IHl]. intros C. apply in_map_iff in C. destruct C as (y & Ey & Hy). congruence. }
        assert (App : forall (l1 l2 : list (list nat)), NoDup l1 -> NoDup l2 -> (forall x, In x l1 -> ~ In x l2) -> NoDup (l1 ++ l2)).
        { induction l1 as [|x l1 IH1]; intros l2 H1 H2 H3; cbn; [exact H2|]. inversion H1; subst. constructor.
          - rewrite in_app_iff. intros [C|C]; [contradiction|apply (H3 x); [left; reflexivity|exact C]].
          - apply IH1; auto. intros y Hy. apply H3. right. exact Hy. }
        apply App; [apply Nm; exact IH|apply IHn|]. intros x Hx C. apply in_map_iff in Hx. destruct Hx as (x' & <- & _). apply in_flat_map in C. destruct C as (i & Hi & C). apply in_seq in Hi. apply in_map_iff in C. destruct C as (x2 & Ex & _). injection Ex as Ex _. lia. }
      apply (NoDup_nth_error (target_indices sh)); [exact N|apply nth_error_Some; congruence|congruence]. }
    specialize (H q Hq). unfold a_at in H. cbn [a_sh a_dat] in H. rewrite Er in H.
    destruct (nth_error da d) as [x|] eqn:E1; [|apply nth_error_None in E1; lia]. destruct (nth_error db d) as [y|] eqn:E2; [|discriminate H]. congruence.
  Qed.

  (** flatten_2d *)
  Lemma flatten_ok N (a : arr V) nrows : full a -> nth_error (a_sh a) N = Some nrows -> 0 < nrows ->
    exists t sh', swap0 N (a_sh a) = Some (nrows :: sh') /\ flatten_2d N a = Ok (mkArr [nrows; size sh'] (a_dat t)) /\ a_sh t = nrows :: sh' /\ full t /\
      transposed N a = Ok t /\
      forall q r c, subscript (a_sh a) q -> swap0 N q = Some (r :: c) -> a_at (mkArr [nrows; size sh'] (a_dat t)) [r; rank sh' c] = a_at a q.
  Proof.
    intros F En Hn. assert (HN : N < length (a_sh a)) by (apply nth_error_Some; congruence).
    destruct (transposed_ok N a F HN) as (sh' & t & Es & Et & Est & Ft & Vt). destruct (swap0_hd N _ _ Es) as (x & r & -> & Ex). rewrite En in Ex. injection Ex as <-.
    exists t, r. split; [exact Es|]. unfold flatten_2d. rewrite En. destruct (Nat.eqb_spec nrows 0); [lia|]. rewrite Et. cbn [bind].
    assert (Sz : length (a_dat a) / nrows = size r).
    { rewrite F. rewrite <- (swap0_size N _ _ Es). cbn [size]. rewrite Nat.mul_comm. apply Nat.div_mul. lia. }
    rewrite Sz. unfold reshape. cbn [size]. unfold full in Ft. rewrite Est in Ft. cbn [size] in Ft. rewrite Ft. rewrite Nat.mul_1_r, Nat.eqb_refl.
    split; [reflexivity|]. split; [exact Est|]. split; [unfold full; rewrite Est; cbn [size]; lia|]. split; [reflexivity|].
    intros q i c Hq Eq. rewrite <- (Vt q (i :: c) Hq Eq). unfold a_at. cbn [a_sh a_dat]. rewrite Est. cbn [rank size]. rewrite Nat.mul_1_r, Nat.mul_1_r || idtac. rewrite ?Nat.mul_1_r, ?Nat.add_0_r. reflexivity.
  Qed.

  Lemma unflatten_flatten N (a : arr V) nrows : full a -> nth_error (a_sh a) N = Some nrows -> 0 < nrows ->
    exists b, flatten_2d N a = Ok b /\ unflatten_2d N (a_sh a) b = Ok a.
  Proof.
    intros F En Hn. destruct (flatten_ok N a nrows F En Hn) as (t & sh' & Es & E & Est & Ft & Et & _). eexists. split; [exact E|].
    unfold unflatten_2d. rewrite Es. unfold reshape. cbn [a_dat]. rewrite Ft, Est, Nat.eqb_refl. cbn [bind].
    assert (Q : mkArr (nrows :: sh') (a_dat t) = t) by (destruct t; cbn in *; subst; reflexivity). rewrite Q.
    assert (HN : N < length (a_sh a)) by (apply nth_error_Some; congruence).
    destruct (swap0_ok N (a_sh a) HN) as (s2 & Es2 & Ls2 & Eb). rewrite Es in Es2. injection Es2 as <-.
    destruct (transposed_ok N t Ft) as (sh2 & u & E2 & Eu & Esu & Fu & Vu); [rewrite Est, Ls2; exact HN|]. rewrite Est, Eb in E2. injection E2 as <-.
    rewrite Eu. f_equal. apply arr_ext; [exact Fu|exact F|congruence|]. intros q Hq. rewrite Esu in Hq.
    destruct (transposed_ok N a F HN) as (sh3 & t3 & E3 & Et3 & _ & _ & Vt). rewrite Et in Et3. injection Et3 as <-.
    destruct (swap0_ok N q) as (q' & Eq & _ & Eqb); [rewrite (subscript_len _ _ Hq); exact HN|].
    rewrite <- (Vt q q' Hq Eq). apply Vu; [|exact Eqb]. rewrite Est. eapply swap0_subscript; [exact Hq|exact Es|exact Eq].
  Qed.

  (** the other way round *)
  Lemma flatten_unflatten N (sh : list nat) (b : arr V) nrows ncols : full b -> nth_error sh N = Some nrows -> 0 < nrows -> a_sh b = [nrows; ncols] -> size sh = nrows * ncols ->
    exists a, unflatten_2d N sh b = Ok a /\ a_sh a = sh /\ full a /\ flatten_2d N a = Ok b.
  Proof.
    intros F En Hn Eb Hs. assert (HN : N < length sh) by (apply nth_error_Some; congruence). destruct (swap0_ok N sh HN) as (s' & Es & Ls & Esb).
    unfold unflatten_2d. rewrite Es. unfold reshape. unfold full in F. rewrite Eb in F. cbn [size] in F. rewrite Nat.mul_1_r in F. rewrite (swap0_size N _ _ Es), F, Hs, Nat.eqb_refl. cbn [bind].
    set (t := mkArr s' (a_dat b)). assert (Ft : full t) by (unfold full, t; cbn; rewrite (swap0_size N _ _ Es), F; lia).
    destruct (transposed_ok N t Ft) as (sh2 & a & E2 & Ea & Esa & Fa & Va); [unfold t; cbn; rewrite Ls; exact HN|]. unfold t in E2. cbn [a_sh] in E2. rewrite Esb in E2. injection E2 as <-.
    exists a. split; [exact Ea|]. split; [exact Esa|]. split; [exact Fa|]. rewrite <- Esa in En. destruct (flatten_ok N a nrows Fa En Hn) as (t' & r & Es' & E & Est & Ft' & Et' & _). rewrite E. f_equal.
    rewrite Esa in Es'. rewrite Es in Es'. injection Es' as ->.
    assert (Q : t' = t).
    { destruct (transposed_ok N a Fa) as (sh3 & t3 & E3 & Et3 & Est3 & Ft3 & Vt); [rewrite Esa; exact HN|]. rewrite Et' in Et3. injection Et3 as <-. apply arr_ext; [exact Ft'|exact Ft|rewrite Est; reflexivity|].
      intros q Hq. rewrite Est in Hq. destruct (swap0_ok N q) as (q' & Eq & _ & Eqb); [rewrite (subscript_len _ _ Hq), Ls; exact HN|].
      assert (Hq' : subscript (a_sh a) q') by (rewrite Esa; eapply swap0_subscript; [exact Hq|exact Esb|exact Eq]).
      rewrite (Vt q' q Hq' Eqb). apply (Va q q'); [exact Hq|exact Eq]. }
    rewrite Q. unfold t. cbn [a_dat]. destruct b as [sb db]. cbn in *. subst sb. f_equal. f_equal. f_equal. pose proof (swap0_size N _ _ Es) as Z. cbn [size] in Z. nia.
  Qed.
End W.

Lemma swap0_others {A} N (l r : list A) : swap0 N l = Some r -> exists x, nth_error l N = Some x /\ r = x :: others N l.
Proof.
  destruct l as [|a l]; destruct N as [|n]; cbn; intros E; try discriminate E.
  - injection E as <-. eauto.
  - destruct (nth_error l n) as [y|] eqn:Ey; [|discriminate E]. injection E as <-. exists y. split; [reflexivity|]. f_equal.
    clear - Ey. revert n y Ey. induction l as [|b l IH]; intros [|n] y Ey; cbn in *; try discriminate; [reflexivity|]. rewrite (IH n y Ey). reflexivity.
Qed.
Lemma others_without {A} N (l : list A) : N <= 1 -> others N l = without N l.
Proof. destruct N as [|[|n]]; intros H; [|destruct l; reflexivity|lia]. destruct l; reflexivity. Qed.
