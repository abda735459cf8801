From Coq Require Import ZArith Reals List Bool Lia Lra.
From Verif Require Import McTools.
Import ListNotations.
Local Open Scope Z_scope.

(** ---- selection of the move ---- *)
Section Pick.
Local Open Scope R_scope.
Lemma sum_list_nonneg l : Forall (fun w => 0 <= w) l -> 0 <= sum_list l.
Proof. induction 1; cbn [sum_list]; lra. Qed.
Lemma sum_list_app a b : sum_list (a ++ b) = sum_list a + sum_list b.
Proof. induction a as [|x a IH]; cbn [sum_list app]; [lra|]. rewrite IH. lra. Qed.
Lemma sum_list_div l c : sum_list (map (fun p => p / c) l) = sum_list l / c.
Proof. induction l as [|x l IH]; cbn [sum_list map]; [unfold Rdiv; lra|]. rewrite IH. unfold Rdiv. lra. Qed.
Lemma prefix_len l : forall a, length (prefix_sums a l) = length l.
Proof. induction l as [|x l IH]; intros a; cbn [prefix_sums length]; [reflexivity|]. rewrite IH. reflexivity. Qed.
Lemma shift_len l : length (shift_last l) = length l.
Proof. induction l as [|x [|y l] IH]; cbn [shift_last length] in *; [reflexivity|reflexivity|]. rewrite IH. reflexivity. Qed.
Lemma prefix_nth l : forall a i, (i < length l)%nat -> nth i (prefix_sums a l) 0 = a + sum_list (firstn (S i) l).
Proof.
  induction l as [|x l IH]; intros a i Hi; cbn [length] in Hi; [lia|]. destruct i as [|i]; cbn [prefix_sums nth firstn sum_list].
  - lra.
  - rewrite IH by lia. cbn [firstn sum_list]. lra.
Qed.
Lemma shift_nth l : forall i, (i < length l)%nat ->
  nth i (shift_last l) 0 = nth i l 0 + (if Nat.eqb (S i) (length l) then 1 / 1000 else 0).
Proof.
  induction l as [|x [|y l] IH]; intros i Hi; cbn [length] in Hi; [lia| |].
  - assert (i = 0%nat) as -> by lia. reflexivity.
  - change (shift_last (x :: y :: l)) with (x :: shift_last (y :: l)). destruct i as [|i]; cbn [nth]; [cbn; lra|]. rewrite (IH i) by (cbn [length]; lia). reflexivity.
Qed.
(** the first entry above u *)
Lemma first_above_spec u l k :
  first_above u l = Some k <-> (k < length l)%nat /\ u < nth k l 0 /\ forall j, (j < k)%nat -> nth j l 0 <= u.
Proof.
  revert k. induction l as [|x l IH]; intros k; cbn [first_above].
  - split; [discriminate|]. cbn. intros [H _]. lia.
  - destruct (Rle_dec x u) as [Hx|Hx].
    + destruct k as [|k].
      * split; [destruct (first_above u l); discriminate|]. cbn. intros (_ & H & _). lra.
      * split.
        -- intros Hs. assert (E : first_above u l = Some k) by (destruct (first_above u l); cbn in Hs; congruence). apply IH in E as (H1 & H2 & H3). cbn [length nth].
           split; [lia|]. split; [exact H2|]. intros [|j] Hj; [exact Hx|]. apply H3. lia.
        -- intros (H1 & H2 & H3). cbn [length nth] in *. assert (first_above u l = Some k) as ->; [|reflexivity].
           apply IH. split; [lia|]. split; [exact H2|]. intros j Hj. apply (H3 (S j)). lia.
    + split.
      * intros [= <-]. cbn. split; [lia|]. split; [lra|]. intros j Hj. lia.
      * intros (_ & _ & H3). destruct k as [|k]; [reflexivity|]. exfalso. apply Hx. apply (H3 0%nat). lia.
Qed.
Lemma first_above_exists u l : (exists k, (k < length l)%nat /\ u < nth k l 0) -> exists k, first_above u l = Some k.
Proof.
  induction l as [|x l IH]; intros (k & Hk & Hu); cbn [length] in Hk; [lia|]. cbn [first_above]. destruct (Rle_dec x u) as [Hx|Hx]; [|eauto].
  destruct k as [|k]; [cbn in Hu; lra|]. destruct IH as [j ->]; [exists k; split; [lia|exact Hu]|]. eexists. reflexivity.
Qed.
(** any cumulative table that starts at 0 and ends above 1 selects an existing move,
    whatever rounding was made in computing it *)
Lemma thm_pick_safe acc u : (2 <= length acc)%nat -> nth 0 acc 0 = 0 -> 1 <= nth (length acc - 1) acc 0 ->
  0 <= u < 1 -> exists k, pick acc u = Some k /\ (S k < length acc)%nat.
Proof.
  intros HL H0 H1 Hu. destruct (first_above_exists u acc) as [k Ek].
  { exists (length acc - 1)%nat. split; [lia|lra]. }
  unfold pick. rewrite Ek. apply first_above_spec in Ek as (Hk & Hlt & _). destruct k as [|k]; [lra|]. exists k. split; [reflexivity|exact Hk].
Qed.
Definition cum (ws : list R) (k : nat) : R := sum_list (firstn k ws) / sum_list ws.
Lemma normalise_len p : length (normalise p) = length p.
Proof. unfold normalise. rewrite shift_len, prefix_len, map_length. reflexivity. Qed.
Lemma firstn_map_ A B (f : A -> B) l n : firstn n (map f l) = map f (firstn n l).
Proof. revert n. induction l as [|x l IH]; intros [|n]; cbn; f_equal; auto. Qed.
Lemma normalise_nth ws i : (i <= length ws)%nat ->
  nth i (normalise (0 :: ws)) 0 = cum ws i + (if Nat.eqb i (length ws) then 1 / 1000 else 0).
Proof.
  intros Hi. unfold normalise. rewrite shift_nth by (rewrite prefix_len, map_length; cbn [length]; lia).
  rewrite prefix_nth by (rewrite map_length; cbn [length]; lia). rewrite prefix_len, map_length. cbn [length Nat.eqb].
  rewrite firstn_map_, sum_list_div. cbn [firstn sum_list]. unfold cum. rewrite !Rplus_0_l. reflexivity.
Qed.
Lemma cum_0 ws : cum ws 0 = 0.
Proof. unfold cum. cbn. unfold Rdiv. lra. Qed.
Lemma cum_all ws : sum_list ws <> 0 -> cum ws (length ws) = 1.
Proof. intros H. unfold cum. rewrite firstn_all. field. exact H. Qed.
Lemma Forall_firstn_ (P : R -> Prop) l : Forall P l -> forall n, Forall P (firstn n l).
Proof. induction 1; intros [|n]; cbn [firstn]; auto. Qed.
Lemma firstn_sum_mono ws : Forall (fun w => 0 <= w) ws -> forall i j, (i <= j)%nat -> sum_list (firstn i ws) <= sum_list (firstn j ws).
Proof.
  induction 1 as [|w ws Hw Hws IH]; intros i j Hij; [rewrite !firstn_nil; lra|]. destruct i as [|i].
  - cbn [firstn sum_list]. apply sum_list_nonneg. apply Forall_firstn_. constructor; assumption.
  - destruct j as [|j]; [lia|]. cbn [firstn sum_list]. assert (sum_list (firstn i ws) <= sum_list (firstn j ws)) by (apply IH; lia). lra.
Qed.
Lemma cum_mono ws i j : Forall (fun w => 0 <= w) ws -> 0 < sum_list ws -> (i <= j)%nat -> cum ws i <= cum ws j.
Proof.
  intros Hw Hs Hij. unfold cum, Rdiv. apply Rmult_le_compat_r; [left; apply Rinv_0_lt_compat; exact Hs|]. apply firstn_sum_mono; assumption.
Qed.
(** move k is selected exactly when u is in the k-th interval of the cumulated probabilities *)
Lemma thm_pick ws u k : Forall (fun w => 0 <= w) ws -> 0 < sum_list ws -> 0 <= u < 1 ->
  (pick (normalise (0 :: ws)) u = Some k <-> (k < length ws)%nat /\ cum ws k <= u < cum ws (S k)).
Proof.
  intros Hw Hs Hu.
  assert (Hne : ws <> []). { intros ->. cbn in Hs. lra. }
  assert (HL : length (normalise (0 :: ws)) = S (length ws)) by (rewrite normalise_len; reflexivity).
  assert (Hp : pick (normalise (0 :: ws)) u = Some k <-> first_above u (normalise (0 :: ws)) = Some (S k)).
  { unfold pick. destruct (first_above u (normalise (0 :: ws))) as [[|j]|]; split; intros H; try discriminate; congruence. }
  rewrite Hp, first_above_spec, HL. split.
  - intros (Hk & H1 & H2). split; [lia|]. split.
    + specialize (H2 k). rewrite normalise_nth in H2 by lia. assert (Nat.eqb k (length ws) = false) as E by (apply Nat.eqb_neq; lia). rewrite E in H2.
      assert (cum ws k + 0 <= u) by (apply H2; lia). lra.
    + rewrite normalise_nth in H1 by lia. destruct (Nat.eqb_spec (S k) (length ws)) as [E|E].
      * rewrite E, cum_all by lra. lra.
      * lra.
  - intros (Hk & H1 & H2). split; [lia|]. split.
    + rewrite normalise_nth by lia. destruct (Nat.eqb (S k) (length ws)); lra.
    + intros j Hj. rewrite normalise_nth by lia. assert (Nat.eqb j (length ws) = false) as -> by (apply Nat.eqb_neq; lia).
      assert (cum ws j <= cum ws k) by (apply cum_mono; [assumption|assumption|lia]). lra.
Qed.
Lemma thm_pick_exists ws u : Forall (fun w => 0 <= w) ws -> 0 < sum_list ws -> 0 <= u < 1 ->
  exists k, pick (normalise (0 :: ws)) u = Some k /\ (k < length ws)%nat.
Proof.
  intros Hw Hs Hu. assert (Hne : ws <> []). { intros ->. cbn in Hs. lra. }
  assert (HL : length (normalise (0 :: ws)) = S (length ws)) by (rewrite normalise_len; reflexivity).
  assert (Hlen : (1 <= length ws)%nat) by (destruct ws; [contradiction|cbn; lia]).
  destruct (thm_pick_safe (normalise (0 :: ws)) u) as (k & Hk & Hkl).
  - lia.
  - rewrite normalise_nth by lia. rewrite cum_0. assert (Nat.eqb 0 (length ws) = false) as -> by (apply Nat.eqb_neq; lia). lra.
  - rewrite HL. replace (S (length ws) - 1)%nat with (length ws) by lia. rewrite normalise_nth by lia. rewrite cum_all by lra. rewrite Nat.eqb_refl. lra.
  - exact Hu.
  - exists k. split; [exact Hk|lia].
Qed.
(** the length of the interval is the normalised weight *)
Lemma thm_pick_weight ws k : (k < length ws)%nat -> cum ws (S k) - cum ws k = nth k ws 0 / sum_list ws.
Proof.
  intros Hk. unfold cum. enough (sum_list (firstn (S k) ws) = sum_list (firstn k ws) + nth k ws 0) as -> by (unfold Rdiv; lra).
  revert k Hk. induction ws as [|w ws IH]; intros k Hk; cbn [length] in Hk; [lia|]. destruct k as [|k]; [cbn; lra|].
  change (firstn (S (S k)) (w :: ws)) with (w :: firstn (S k) ws). change (firstn (S k) (w :: ws)) with (w :: firstn k ws). cbn [sum_list nth]. rewrite IH by lia. lra.
Qed.
End Pick.

Section McProofs.
Variables (W Sg Ratio : Type) (smul : Sg -> Sg -> Sg).
Variable classify : Ratio -> option (R * Sg).
Variable moves : list (umove W Sg Ratio).
Variable rng : W -> R * W.
Variable measures : list (Sg -> W -> bool * W).
Variable auxs : list (W -> bool * W).
Variable duty : option (W -> bool * W).
Variable stop_callback : W -> bool * W.
Variable arrive : nat -> list Z.
Variable emerg : nat -> bool.
Variables rethrow has_env : bool.

Notation mc := (mc W Sg Ratio).
Notation event := (event Sg Ratio).
Notation metropolis := (metropolis W Sg Ratio smul classify moves rng arrive).
Notation metropolis_loop := (metropolis_loop W Sg Ratio smul classify moves rng arrive).
Notation cycle := (cycle W Sg Ratio smul classify moves rng measures auxs duty arrive).
Notation catch := (catch W Sg Ratio rethrow has_env).
Notation end_of_cycle := (end_of_cycle W Sg Ratio stop_callback arrive emerg rethrow has_env).
Notation main_loop := (main_loop W Sg Ratio smul classify moves rng measures auxs duty stop_callback arrive emerg rethrow has_env).
Notation run := (run W Sg Ratio smul classify moves rng measures auxs duty stop_callback arrive emerg rethrow has_env).
Notation received := (received W Sg Ratio arrive).
Notation call_auxs := (call_auxs W Sg Ratio).
Notation call_measures := (call_measures W Sg Ratio).
Notation sign_step := (sign_step Sg Ratio smul classify).
Notation step_trace := (step_trace W Sg Ratio classify moves).
Notation full_cycle := (full_cycle W Sg Ratio classify moves measures auxs duty).
Notation cut_cycle := (cut_cycle W Sg Ratio classify moves).
Notation count := (count Sg Ratio).
Notation is_attempt := (is_attempt Sg Ratio).
Notation is_accept := (is_accept Sg Ratio).
Notation is_decided := (is_decided Sg Ratio).
Notation is_measure := (is_measure Sg Ratio).

Lemma count_app p a b : count p (a ++ b) = count p a + count p b.
Proof. unfold McTools.count. rewrite filter_app, app_length. lia. Qed.
Lemma count_nil p : count p [] = 0. Proof. reflexivity. Qed.
Lemma count_cons p e t : count p (e :: t) = (if p e then 1 else 0) + count p t.
Proof. unfold McTools.count. cbn [filter]. destruct (p e); cbn [length]; lia. Qed.

Fixpoint meas_ok (st : Sg * option Sg) (t : list event) : Prop :=
  match t with
  | [] => True
  | e :: t' => match e with EMeasure _ _ _ x _ => x = fst st | _ => True end /\ meas_ok (sign_step st e) t'
  end.
Lemma meas_ok_app st a b : meas_ok st (a ++ b) <-> meas_ok st a /\ meas_ok (fold_left sign_step a st) b.
Proof. revert st. induction a as [|e a IH]; intros st; cbn [app meas_ok fold_left]; [tauto|]. rewrite IH. tauto. Qed.
Lemma meas_ok_split st t p j x ok q : meas_ok st t -> t = p ++ EMeasure _ _ j x ok :: q -> x = fst (fold_left sign_step p st).
Proof. intros H ->. apply meas_ok_app in H as [_ H]. cbn [meas_ok] in H. apply H. Qed.

Lemma incr_nth l k i : nth i (incr l k) 0 = nth i l 0 + (if Nat.eqb i k && (k <? length l)%nat then 1 else 0).
Proof.
  revert k i. induction l as [|x l IH]; intros k i; cbn [incr length].
  - destruct i, k; cbn; try reflexivity; try (rewrite Nat.ltb_irrefl, andb_false_r; reflexivity); destruct (Nat.eqb i k); reflexivity.
  - destruct k as [|k]; cbn [incr].
    + destruct i as [|i]; cbn [nth Nat.eqb andb]; [reflexivity|lia].
    + destruct i as [|i]; cbn [nth Nat.eqb andb]; [lia|]. rewrite IH. reflexivity.
Qed.
Lemma incr_len l k : length (incr l k) = length l.
Proof. revert k. induction l as [|x l IH]; intros [|k]; cbn [incr length]; auto. Qed.

(** what every piece of code preserves *)
Definition ext (s s' : mc) (t : list event) : Prop :=
  mc_trace _ _ _ s' = mc_trace _ _ _ s ++ t /\
  (forall p, fst (fold_left sign_step t (mc_sign _ _ _ s, p)) = mc_sign _ _ _ s' /\ meas_ok (mc_sign _ _ _ s, p) t) /\
  mc_config _ _ _ s' = mc_config _ _ _ s + count is_decided t /\
  (length (mc_prop _ _ _ s) = length moves -> length (mc_acc _ _ _ s) = length moves ->
    length (mc_prop _ _ _ s') = length moves /\ length (mc_acc _ _ _ s') = length moves /\
    (forall k, nth k (mc_prop _ _ _ s') 0 = nth k (mc_prop _ _ _ s) 0 + count (is_attempt k) t) /\
    (forall k, nth k (mc_acc _ _ _ s') 0 = nth k (mc_acc _ _ _ s) 0 + count (is_accept k) t)) /\
  (mc_polls _ _ _ s <= mc_polls _ _ _ s')%nat /\
  mc_sig _ _ _ s' = mc_sig _ _ _ s ++ flat_map arrive (seq (mc_polls _ _ _ s) (mc_polls _ _ _ s' - mc_polls _ _ _ s)) /\
  mc_cycle _ _ _ s' = mc_cycle _ _ _ s /\ mc_emergency _ _ _ s' = mc_emergency _ _ _ s.

Lemma ext_refl s : ext s s [].
Proof.
  unfold ext. rewrite app_nil_r, Nat.sub_diag. cbn [seq flat_map fold_left fst meas_ok]. rewrite app_nil_r, !count_nil. repeat split; try lia; auto.
  - intros k. rewrite count_nil. lia.
  - intros k. rewrite count_nil. lia.
Qed.
Lemma ext_trans s1 s2 s3 t u : ext s1 s2 t -> ext s2 s3 u -> ext s1 s3 (t ++ u).
Proof.
  intros (A1 & A2 & A3 & A4 & A5 & A6 & A7 & A8) (B1 & B2 & B3 & B4 & B5 & B6 & B7 & B8). unfold ext.
  split; [rewrite B1, A1, app_assoc; reflexivity|]. split.
  { intros p. destruct (A2 p) as [A2a A2b]. rewrite fold_left_app, meas_ok_app.
    destruct (fold_left sign_step t (mc_sign _ _ _ s1, p)) as [x q] eqn:E. cbn [fst] in A2a. subst x. destruct (B2 q) as [B2a B2b]. auto. }
  split; [rewrite B3, A3, count_app; lia|]. split.
  { intros L1 L2. destruct (A4 L1 L2) as (L3 & L4 & P1 & P2). destruct (B4 L3 L4) as (L5 & L6 & Q1 & Q2). repeat split; auto.
    - intros k. rewrite Q1, P1, count_app. lia.
    - intros k. rewrite Q2, P2, count_app. lia. }
  split; [lia|]. split.
  { rewrite B6, A6, <- app_assoc, <- flat_map_app. f_equal. f_equal.
    replace (mc_polls _ _ _ s3 - mc_polls _ _ _ s1)%nat with ((mc_polls _ _ _ s2 - mc_polls _ _ _ s1) + (mc_polls _ _ _ s3 - mc_polls _ _ _ s2))%nat by lia.
    rewrite seq_app. f_equal. f_equal; lia. }
  split; congruence.
Qed.
Ltac ext_basic :=
  unfold ext; cbn; rewrite ?app_nil_r, ?Nat.sub_diag; cbn [seq flat_map]; rewrite ?app_nil_r;
  repeat split; auto; try lia; try (intros; rewrite ?count_cons, ?count_nil; cbn; lia).
(** elementary steps that log one event *)
Lemma ext_log s w e : (forall x p, sign_step (x, p) e = (x, p)) -> is_decided e = false ->
  (forall k, is_attempt k e = false) -> (forall k, is_accept k e = false) ->
  match e with EMeasure _ _ _ x _ => x = mc_sign _ _ _ s | _ => True end ->
  ext s (log _ _ _ e (set_w _ _ _ s w)) [e].
Proof.
  intros H1 H2 H3 H4 H5. unfold ext. cbn [log set_w mc_trace mc_sign mc_config mc_prop mc_acc mc_polls mc_sig mc_cycle mc_emergency].
  rewrite Nat.sub_diag. cbn [seq flat_map fold_left meas_ok]. rewrite app_nil_r. split; [reflexivity|]. split.
  { intros p. rewrite H1. split; [reflexivity|]. split; [|exact I]. destruct e; auto. }
  split; [rewrite count_cons, H2, count_nil; lia|]. split.
  { intros L1 L2. repeat split; auto; intros k; rewrite count_cons, count_nil, ?H3, ?H4; lia. }
  split; [lia|]. split; [reflexivity|]. split; reflexivity.
Qed.
Lemma received_ext s b s' : received s = (b, s') -> ext s s' [] /\
  (b = true <-> mc_sig _ _ _ s' <> []) /\ mc_polls _ _ _ s' = S (mc_polls _ _ _ s) /\ mc_w _ _ _ s' = mc_w _ _ _ s /\ mc_nmeas _ _ _ s' = mc_nmeas _ _ _ s.
Proof.
  unfold McTools.received. intros [= <- <-]. split; [|split; [|split; [|split]]]; try reflexivity.
  - unfold ext. cbn [set_polls set_sig mc_trace mc_sign mc_config mc_prop mc_acc mc_polls mc_sig mc_cycle mc_emergency].
    replace (S (mc_polls _ _ _ s) - mc_polls _ _ _ s)%nat with 1%nat by lia. cbn [seq flat_map fold_left meas_ok fst]. rewrite !app_nil_r, !count_nil.
    repeat split; auto; try lia; intros k; rewrite count_nil; lia.
  - cbn [set_polls set_sig mc_sig]. destruct (mc_sig _ _ _ s ++ arrive (mc_polls _ _ _ s)); cbn; split; intros H; try reflexivity; try discriminate; try (exfalso; apply H; reflexivity).
Qed.

Lemma nmeas_keep_metropolis s h s' : metropolis s = Out _ _ _ h s' -> exists t, ext s s' t /\ mc_nmeas _ _ _ s' = mc_nmeas _ _ _ s /\
  (h = HOk -> step_trace t) /\ (h = HSig -> t = [] /\ mc_sig _ _ _ s' <> []).
Proof.
  unfold McTools.metropolis. destruct (received s) as [sg s1] eqn:Er. destruct (received_ext _ _ _ Er) as (E1 & Hb & _ & _ & Hn1).
  destruct sg.
  { intros [= <- <-]. exists []. split; [exact E1|]. split; [exact Hn1|]. split; [discriminate|]. intros _. split; [reflexivity|]. apply Hb. reflexivity. }
  clear Hb. destruct moves as [|m0 ml] eqn:Em.
  { intros [= <- <-]. exists []. split; [exact E1|]. split; [exact Hn1|]. split; discriminate. }
  destruct (rng (mc_w _ _ _ s1)) as [u w1] eqn:Eu.
  assert (E2 := ext_log s1 w1 (EDraw _ _ u) (fun _ _ => eq_refl) eq_refl (fun _ => eq_refl) (fun _ => eq_refl) I).
  remember (log _ _ _ (EDraw _ _ u) (set_w _ _ _ s1 w1)) as s2 eqn:Es2.
  assert (Hn2 : mc_nmeas _ _ _ s2 = mc_nmeas _ _ _ s) by (rewrite Es2; exact Hn1).
  pose proof (ext_trans _ _ _ _ _ E1 E2) as E. clear E1 E2 Es2 Hn1. cbn [app] in E.
  destruct (pick (acc_sums W Sg Ratio (m0 :: ml)) u) as [k|] eqn:Ep; [|discriminate].
  destruct (nth_error (m0 :: ml) k) as [m|] eqn:Ek; [|discriminate].
  assert (Hk : (k < length moves)%nat) by (rewrite Em; apply nth_error_Some; congruence).
  cbn [set_prop mc_w]. destruct (um_attempt _ _ _ m (mc_w _ _ _ s2)) as [r w3] eqn:Ea.
  remember (log _ _ _ (EAttempt _ _ k r) (set_w _ _ _ (set_prop _ _ _ s2 (incr (mc_prop _ _ _ s2) k)) w3)) as s3 eqn:Es3.
  assert (Hn3 : mc_nmeas _ _ _ s3 = mc_nmeas _ _ _ s) by (rewrite Es3; exact Hn2).
  assert (E3 : ext s2 s3 [EAttempt _ _ k r]).
  { subst s3. unfold ext. cbn [log set_w set_prop mc_trace mc_sign mc_config mc_prop mc_acc mc_polls mc_sig mc_cycle mc_emergency].
    rewrite Nat.sub_diag. cbn [seq flat_map]. rewrite app_nil_r. split; [reflexivity|]. split.
    { intros p. cbn [fold_left meas_ok]. split; [|auto]. destruct r; reflexivity. }
    split; [rewrite count_cons, count_nil; cbn [McTools.is_decided]; lia|]. split.
    { intros L1 L2. rewrite incr_len. repeat split; auto; intros i; rewrite count_cons, count_nil; cbn [McTools.is_attempt McTools.is_accept]; [|lia].
      rewrite incr_nth. assert ((k <? length (mc_prop _ _ _ s2))%nat = true) as -> by (apply Nat.ltb_lt; rewrite L1; exact Hk). rewrite andb_true_r. lia. }
    split; [lia|]. split; [reflexivity|]. split; reflexivity. }
  assert (E3' := ext_trans _ _ _ _ _ E E3). cbn [app] in E3'.
  destruct r as [r|].
  2:{ intros [= <- <-]. eexists. split; [exact E3'|]. split; [exact Hn3|]. split; discriminate. }
  destruct (classify r) as [[ratio sg]|] eqn:Ec.
  2:{ intros [= <- <-]. eexists. split; [exact E3'|]. split; [exact Hn3|]. split; discriminate. }
  destruct (rng (mc_w _ _ _ s3)) as [v w4] eqn:Ev.
  assert (E4 := ext_log s3 w4 (EDraw _ _ v) (fun _ _ => eq_refl) eq_refl (fun _ => eq_refl) (fun _ => eq_refl) I).
  remember (log _ _ _ (EDraw _ _ v) (set_w _ _ _ s3 w4)) as s4 eqn:Es4.
  assert (Hn4 : mc_nmeas _ _ _ s4 = mc_nmeas _ _ _ s) by (rewrite Es4; exact Hn3).
  assert (Hsg4 : mc_sign _ _ _ s4 = mc_sign _ _ _ s2) by (rewrite Es4, Es3; reflexivity).
  assert (Hc4 : mc_config _ _ _ s4 = mc_config _ _ _ s2) by (rewrite Es4, Es3; reflexivity).
  destruct (Rlt_dec v (Rmin 1 ratio)) as [Hv|Hv].
  - cbn [set_acc mc_w]. destruct (um_accept _ _ _ m (mc_w _ _ _ s4)) as [a w5] eqn:Eac.
    assert (E5 : ext s2 (match a with Some a' => set_config _ _ _ (set_sign _ _ _ (log _ _ _ (EAccept _ _ k a) (set_w _ _ _ (set_acc _ _ _ s4 (incr (mc_acc _ _ _ s4) k)) w5)) (smul (mc_sign _ _ _ s4) (smul sg a'))) (mc_config _ _ _ s4 + 1)
        | None => log _ _ _ (EAccept _ _ k a) (set_w _ _ _ (set_acc _ _ _ s4 (incr (mc_acc _ _ _ s4) k)) w5) end)
        ([EAttempt _ _ k (Some r)] ++ [EDraw _ _ v] ++ [EAccept _ _ k a])).
    { pose proof (ext_trans _ _ _ _ _ E3 E4) as (F1 & _ & _ & F4 & F5 & F6 & F7 & F8).
      unfold ext. destruct a as [a|]; cbn [log set_w set_acc set_sign set_config mc_trace mc_sign mc_config mc_prop mc_acc mc_polls mc_sig mc_cycle mc_emergency].
      - rewrite F1, <- app_assoc. split; [reflexivity|]. split.
        { intros p. cbn [app fold_left meas_ok McTools.sign_step fst snd]. rewrite Ec. cbn [option_map snd fst]. rewrite Hsg4. auto. }
        split; [rewrite Hc4; cbn [app]; rewrite !count_cons, count_nil; cbn [McTools.is_decided]; lia|]. split.
        { intros L1 L2. destruct (F4 L1 L2) as (L3 & L4 & P1 & P2). rewrite incr_len. repeat split; auto; intros i; rewrite app_assoc, count_app, count_cons, count_nil; cbn [McTools.is_attempt McTools.is_accept].
          all: try (rewrite P1; lia).
          rewrite incr_nth, P2. assert ((k <? length (mc_acc _ _ _ s4))%nat = true) as -> by (apply Nat.ltb_lt; rewrite L4; exact Hk). rewrite andb_true_r. lia. }
        split; [exact F5|]. split; [exact F6|]. split; assumption.
      - rewrite F1, <- app_assoc. split; [reflexivity|]. split.
        { intros p. cbn [app fold_left meas_ok McTools.sign_step fst snd]. rewrite Hsg4. auto. }
        split; [rewrite Hc4; cbn [app]; rewrite !count_cons, count_nil; cbn [McTools.is_decided]; lia|]. split.
        { intros L1 L2. destruct (F4 L1 L2) as (L3 & L4 & P1 & P2). rewrite incr_len. repeat split; auto; intros i; rewrite app_assoc, count_app, count_cons, count_nil; cbn [McTools.is_attempt McTools.is_accept].
          all: try (rewrite P1; lia).
          rewrite incr_nth, P2. assert ((k <? length (mc_acc _ _ _ s4))%nat = true) as -> by (apply Nat.ltb_lt; rewrite L4; exact Hk). rewrite andb_true_r. lia. }
        split; [exact F5|]. split; [exact F6|]. split; assumption. }
    pose proof (ext_trans _ _ _ _ _ E E5) as E6. cbn [app] in E6.
    destruct a as [a|]; intros [= <- <-]; eexists; (split; [exact E6|]); (split; [exact Hn4|]); (split; [|discriminate]); intros Hh; [|discriminate].
    eapply st_accept; eassumption.
  - destruct (um_reject _ _ _ m (mc_w _ _ _ s4)) as [ok w5] eqn:Eac.
    assert (E5 : ext s2 (if ok then set_config _ _ _ (log _ _ _ (EReject _ _ k ok) (set_w _ _ _ s4 w5)) (mc_config _ _ _ s4 + 1) else log _ _ _ (EReject _ _ k ok) (set_w _ _ _ s4 w5))
        ([EAttempt _ _ k (Some r)] ++ [EDraw _ _ v] ++ [EReject _ _ k ok])).
    { pose proof (ext_trans _ _ _ _ _ E3 E4) as (F1 & _ & _ & F4 & F5 & F6 & F7 & F8).
      unfold ext. destruct ok; cbn [log set_w set_acc set_sign set_config mc_trace mc_sign mc_config mc_prop mc_acc mc_polls mc_sig mc_cycle mc_emergency].
      all: rewrite F1, <- app_assoc; split; [reflexivity|]; split;
        [intros p; cbn [app fold_left meas_ok McTools.sign_step fst snd]; rewrite Hsg4; auto|];
        split; [rewrite Hc4; cbn [app]; rewrite !count_cons, count_nil; cbn [McTools.is_decided]; lia|]; split;
        [intros L1 L2; destruct (F4 L1 L2) as (L3 & L4 & P1 & P2); repeat split; auto; intros i; rewrite app_assoc, count_app, count_cons, count_nil; cbn [McTools.is_attempt McTools.is_accept]; rewrite ?P1, ?P2; lia|];
        split; [exact F5|]; split; [exact F6|]; split; assumption. }
    pose proof (ext_trans _ _ _ _ _ E E5) as E6. cbn [app] in E6.
    destruct ok; intros [= <- <-]; eexists; (split; [exact E6|]); (split; [exact Hn4|]); (split; [|discriminate]); intros Hh; [|discriminate].
    eapply st_reject; eassumption.
Qed.

Lemma loop_ext n : forall s h s', metropolis_loop n s = Out _ _ _ h s' -> exists t, ext s s' t /\ mc_nmeas _ _ _ s' = mc_nmeas _ _ _ s /\
  (h = HOk -> exists steps, length steps = n /\ Forall step_trace steps /\ t = concat steps) /\
  (h = HSig -> mc_sig _ _ _ s' <> [] /\ exists steps, (length steps < n)%nat /\ Forall step_trace steps /\ t = concat steps).
Proof.
  induction n as [|n IH]; intros s h s'; cbn [McTools.metropolis_loop].
  - intros [= <- <-]. exists []. split; [apply ext_refl|]. split; [reflexivity|]. split; [|discriminate]. intros _. exists []. auto.
  - destruct (metropolis s) as [[]  s1|] eqn:Em; [| | |discriminate].
    + destruct (nmeas_keep_metropolis _ _ _ Em) as (t1 & E1 & Hn1 & Ht1 & _). intros H. destruct (IH _ _ _ H) as (t2 & E2 & Hn2 & H1 & H2).
      exists (t1 ++ t2). split; [eapply ext_trans; eassumption|]. split; [congruence|]. split.
      * intros Hh. destruct (H1 Hh) as (st & Hl & Hf & ->). exists (t1 :: st). cbn [length concat]. split; [lia|]. split; [constructor; auto|reflexivity].
      * intros Hh. destruct (H2 Hh) as (Hs & st & Hl & Hf & ->). split; [exact Hs|]. exists (t1 :: st). cbn [length concat]. split; [lia|]. split; [constructor; auto|reflexivity].
    + intros [= <- <-]. destruct (nmeas_keep_metropolis _ _ _ Em) as (t1 & E1 & Hn1 & _ & Ht1). destruct (Ht1 eq_refl) as [-> Hs]. exists [].
      split; [exact E1|]. split; [exact Hn1|]. split; [discriminate|]. intros _. split; [exact Hs|]. exists []. cbn. split; [lia|]. auto.
    + intros [= <- <-]. destruct (nmeas_keep_metropolis _ _ _ Em) as (t1 & E1 & Hn1 & _ & Ht1). exists t1.
      split; [exact E1|]. split; [exact Hn1|]. split; discriminate.
Qed.
Lemma auxs_ext l : forall j s h s', call_auxs j l s = Out _ _ _ h s' -> exists t, ext s s' t /\ mc_nmeas _ _ _ s' = mc_nmeas _ _ _ s /\ h <> HSig /\
  mc_sign _ _ _ s' = mc_sign _ _ _ s /\ (h = HOk -> t = map (fun j => EAux _ _ j true) (seq j (length l))).
Proof.
  induction l as [|f l IH]; intros j s h s'; cbn [McTools.call_auxs].
  - intros [= <- <-]. exists []. split; [apply ext_refl|]. split; [reflexivity|]. split; [discriminate|]. split; [reflexivity|]. intros _. reflexivity.
  - destruct (f (mc_w _ _ _ s)) as [ok w].
    assert (E1 := ext_log s w (EAux _ _ j ok) (fun _ _ => eq_refl) eq_refl (fun _ => eq_refl) (fun _ => eq_refl) I).
    destruct ok.
    + intros H. destruct (IH _ _ _ _ H) as (t & E2 & Hn & Hh & Hs & Ht). exists ([EAux _ _ j true] ++ t). split; [eapply ext_trans; eassumption|].
      split; [rewrite Hn; reflexivity|]. split; [exact Hh|]. split; [rewrite Hs; reflexivity|]. intros Hok. rewrite (Ht Hok). reflexivity.
    + intros [= <- <-]. eexists. split; [exact E1|]. split; [reflexivity|]. split; [discriminate|]. split; [reflexivity|]. discriminate.
Qed.
Lemma measures_ext l : forall j s h s', call_measures j l s = Out _ _ _ h s' -> exists t, ext s s' t /\ mc_nmeas _ _ _ s' = mc_nmeas _ _ _ s /\ h <> HSig /\
  (h = HOk -> t = map (fun j => EMeasure _ _ j (mc_sign _ _ _ s) true) (seq j (length l))).
Proof.
  induction l as [|f l IH]; intros j s h s'; cbn [McTools.call_measures].
  - intros [= <- <-]. exists []. split; [apply ext_refl|]. split; [reflexivity|]. split; [discriminate|]. intros _. reflexivity.
  - destruct (f (mc_sign _ _ _ s) (mc_w _ _ _ s)) as [ok w].
    assert (E1 := ext_log s w (EMeasure _ _ j (mc_sign _ _ _ s) ok) (fun _ _ => eq_refl) eq_refl (fun _ => eq_refl) (fun _ => eq_refl) eq_refl).
    destruct ok.
    + intros H. destruct (IH _ _ _ _ H) as (t & E2 & Hn & Hh & Ht). eexists. split; [eapply ext_trans; eassumption|].
      split; [rewrite Hn; reflexivity|]. split; [exact Hh|]. intros Hok. rewrite (Ht Hok). reflexivity.
    + intros [= <- <-]. eexists. split; [exact E1|]. split; [reflexivity|]. split; [discriminate|]. discriminate.
Qed.

Lemma cycle_ext L dm s h s' : cycle L dm s = Out _ _ _ h s' -> exists t, ext s s' t /\
  (h = HOk -> full_cycle L dm t /\ mc_nmeas _ _ _ s' = mc_nmeas _ _ _ s + if dm then 1 else 0) /\
  (h = HSig -> cut_cycle L t /\ mc_sig _ _ _ s' <> [] /\ mc_nmeas _ _ _ s' = mc_nmeas _ _ _ s).
Proof.
  unfold McTools.cycle. destruct (metropolis_loop L s) as [h1 s1|] eqn:E1; [|discriminate]. destruct (loop_ext _ _ _ _ E1) as (t1 & X1 & Hn1 & Ho1 & Hs1).
  destruct h1.
  2:{ intros [= <- <-]. exists t1. split; [exact X1|]. split; [discriminate|]. intros _. destruct (Hs1 eq_refl) as (Ha & st & Hl & Hf & ->). split; [exists st; auto|]. auto. }
  2:{ intros [= <- <-]. exists t1. split; [exact X1|]. split; discriminate. }
  clear Hs1. destruct (Ho1 eq_refl) as (st & Hl & Hf & ->). clear Ho1.
  set (d := match duty with None => Out _ _ _ HOk s1 | Some _ => _ end).
  assert (Hd : exists hd s2 t2, d = Out _ _ _ hd s2 /\ ext s1 s2 t2 /\ mc_nmeas _ _ _ s2 = mc_nmeas _ _ _ s1 /\ hd <> HSig /\ (hd = HOk -> t2 = match duty with Some _ => [EDuty _ _ true] | None => [] end)).
  { unfold d. destruct duty as [f|].
    - destruct (f (mc_w _ _ _ s1)) as [ok w]. assert (E2 := ext_log s1 w (EDuty _ _ ok) (fun _ _ => eq_refl) eq_refl (fun _ => eq_refl) (fun _ => eq_refl) I).
      destruct ok; eexists _, _, _; (split; [reflexivity|]); (split; [exact E2|]); (split; [reflexivity|]); (split; [discriminate|]); [reflexivity|discriminate].
    - exists HOk, s1, []. split; [reflexivity|]. split; [apply ext_refl|]. split; [reflexivity|]. split; [discriminate|reflexivity]. }
  destruct Hd as (hd & s2 & t2 & -> & X2 & Hn2 & Hh2 & Ht2). pose proof (ext_trans _ _ _ _ _ X1 X2) as X12.
  destruct hd; [|contradiction|].
  2:{ intros [= <- <-]. eexists. split; [exact X12|]. split; discriminate. }
  rewrite (Ht2 eq_refl) in X12. destruct dm.
  2:{ intros [= <- <-]. eexists. split; [exact X12|]. split; [|discriminate]. intros _. split; [|rewrite Hn2, Hn1; lia].
      exists st, (mc_sign _ _ _ s). split; [exact Hl|]. split; [exact Hf|]. rewrite app_nil_r. reflexivity. }
  set (s3 := set_nmeas _ _ _ s2 (mc_nmeas _ _ _ s2 + 1)).
  assert (X3 : ext s2 s3 []) by (unfold s3; pose proof (ext_refl s2) as X; exact X).
  destruct (call_auxs 0 auxs s3) as [h4 s4|] eqn:E4; [|discriminate]. destruct (auxs_ext _ _ _ _ _ E4) as (t4 & X4 & Hn4 & Hh4 & _ & Ht4).
  pose proof (ext_trans _ _ _ _ _ X12 (ext_trans _ _ _ _ _ X3 X4)) as X14. cbn [app] in X14.
  destruct h4; [|contradiction|].
  2:{ intros [= <- <-]. eexists. split; [exact X14|]. split; discriminate. }
  intros E5. destruct (measures_ext _ _ _ _ _ E5) as (t5 & X5 & Hn5 & Hh5 & Ht5). pose proof (ext_trans _ _ _ _ _ X14 X5) as X15.
  eexists. split; [exact X15|]. split; [|intros ->; contradiction]. intros Hok. rewrite (Ht4 eq_refl), (Ht5 Hok). split.
  - exists st, (mc_sign _ _ _ s4). split; [exact Hl|]. split; [exact Hf|]. rewrite !app_assoc. reflexivity.
  - rewrite Hn5, Hn4. cbn [s3 set_nmeas mc_nmeas]. lia.
Qed.

(** ---- the main loop ---- *)
Definition final (r : run_result W Sg Ratio) (s : mc) : Prop :=
  match r with RReturn _ _ _ _ s' | RThrow _ _ _ s' | RAbort _ _ _ s' => s = s' | _ => False end.
(** the part of [ext] about trace, sign, statistics, for every way a run ends *)
Definition core (s s' : mc) (t : list event) : Prop :=
  mc_trace _ _ _ s' = mc_trace _ _ _ s ++ t /\
  (forall p, fst (fold_left sign_step t (mc_sign _ _ _ s, p)) = mc_sign _ _ _ s' /\ meas_ok (mc_sign _ _ _ s, p) t) /\
  mc_config _ _ _ s' = mc_config _ _ _ s + count is_decided t /\
  (length (mc_prop _ _ _ s) = length moves -> length (mc_acc _ _ _ s) = length moves ->
    length (mc_prop _ _ _ s') = length moves /\ length (mc_acc _ _ _ s') = length moves /\
    (forall k, nth k (mc_prop _ _ _ s') 0 = nth k (mc_prop _ _ _ s) 0 + count (is_attempt k) t) /\
    (forall k, nth k (mc_acc _ _ _ s') 0 = nth k (mc_acc _ _ _ s) 0 + count (is_accept k) t)).
Lemma ext_core s s' t : ext s s' t -> core s s' t.
Proof. intros (A & B & C & D & _). unfold core. auto. Qed.
Lemma core_trans s1 s2 s3 t u : core s1 s2 t -> core s2 s3 u -> core s1 s3 (t ++ u).
Proof.
  intros (A1 & A2 & A3 & A4) (B1 & B2 & B3 & B4). unfold core.
  split; [rewrite B1, A1, app_assoc; reflexivity|]. split.
  { intros p. destruct (A2 p) as [A2a A2b]. rewrite fold_left_app, meas_ok_app.
    destruct (fold_left sign_step t (mc_sign _ _ _ s1, p)) as [x q] eqn:E. cbn [fst] in A2a. subst x. destruct (B2 q) as [B2a B2b]. auto. }
  split; [rewrite B3, A3, count_app; lia|].
  intros L1 L2. destruct (A4 L1 L2) as (L3 & L4 & P1 & P2). destruct (B4 L3 L4) as (L5 & L6 & Q1 & Q2). repeat split; auto.
  - intros k. rewrite Q1, P1, count_app. lia.
  - intros k. rewrite Q2, P2, count_app. lia.
Qed.

Lemma flat_arrive_nil p n : flat_map arrive (seq p n) = [] <-> forall i, (p <= i < p + n)%nat -> arrive i = [].
Proof.
  revert p. induction n as [|n IH]; intros p; cbn [seq flat_map]; [split; [intros _ i Hi; lia|reflexivity]|]. split.
  - intros H i Hi. apply app_eq_nil in H as [H1 H2]. destruct (Nat.eq_dec i p) as [->|Hne]; [exact H1|]. apply (proj1 (IH (S p)) H2). lia.
  - intros H. rewrite (H p) by lia. cbn [app]. apply IH. intros i Hi. apply H. lia.
Qed.

Definition signals_upto (s : mc) (p : nat) : list Z := mc_sig _ _ _ s ++ flat_map arrive (seq (mc_polls _ _ _ s) (p - mc_polls _ _ _ s)).
Lemma signals_trans s s' p t : ext s s' t -> (mc_polls _ _ _ s' <= p)%nat -> signals_upto s' p = signals_upto s p.
Proof.
  intros (_ & _ & _ & _ & Hp & Hs & _) Hle. unfold signals_upto. rewrite Hs, <- app_assoc, <- flat_map_app. f_equal. f_equal.
  replace (p - mc_polls _ _ _ s)%nat with ((mc_polls _ _ _ s' - mc_polls _ _ _ s) + (p - mc_polls _ _ _ s'))%nat by lia. rewrite seq_app. f_equal. f_equal; lia.
Qed.

Lemma catch_spec h s r : catch h s = r ->
  match r with
  | inr s' => h <> HExc /\ s' = s \/ h = HExc /\ rethrow = true /\ has_env = true /\ s' = set_emergency _ _ _ s true
  | inl r => h = HExc /\ (r = RUB _ _ _ /\ rethrow = true /\ has_env = false \/ r = RAbort _ _ _ s /\ rethrow = false)
  end.
Proof.
  intros <-. unfold McTools.catch. destruct h; [left; split; [discriminate|reflexivity]|left; split; [discriminate|reflexivity]|].
  destruct rethrow; [|split; [reflexivity|]; right; auto]. destruct has_env; [right; auto|]. split; [reflexivity|]. left. auto.
Qed.
Definition finished (n nc : Z) : bool := (n <=? nc + 1) && negb (n <? 0).
(** what the end of a cycle does *)
Lemma eoc_spec n nc s r : end_of_cycle n nc s = r ->
  r = inl (RUB _ _ _) /\ INT_MAX <= nc \/
  nc < INT_MAX /\ exists b s3, ext s s3 [EStop _ _ b] /\ mc_nmeas _ _ _ s3 = mc_nmeas _ _ _ s /\
    let em := monitor rethrow has_env && (mc_emergency _ _ _ s || emerg (Z.to_nat nc)) in
    match r with
    | inr s' => s' = s3 /\ b = false /\ mc_sig _ _ _ s3 = [] /\ finished n nc = false /\ em = false
    | inl r => exists st s5, ext s3 s5 [] /\ mc_nmeas _ _ _ s5 = mc_nmeas _ _ _ s3 /\
        (finished n nc = true /\ st = 0 \/
         finished n nc = false /\ st = 2 /\ mc_sig _ _ _ s5 <> [] \/
         finished n nc = false /\ st = 1 /\ mc_sig _ _ _ s5 = [] /\ (b = true \/ em = true)) /\
        r = (if em || monitor rethrow has_env && emerg (S (Z.to_nat nc)) then RThrow _ _ _ else RReturn _ _ _ st)
              (set_sig _ _ _ (set_cycle _ _ _ s5 (mc_cycle _ _ _ s3 + (nc + 1))) [])
    end.
Proof.
  intros <-. unfold McTools.end_of_cycle. destruct (Z.leb_spec INT_MAX nc) as [Hm|Hm]; [left; auto|right]. split; [lia|]. cbv zeta.
  fold (finished n nc). destruct (stop_callback (mc_w _ _ _ s)) as [b w].
  assert (E2 := ext_log s w (EStop _ _ b) (fun _ _ => eq_refl) eq_refl (fun _ => eq_refl) (fun _ => eq_refl) I).
  remember (log _ _ _ (EStop _ _ b) (set_w _ _ _ s w)) as s2 eqn:Es2.
  assert (Hn2 : mc_nmeas _ _ _ s2 = mc_nmeas _ _ _ s) by (rewrite Es2; reflexivity). clear Es2.
  destruct (if b then (false, s2) else received s2) as [rc s3] eqn:Er.
  assert (X3 : ext s2 s3 [] /\ (rc = true -> mc_sig _ _ _ s3 <> []) /\ (b = false -> rc = false -> mc_sig _ _ _ s3 = []) /\ mc_nmeas _ _ _ s3 = mc_nmeas _ _ _ s2).
  { destruct b; [injection Er as <- <-; split; [apply ext_refl|]; split; [discriminate|]; split; [discriminate|reflexivity]|].
    destruct (received_ext _ _ _ Er) as (Xr & Hb & _ & _ & Hnr). split; [exact Xr|]. split; [apply Hb|]. split; [|exact Hnr]. intros _ Hrc. destruct (mc_sig _ _ _ s3) eqn:Es; [reflexivity|]. exfalso. assert (rc = true) by (apply Hb; discriminate). congruence. }
  destruct X3 as (X3 & Hrc1 & Hrc2 & Hn3). pose proof (ext_trans _ _ _ _ _ E2 X3) as X23. rewrite app_nil_r in X23.
  exists b, s3. split; [exact X23|]. split; [congruence|].
  assert (Hem : mc_emergency _ _ _ s3 = mc_emergency _ _ _ s) by apply X23. rewrite Hem.
  set (em := monitor rethrow has_env && (mc_emergency _ _ _ s || emerg (Z.to_nat nc))).
  destruct ((b || rc || finished n nc) || em) eqn:Estop.
  - set (s4 := set_cycle _ _ _ s3 (mc_cycle _ _ _ s3 + (nc + 1))).
    destruct (finished n nc) eqn:Ef.
    + exists 0, s3. split; [apply ext_refl|]. split; [reflexivity|]. split; [left; auto|]. destruct (em || monitor rethrow has_env && emerg (S (Z.to_nat nc))); reflexivity.
    + destruct (received s4) as [rc0 s0] eqn:E0. destruct (received s3) as [rc5 s5] eqn:E5.
      assert (rc5 = rc0 /\ s0 = set_cycle _ _ _ s5 (mc_cycle _ _ _ s3 + (nc + 1))) as [-> ->].
      { unfold McTools.received in E0, E5. injection E0 as <- <-. injection E5 as <- <-. split; reflexivity. }
      destruct (received_ext _ _ _ E5) as (X0 & Hb0 & _ & _ & Hn0).
      exists (if rc0 then 2 else 1), s5. split; [exact X0|]. split; [exact Hn0|]. split; [|destruct (em || monitor rethrow has_env && emerg (S (Z.to_nat nc))); reflexivity].
      right. destruct rc0; [left; split; [reflexivity|]; split; [reflexivity|]; apply Hb0; reflexivity|right]. split; [reflexivity|]. split; [reflexivity|].
      assert (Hsn : mc_sig _ _ _ s5 = []). { destruct (mc_sig _ _ _ s5) eqn:Esg; [reflexivity|]. exfalso. assert (false = true) by (apply Hb0; discriminate). discriminate. }
      split; [exact Hsn|]. rewrite orb_false_r in Estop. destruct b; [left; reflexivity|]. right. destruct rc; [|exact Estop]. exfalso. apply (Hrc1 eq_refl).
      destruct X0 as (_ & _ & _ & _ & _ & Y6 & _). rewrite Hsn in Y6. symmetry in Y6. apply app_eq_nil in Y6. apply Y6.
  - apply orb_false_iff in Estop as [Estop Hem']. apply orb_false_iff in Estop as [Estop Ef]. apply orb_false_iff in Estop as [-> ->].
    split; [reflexivity|]. split; [reflexivity|]. split; [apply Hrc2; reflexivity|]. split; [exact Ef|exact Hem'].
Qed.

Lemma main_core fuel : forall n L dm nc s r s', main_loop fuel n L dm nc s = r -> final r s' -> exists t, core s s' t.
Proof.
  induction fuel as [|fuel IH]; intros n L dm nc s r s'; cbn [McTools.main_loop]; [intros <- []|].
  destruct (cycle L dm s) as [h s1|] eqn:Ec; [|intros <- []]. destruct (cycle_ext _ _ _ _ _ Ec) as (t1 & X1 & _). apply ext_core in X1.
  destruct (catch h s1) as [rc|s2] eqn:Ek; apply catch_spec in Ek.
  { intros <- Hf. destruct Ek as (_ & [(-> & _)|(-> & _)]); [destruct Hf|]. cbn [final] in Hf. subst s'. eexists; exact X1. }
  assert (X2 : core s s2 t1) by (destruct Ek as [(_ & ->)|(_ & _ & _ & ->)]; exact X1). clear Ek X1.
  destruct (end_of_cycle n nc s2) as [re|s3] eqn:Ee; apply eoc_spec in Ee as [(Er & Hm)|(Hm & b & s4 & X4 & Hn4 & Hrest)].
  - injection Er as ->. intros <- [].
  - intros <- Hf. destruct Hrest as (st & s5 & X5 & _ & _ & ->).
    assert (X6 : core s (set_sig _ _ _ (set_cycle _ _ _ s5 (mc_cycle _ _ _ s4 + (nc + 1))) []) (t1 ++ [EStop _ _ b] ++ [])).
    { apply (core_trans _ _ _ _ _ X2 (core_trans _ _ _ _ _ (ext_core _ _ _ X4) (ext_core _ _ _ X5))). }
    match type of Hf with context[if ?c then _ else _] => destruct c end; cbn [final] in Hf; subst s'; eexists; exact X6.
  - discriminate.
  - destruct Hrest as (-> & _). intros Hr Hf. destruct (IH _ _ _ _ _ _ _ Hr Hf) as [t Xt]. eexists. eapply core_trans; [|exact Xt]. eapply core_trans; [exact X2|]. apply ext_core. exact X4.
Qed.

(** structure of a run that returns *)
Definition returned (n : Z) (L : nat) (dm : bool) (nc : Z) (s s' : mc) (st : Z) : Prop :=
  exists (full : list (list event)) (last : list event) (b : bool) (nl : Z),
    let NC := nc + Z.of_nat (length full) + 1 in
    mc_trace _ _ _ s' = mc_trace _ _ _ s ++ concat (map (fun c => c ++ [EStop _ _ false]) full) ++ last ++ [EStop _ _ b] /\
    Forall (full_cycle L dm) full /\
    (full_cycle L dm last /\ nl = 1 \/ cut_cycle L last /\ nl = 0 /\ signals_upto s (mc_polls _ _ _ s') <> []) /\
    mc_cycle _ _ _ s' = mc_cycle _ _ _ s + NC /\
    mc_nmeas _ _ _ s' = mc_nmeas _ _ _ s + (if dm then Z.of_nat (length full) + nl else 0) /\
    (st = 0 /\ 0 <= n <= NC \/
     st = 1 /\ (n < 0 \/ NC < n) /\ b = true /\ signals_upto s (mc_polls _ _ _ s') = [] \/
     st = 2 /\ (n < 0 \/ NC < n) /\ signals_upto s (mc_polls _ _ _ s') <> []) /\
    (0 <= nc < n -> NC <= n) /\ mc_sig _ _ _ s' = [] /\ (mc_polls _ _ _ s <= mc_polls _ _ _ s')%nat.

Lemma finished_true n nc : finished n nc = true -> 0 <= n <= nc + 1.
Proof. unfold finished. intros Hf. apply andb_true_iff in Hf as [F1 F2]. apply Z.leb_le in F1. apply negb_true_iff, Z.ltb_ge in F2. lia. Qed.
Lemma finished_false n nc : finished n nc = false -> n < 0 \/ nc + 1 < n.
Proof. unfold finished. intros Hf. apply andb_false_iff in Hf as [F|F]; [apply Z.leb_gt in F; lia|apply negb_false_iff, Z.ltb_lt in F; lia]. Qed.
Lemma main_returned fuel : forall n L dm nc s st s',
  main_loop fuel n L dm nc s = RReturn _ _ _ st s' -> mc_emergency _ _ _ s = false -> returned n L dm nc s s' st.
Proof.
  induction fuel as [|fuel IH]; intros n L dm nc s st s'; cbn [McTools.main_loop]; [discriminate|].
  destruct (cycle L dm s) as [h s1|] eqn:Ec; [|discriminate]. destruct (cycle_ext _ _ _ _ _ Ec) as (t1 & X1 & Hok & Hsg).
  destruct (catch h s1) as [rc|s2] eqn:Ek; apply catch_spec in Ek.
  { intros Hr. subst rc. destruct Ek as (_ & [(Hx & _)|(Hx & _)]); discriminate Hx. }
  destruct (end_of_cycle n nc s2) as [re|s3] eqn:Ee; apply eoc_spec in Ee as [(Er & Hm)|(Hm & b & s4 & X4 & Hn4 & Hrest)].
  - intros Hr. subst re. discriminate Er.
  - intros Hr Hem. subst re. destruct Hrest as (st5 & s5 & X5 & Hn5 & Hst & Hr).
    destruct (monitor rethrow has_env && (mc_emergency _ _ _ s2 || emerg (Z.to_nat nc))) eqn:Em; cbn [orb] in Hr; [discriminate Hr|].
    destruct (monitor rethrow has_env && emerg (S (Z.to_nat nc))); [discriminate Hr|]. injection Hr as -> ->.
    destruct Ek as [(Hh & ->)|(_ & Hre & Hhe & ->)]; [|rewrite Hre, Hhe in Em; discriminate Em].
    pose proof (ext_trans _ _ _ _ _ X1 (ext_trans _ _ _ _ _ X4 X5)) as X. rewrite app_nil_r in X. pose proof (ext_trans _ _ _ _ _ X4 X5) as X45.
    pose proof (ext_trans _ _ _ _ _ X1 X4) as X14. pose proof X14 as (_ & _ & _ & _ & _ & _ & Y7 & _). pose proof X45 as (_ & _ & _ & _ & Z5 & Z6 & _).
    destruct X as (T1 & T2 & T3 & T4 & T5 & T6 & T7 & T8).
    assert (Hsu : signals_upto s (mc_polls _ _ _ s5) = mc_sig _ _ _ s5) by (unfold signals_upto; rewrite T6; reflexivity).
    exists [], t1, b, (if match h with HOk => true | _ => false end then 1 else 0).
    cbn [set_sig set_cycle mc_trace mc_polls mc_cycle mc_nmeas mc_sig length map concat Z.of_nat app]. rewrite Hsu.
    split; [exact T1|]. split; [constructor|]. split.
    { destruct h; [left; split; [apply Hok; reflexivity|reflexivity]|right|contradiction]. destruct (Hsg eq_refl) as (H1 & H2 & _). split; [exact H1|]. split; [reflexivity|].
      rewrite Z6. destruct (mc_sig _ _ _ s1); [contradiction|discriminate]. }
    split; [rewrite Y7; lia|]. split.
    { rewrite Hn5, Hn4. destruct h; [|destruct (Hsg eq_refl) as (_ & _ & ->); destruct dm; lia|contradiction]. destruct (Hok eq_refl) as [_ ->]. destruct dm; lia. }
    split; [|split; [lia|split; [reflexivity|exact T5]]].
    destruct Hst as [(Hf & ->)|[(Hf & -> & Hs)|(Hf & -> & Hs & Hb)]].
    + left. apply finished_true in Hf. lia.
    + right. right. apply finished_false in Hf. split; [reflexivity|]. split; [lia|exact Hs].
    + right. left. apply finished_false in Hf. split; [reflexivity|]. split; [lia|]. split; [|exact Hs]. destruct Hb as [Hb|Hb]; [exact Hb|discriminate Hb].
  - discriminate Er.
  - intros Hr Hem. destruct Hrest as (-> & -> & Hs4 & Hfin & Hem'). destruct Ek as [(Hh & ->)|(_ & Hre & Hhe & ->)]; [|rewrite Hre, Hhe in Hem'; discriminate Hem'].
    pose proof (ext_trans _ _ _ _ _ X1 X4) as X14. pose proof X4 as (_ & _ & _ & _ & _ & Z6 & _).
    assert (h = HOk) as ->. { destruct h; [reflexivity| |contradiction]. exfalso. destruct (Hsg eq_refl) as (_ & H2 & _). apply H2. rewrite Hs4 in Z6. symmetry in Z6. apply app_eq_nil in Z6. apply Z6. }
    destruct X14 as (T1 & T2 & T3 & T4 & T5 & T6 & T7 & T8). assert (X14 : ext s s4 (t1 ++ [EStop _ _ false])) by (repeat split; auto; try apply T2; intros; apply T4; auto).
    destruct (IH _ _ _ _ _ _ _ Hr) as (full & last & b & nl & H1 & H2 & H3 & H4 & H5 & H6 & H7 & H8 & H9); [congruence|]. destruct (Hok eq_refl) as [Hfc Hnm].
    assert (Hsig3 : signals_upto s4 (mc_polls _ _ _ s') = signals_upto s (mc_polls _ _ _ s')) by (eapply signals_trans; eassumption). rewrite Hsig3 in *.
    exists (t1 :: full), last, b, nl. cbn [length map concat]. replace (nc + Z.of_nat (S (length full)) + 1) with (nc + 1 + Z.of_nat (length full) + 1) by lia.
    split; [rewrite H1, T1, <- !app_assoc; reflexivity|]. split; [constructor; assumption|]. split; [exact H3|]. split; [rewrite H4, T7; reflexivity|]. split.
    { rewrite H5, Hn4, Hnm. destruct dm; lia. }
    split; [exact H6|]. split.
    { intros Hnc. apply finished_false in Hfin. apply H7; lia. }
    split; [exact H8|lia].
Qed.

Definition prep (s : mc) : mc := set_acc _ _ _ (set_prop _ _ _ s (zeros _ _ _ moves)) (zeros _ _ _ moves).
Lemma zeros_len : length (zeros W Sg Ratio moves) = length moves.
Proof. unfold zeros. apply map_length. Qed.
Lemma zeros_nth k : nth k (zeros W Sg Ratio moves) 0 = 0.
Proof.
  unfold zeros. revert k. induction moves as [|m l IH]; intros [|k]; cbn; auto.
Qed.
Lemma signals_signalled s s' : (mc_polls _ _ _ s <= mc_polls _ _ _ s')%nat ->
  (signals_upto s (mc_polls _ _ _ s') <> [] <-> signalled W Sg Ratio arrive s s').
Proof.
  intros Hle. unfold signals_upto, signalled. split.
  - intros H. destruct (mc_sig _ _ _ s) as [|x l]; [|left; discriminate]. cbn [app] in H. right.
    assert (Hd : forall n p, flat_map arrive (seq p n) <> [] -> exists i, (p <= i < p + n)%nat /\ arrive i <> []).
    { induction n as [|n IH]; intros p Hp; cbn [seq flat_map] in Hp; [contradiction|]. destruct (arrive p) as [|y l'] eqn:E.
      - cbn [app] in Hp. destruct (IH _ Hp) as (i & Hi & Hx). exists i. split; [lia|exact Hx].
      - exists p. split; [lia|]. rewrite E. discriminate. }
    destruct (Hd _ _ H) as (i & Hi & Hx). exists i. split; [lia|exact Hx].
  - intros [H|(p & Hp & Hx)] He; apply app_eq_nil in He as [H1 H2]; [contradiction|]. apply Hx. apply (proj1 (flat_arrive_nil _ _) H2). lia.
Qed.

Lemma thm_run_structure fuel n L dm s st s' : n <> 0 -> run fuel n L dm s = RReturn _ _ _ st s' ->
  exists (full : list (list event)) (last : list event) (b : bool),
    let NC := Z.of_nat (length full) + 1 in
    mc_trace _ _ _ s' = mc_trace _ _ _ s ++ concat (map (fun c => c ++ [EStop _ _ false]) full) ++ last ++ [EStop _ _ b] /\
    Forall (full_cycle L dm) full /\
    (full_cycle L dm last /\ mc_nmeas _ _ _ s' = (if dm then NC else 0) \/
     cut_cycle L last /\ signalled W Sg Ratio arrive s s' /\ mc_nmeas _ _ _ s' = if dm then NC - 1 else 0) /\
    mc_cycle _ _ _ s' = mc_cycle _ _ _ s + NC /\
    (0 < n -> NC <= n) /\
    (st = 0 /\ NC = n \/
     st = 1 /\ NC <> n /\ b = true /\ ~ signalled W Sg Ratio arrive s s' \/
     st = 2 /\ NC <> n /\ signalled W Sg Ratio arrive s s').
Proof.
  intros Hn. unfold McTools.run. destruct (Z.eqb_spec n 0) as [|_]; [contradiction|]. intros HR.
  destruct (main_returned _ _ _ _ _ _ _ _ HR eq_refl) as (full & last & b & nl & H1 & H2 & H3 & H4 & H5 & H6 & H7 & H8 & H9).
  cbn [set_emergency set_nmeas set_acc set_prop mc_trace mc_cycle mc_nmeas mc_polls mc_sig] in *.
  match type of H6 with context[signals_upto ?x _] => set (s0 := x) in * end.
  assert (HS : signals_upto s0 (mc_polls _ _ _ s') <> [] <-> signalled W Sg Ratio arrive s s') by (rewrite signals_signalled by exact H9; reflexivity).
  exists full, last, b. cbv zeta. rewrite !Z.add_0_l in *. split; [exact H1|]. split; [exact H2|]. split.
  { destruct H3 as [[Hf ->]|(Hc & -> & Hs)]; [left; split; [exact Hf|]; rewrite H5; destruct dm; lia|right]. split; [exact Hc|]. split; [apply HS; exact Hs|]. rewrite H5. destruct dm; lia. }
  split; [exact H4|]. split; [intros; apply H7; lia|].
  destruct H6 as [(-> & Hb)|[(-> & Hb & -> & Hs)|(-> & Hb & Hs)]].
  - left. split; [reflexivity|]. assert (0 <= 0 < n) as Hx by lia. specialize (H7 Hx). lia.
  - right; left. split; [reflexivity|]. split; [lia|]. split; [reflexivity|]. intros Hx. apply HS in Hx. contradiction.
  - right; right. split; [reflexivity|]. split; [lia|]. apply HS. exact Hs.
Qed.

(** for every way a run ends *)
Lemma run_core fuel n L dm s r s' : run fuel n L dm s = r -> final r s' -> exists t, core (prep s) s' t.
Proof.
  unfold McTools.run. destruct (n =? 0).
  - intros <- Hf. cbn [final] in Hf. subst s'. exists []. apply ext_core, ext_refl.
  - intros HR Hf. destruct (main_core _ _ _ _ _ _ _ _ HR Hf) as [t Ht]. exists t. exact Ht.
Qed.
Lemma thm_run_sign fuel n L dm s r s' : run fuel n L dm s = r -> final r s' ->
  exists t, mc_trace _ _ _ s' = mc_trace _ _ _ s ++ t /\
    mc_sign _ _ _ s' = trace_sign Sg Ratio smul classify (mc_sign _ _ _ s) t /\
    forall p j x ok q, t = p ++ EMeasure _ _ j x ok :: q -> x = trace_sign Sg Ratio smul classify (mc_sign _ _ _ s) p.
Proof.
  intros HR Hf. destruct (run_core _ _ _ _ _ _ _ HR Hf) as [t (A & B & _)]. exists t. split; [exact A|]. destruct (B None) as [B1 B2]. split; [symmetry; exact B1|].
  intros p j x ok q E. unfold trace_sign. eapply meas_ok_split; eassumption.
Qed.
Lemma thm_run_counts fuel n L dm s r s' : run fuel n L dm s = r -> final r s' ->
  exists t, mc_trace _ _ _ s' = mc_trace _ _ _ s ++ t /\
    mc_config _ _ _ s' = mc_config _ _ _ s + count is_decided t /\
    (forall k, (k < length moves)%nat ->
       nth_error (mc_prop _ _ _ s') k = Some (count (is_attempt k) t) /\
       nth_error (mc_acc _ _ _ s') k = Some (count (is_accept k) t)).
Proof.
  intros HR Hf. destruct (run_core _ _ _ _ _ _ _ HR Hf) as [t (A & _ & C & D)]. exists t. split; [exact A|]. split; [exact C|].
  destruct D as (L1 & L2 & P & Q); [apply zeros_len|apply zeros_len|]. intros k Hk. split.
  - rewrite (nth_error_nth' _ 0) by (rewrite L1; exact Hk). rewrite P. cbn [prep set_acc set_prop mc_prop]. rewrite zeros_nth. reflexivity.
  - rewrite (nth_error_nth' _ 0) by (rewrite L2; exact Hk). rewrite Q. cbn [prep set_acc set_prop mc_acc]. rewrite zeros_nth. reflexivity.
Qed.

(** ---- termination and absence of undefined behaviour ---- *)
Lemma main_terminates fuel : forall n L dm nc s, 0 <= nc < n -> (Z.to_nat (n - nc) <= fuel)%nat ->
  main_loop fuel n L dm nc s <> ROutOfFuel _ _ _.
Proof.
  induction fuel as [|fuel IH]; intros n L dm nc s Hn Hf; [lia|]. cbn [McTools.main_loop].
  destruct (cycle L dm s) as [h s1|]; [|discriminate].
  destruct (catch h s1) as [rc|s2] eqn:Ek; apply catch_spec in Ek.
  { destruct Ek as (_ & [(-> & _)|(-> & _)]); discriminate. }
  destruct (end_of_cycle n nc s2) as [re|s3] eqn:Ee; apply eoc_spec in Ee as [(Er & Hm)|(Hm & b & s4 & X4 & Hn4 & Hrest)].
  - injection Er as ->. discriminate.
  - destruct Hrest as (st & s5 & _ & _ & _ & ->). match goal with |- context[if ?c then _ else _] => destruct c end; discriminate.
  - discriminate.
  - destruct Hrest as (_ & _ & _ & Hfin & _). apply finished_false in Hfin. apply IH; lia.
Qed.
Lemma thm_run_terminates fuel n L dm s : 0 <= n -> (Z.to_nat n <= fuel)%nat -> run fuel n L dm s <> ROutOfFuel _ _ _.
Proof.
  intros Hn Hf. unfold McTools.run. destruct (Z.eqb_spec n 0) as [|Hne]; [discriminate|]. apply main_terminates; [lia|]. rewrite Z.sub_0_r. exact Hf.
Qed.

(** user code does not throw *)
Definition no_throw : Prop :=
  Forall (fun m => (forall w, exists r, fst (um_attempt _ _ _ m w) = Some r /\ classify r <> None) /\
                   (forall w, fst (um_accept _ _ _ m w) <> None) /\ (forall w, fst (um_reject _ _ _ m w) = true)) moves /\
  Forall (fun f => forall x w, fst (f x w) = true) measures /\ Forall (fun f => forall w, fst (f w) = true) auxs /\
  match duty with Some f => forall w, fst (f w) = true | None => True end.
Definition good_moves : Prop :=
  Forall (fun m => (0 <= um_weight _ _ _ m)%R) moves /\ (0 < sum_list (map (um_weight _ _ _) moves))%R /\
  forall w, (0 <= fst (rng w) < 1)%R.

Lemma metropolis_safe s : good_moves -> exists h s', metropolis s = Out _ _ _ h s' /\ (no_throw -> h <> HExc).
Proof.
  intros (Hw & Hs & Hr). unfold McTools.metropolis. destruct (received s) as [sg s1]. destruct sg; [eexists _, _; split; [reflexivity|discriminate]|].
  destruct moves as [|m0 ml] eqn:Em; [cbn in Hs; lra|]. destruct (rng (mc_w _ _ _ s1)) as [u w1] eqn:Eu.
  assert (Hu : (0 <= u < 1)%R) by (pose proof (Hr (mc_w _ _ _ s1)) as H; rewrite Eu in H; exact H).
  destruct (thm_pick_exists (map (um_weight _ _ _) (m0 :: ml)) u) as (k & Hk & Hlt); [apply Forall_map; exact Hw|exact Hs|exact Hu|].
  unfold acc_sums. rewrite Hk. rewrite map_length in Hlt. destruct (nth_error (m0 :: ml) k) as [m|] eqn:Ek; [|apply nth_error_None in Ek; lia].
  assert (Hin : In m (m0 :: ml)) by (eapply nth_error_In; exact Ek).
  cbn [set_prop log set_w mc_w]. destruct (um_attempt _ _ _ m w1) as [r w3] eqn:Ea.
  assert (Hnt : no_throw -> (exists r', r = Some r' /\ classify r' <> None) /\ (forall w, fst (um_accept _ _ _ m w) <> None) /\ (forall w, fst (um_reject _ _ _ m w) = true)).
  { intros (Hm & _). rewrite Em in Hm. rewrite Forall_forall in Hm. destruct (Hm m Hin) as (A & B & C). destruct (A w1) as (r' & Hr' & Hc). rewrite Ea in Hr'. split; [exists r'; auto|]. auto. }
  destruct r as [r|]; [|eexists _, _; split; [reflexivity|]; intros H; destruct (Hnt H) as ((r' & Hx & _) & _); discriminate].
  destruct (classify r) as [[ratio sg]|] eqn:Ec; [|eexists _, _; split; [reflexivity|]; intros H; destruct (Hnt H) as ((r' & [= <-] & Hx) & _); contradiction].
  match goal with |- context[rng ?x] => change x with w3 end. destruct (rng w3) as [v w4]. destruct (Rlt_dec v (Rmin 1 ratio)).
  - match goal with |- context[um_accept _ _ _ m ?x] => change x with w4 end. destruct (um_accept _ _ _ m w4) as [a w5] eqn:Eac. destruct a as [a|]; eexists _, _; (split; [reflexivity|]); [discriminate|].
    intros H. destruct (Hnt H) as (_ & B & _). specialize (B w4). rewrite Eac in B. contradiction.
  - match goal with |- context[um_reject _ _ _ m ?x] => change x with w4 end. destruct (um_reject _ _ _ m w4) as [ok w5] eqn:Eac. destruct ok; eexists _, _; (split; [reflexivity|]); [discriminate|].
    intros H. destruct (Hnt H) as (_ & _ & C). specialize (C w4). rewrite Eac in C. discriminate.
Qed.
Lemma loop_safe n : forall s, good_moves -> exists h s', metropolis_loop n s = Out _ _ _ h s' /\ (no_throw -> h <> HExc).
Proof.
  induction n as [|n IH]; intros s Hg; cbn [McTools.metropolis_loop]; [eexists _, _; split; [reflexivity|discriminate]|].
  destruct (metropolis_safe s Hg) as (h & s' & -> & Hh). destruct h; [apply IH; exact Hg| |]; eexists _, _; (split; [reflexivity|exact Hh]).
Qed.
Lemma auxs_safe l : forall j s, exists h s', call_auxs j l s = Out _ _ _ h s' /\ (Forall (fun f => forall w, fst (f w) = true) l -> h <> HExc).
Proof.
  induction l as [|f l IH]; intros j s; cbn [McTools.call_auxs]; [eexists _, _; split; [reflexivity|discriminate]|].
  destruct (f (mc_w _ _ _ s)) as [ok w] eqn:Ef. destruct ok.
  - destruct (IH (S j) (log _ _ _ (EAux _ _ j true) (set_w _ _ _ s w))) as (h & s' & -> & Hh). eexists _, _. split; [reflexivity|]. intros H. apply Hh. inversion H; assumption.
  - eexists _, _. split; [reflexivity|]. intros H. inversion H as [|? ? H1 H2]. specialize (H1 (mc_w _ _ _ s)). rewrite Ef in H1. discriminate.
Qed.
Lemma measures_safe l : forall j s, exists h s', call_measures j l s = Out _ _ _ h s' /\ (Forall (fun f => forall x w, fst (f x w) = true) l -> h <> HExc).
Proof.
  induction l as [|f l IH]; intros j s; cbn [McTools.call_measures]; [eexists _, _; split; [reflexivity|discriminate]|].
  destruct (f (mc_sign _ _ _ s) (mc_w _ _ _ s)) as [ok w] eqn:Ef. destruct ok.
  - match goal with |- context[call_measures (S j) l ?x] => destruct (IH (S j) x) as (h & s' & -> & Hh) end. eexists _, _. split; [reflexivity|]. intros H. apply Hh. inversion H; assumption.
  - eexists _, _. split; [reflexivity|]. intros H. inversion H as [|? ? H1 H2]. specialize (H1 (mc_sign _ _ _ s) (mc_w _ _ _ s)). rewrite Ef in H1. discriminate.
Qed.
Lemma cycle_safe L dm s : good_moves -> exists h s', cycle L dm s = Out _ _ _ h s' /\ (no_throw -> h <> HExc).
Proof.
  intros Hg. unfold McTools.cycle. destruct (loop_safe L s Hg) as (h & s1 & -> & Hh). destruct h; [|eexists _, _; split; [reflexivity|exact Hh]|eexists _, _; split; [reflexivity|exact Hh]].
  set (d := match duty with None => Out _ _ _ HOk s1 | Some _ => _ end).
  assert (Hd : exists hd s2, d = Out _ _ _ hd s2 /\ hd <> HSig /\ (no_throw -> hd <> HExc)).
  { unfold d. clear d. destruct duty as [f|] eqn:Ed; [|eexists _, _; split; [reflexivity|split; discriminate]]. destruct (f (mc_w _ _ _ s1)) as [ok w] eqn:Ef. destruct ok; eexists _, _; (split; [reflexivity|]); (split; [discriminate|]); [discriminate|].
    intros (_ & _ & _ & H). rewrite Ed in H. specialize (H (mc_w _ _ _ s1)). rewrite Ef in H. discriminate. }
  destruct Hd as (hd & s2 & -> & Hns & Hhd). destruct hd; [|contradiction|eexists _, _; split; [reflexivity|exact Hhd]].
  destruct dm; [|eexists _, _; split; [reflexivity|discriminate]]. destruct (auxs_safe auxs 0 (set_nmeas _ _ _ s2 (mc_nmeas _ _ _ s2 + 1))) as (ha & s3 & -> & Ha).
  assert (Ha' : no_throw -> ha <> HExc) by (intros (_ & _ & H & _); exact (Ha H)).
  destruct ha; [|eexists _, _; split; [reflexivity|discriminate]|eexists _, _; split; [reflexivity|exact Ha']].
  destruct (measures_safe measures 0 s3) as (hm & s4 & -> & Hm). eexists _, _. split; [reflexivity|]. intros (_ & H & _). exact (Hm H).
Qed.
Lemma main_safe fuel : forall n L dm nc s, good_moves -> (no_throw \/ rethrow = false \/ has_env = true) -> 0 <= nc < n -> n <= INT_MAX ->
  main_loop fuel n L dm nc s <> RUB _ _ _.
Proof.
  induction fuel as [|fuel IH]; intros n L dm nc s Hg Hx Hn Hmax; cbn [McTools.main_loop]; [discriminate|].
  destruct (cycle_safe L dm s Hg) as (h & s1 & -> & Hh).
  destruct (catch h s1) as [rc|s2] eqn:Ek; apply catch_spec in Ek.
  { destruct Ek as (-> & [(-> & Hre & Hhe)|(-> & _)]); [|discriminate]. exfalso. destruct Hx as [H|[H|H]]; [apply (Hh H); reflexivity|congruence|congruence]. }
  destruct (end_of_cycle n nc s2) as [re|s3] eqn:Ee; apply eoc_spec in Ee as [(Er & Hm)|(Hm & b & s4 & X4 & Hn4 & Hrest)].
  - lia.
  - destruct Hrest as (st & s5 & _ & _ & _ & ->). match goal with |- context[if ?c then _ else _] => destruct c end; discriminate.
  - discriminate.
  - destruct Hrest as (_ & _ & _ & Hfin & _). apply finished_false in Hfin. apply IH; auto; lia.
Qed.
Lemma thm_run_safe fuel n L dm s : good_moves -> (no_throw \/ rethrow = false \/ has_env = true) -> 0 <= n <= INT_MAX ->
  run fuel n L dm s <> RUB _ _ _.
Proof.
  intros Hg Hx Hn. unfold McTools.run. destruct (Z.eqb_spec n 0) as [|Hne]; [discriminate|]. apply main_safe; auto; lia.
Qed.
(** more cycles than an int can count, and nothing stops the run *)
Lemma main_overflow fuel : forall n L dm nc s, (forall w, fst (stop_callback w) = false) -> (forall p, arrive p = []) ->
  (rethrow && has_env = false) -> mc_sig _ _ _ s = [] -> INT_MAX < n -> 0 <= nc ->
  forall st s', main_loop fuel n L dm nc s <> RReturn _ _ _ st s'.
Proof.
  induction fuel as [|fuel IH]; intros n L dm nc s Hst Har Hmon Hs Hn Hnc st s'; cbn [McTools.main_loop]; [discriminate|].
  destruct (cycle L dm s) as [h s1|] eqn:Ec; [|discriminate]. destruct (cycle_ext _ _ _ _ _ Ec) as (t1 & X1 & _).
  assert (Hs1 : mc_sig _ _ _ s1 = []). { destruct X1 as (_ & _ & _ & _ & _ & Y & _). rewrite Y, Hs. cbn [app]. apply flat_arrive_nil. intros; apply Har. }
  destruct (catch h s1) as [rc|s2] eqn:Ek; apply catch_spec in Ek.
  { destruct Ek as (_ & [(-> & _)|(-> & _)]); discriminate. }
  destruct Ek as [(_ & ->)|(_ & Hre & Hhe & _)]; [|rewrite Hre, Hhe in Hmon; discriminate].
  destruct (end_of_cycle n nc s1) as [re|s3] eqn:Ee; pose proof Ee as Ee'; apply eoc_spec in Ee' as [(Er & Hm)|(Hm & b & s4 & X4 & Hn4 & Hrest)].
  - injection Er as ->. discriminate.
  - exfalso. unfold McTools.end_of_cycle in Ee. destruct (Z.leb_spec INT_MAX nc); [lia|]. cbv zeta in Ee. destruct (stop_callback (mc_w _ _ _ s1)) as [b' w] eqn:Esc.
    assert (b' = false) as -> by (pose proof (Hst (mc_w _ _ _ s1)) as Hq; rewrite Esc in Hq; exact Hq).
    unfold McTools.received in Ee. cbn [log set_w mc_sig mc_polls] in Ee. rewrite Hs1, Har in Ee. cbn [app negb orb] in Ee.
    assert (Hf : (n <=? nc + 1) && negb (n <? 0) = false). { apply andb_false_iff. left. apply Z.leb_gt. lia. }
    rewrite Hf in Ee. unfold monitor in Ee. rewrite Hmon in Ee. cbn in Ee. discriminate.
  - discriminate.
  - destruct Hrest as (-> & _ & Hs4 & _). apply IH; auto. lia.
Qed.
Lemma thm_run_overflow fuel n L dm s : (forall w, fst (stop_callback w) = false) -> (forall p, arrive p = []) ->
  (rethrow && has_env = false) -> mc_sig _ _ _ s = [] -> INT_MAX < n ->
  forall st s', run fuel n L dm s <> RReturn _ _ _ st s'.
Proof.
  intros H1 H2 H3 H4 H5 st s'. unfold McTools.run. destruct (Z.eqb_spec n 0) as [->|Hne]; [unfold INT_MAX in H5; lia|]. apply main_overflow; auto. lia.
Qed.

(** ---- numbers of moves and of measurements ---- *)
Lemma step_counts t : step_trace t -> count is_decided t = 1 /\ forall j, count (is_measure j) t = 0.
Proof. intros []; split; intros; reflexivity. Qed.
Lemma steps_counts l : Forall step_trace l -> count is_decided (concat l) = Z.of_nat (length l) /\ forall j, count (is_measure j) (concat l) = 0.
Proof.
  induction 1 as [|t l Ht Hl [IH1 IH2]]; [split; reflexivity|]. cbn [concat length]. destruct (step_counts t Ht) as [H1 H2]. split.
  - rewrite count_app, H1, IH1. lia.
  - intros j. rewrite count_app, H2, IH2. reflexivity.
Qed.
Lemma count_map_none {A} p (f : A -> event) l : (forall a, p (f a) = false) -> count p (map f l) = 0.
Proof. intros H. induction l as [|a l IH]; [reflexivity|]. cbn [map]. rewrite count_cons, H, IH. reflexivity. Qed.
Lemma count_measures x j n : forall i, count (is_measure j) (map (fun j => EMeasure _ _ j x true) (seq i n)) = if (i <=? j)%nat && (j <? i + n)%nat then 1 else 0.
Proof.
  induction n as [|n IH]; intros i; cbn [seq map].
  - rewrite count_nil. destruct (Nat.leb_spec i j), (Nat.ltb_spec j (i + 0)); cbn; try reflexivity; lia.
  - rewrite count_cons, IH. cbn [McTools.is_measure]. destruct (Nat.eqb_spec j i), (Nat.leb_spec (S i) j), (Nat.ltb_spec j (S i + n)), (Nat.leb_spec i j), (Nat.ltb_spec j (i + S n)); cbn; try reflexivity; lia.
Qed.
Lemma full_counts L dm t : full_cycle L dm t -> count is_decided t = Z.of_nat L /\
  forall j, count (is_measure j) t = if dm && (j <? length measures)%nat then 1 else 0.
Proof.
  intros (steps & x & Hl & Hf & ->). destruct (steps_counts _ Hf) as [H1 H2]. split.
  - rewrite !count_app, H1, Hl. assert (count is_decided (match duty with Some _ => [EDuty _ _ true] | None => [] end) = 0) as -> by (destruct duty; reflexivity).
    destruct dm; [|rewrite count_nil; lia]. rewrite count_app, (count_map_none is_decided (fun j => EAux _ _ j true)), (count_map_none is_decided (fun j => EMeasure _ _ j x true)) by reflexivity. lia.
  - intros j. rewrite !count_app, H2. assert (count (is_measure j) (match duty with Some _ => [EDuty _ _ true] | None => [] end) = 0) as -> by (destruct duty; reflexivity).
    destruct dm; [|reflexivity]. rewrite count_app, (count_map_none (is_measure j) (fun j => EAux _ _ j true)), count_measures by reflexivity. cbn [Nat.leb andb Nat.add]. destruct (j <? length measures)%nat; reflexivity.
Qed.
Lemma fulls_counts L dm l : Forall (full_cycle L dm) l -> 
  count is_decided (concat (map (fun c => c ++ [EStop _ _ false]) l)) = Z.of_nat L * Z.of_nat (length l) /\
  forall j, count (is_measure j) (concat (map (fun c => c ++ [EStop _ _ false]) l)) = if dm && (j <? length measures)%nat then Z.of_nat (length l) else 0.
Proof.
  induction 1 as [|t l Ht Hl [IH1 IH2]]; [split; [cbn; lia|intros j; destruct (dm && _); reflexivity]|]. cbn [map concat length]. destruct (full_counts _ _ _ Ht) as [H1 H2]. split.
  - rewrite !count_app, H1, IH1. cbn [McTools.count filter McTools.is_decided length]. unfold McTools.count. cbn. lia.
  - intros j. rewrite !count_app, H2, IH2. unfold McTools.count at 1. cbn. destruct (dm && _); lia.
Qed.
Lemma thm_run_numbers fuel n L dm s st s' : n <> 0 -> run fuel n L dm s = RReturn _ _ _ st s' ->
  exists t, mc_trace _ _ _ s' = mc_trace _ _ _ s ++ t /\
    (forall j, (j < length measures)%nat -> count (is_measure j) t = mc_nmeas _ _ _ s') /\
    (dm = false -> mc_nmeas _ _ _ s' = 0) /\
    let NC := mc_cycle _ _ _ s' - mc_cycle _ _ _ s in
    (~ signalled W Sg Ratio arrive s s' -> count is_decided t = Z.of_nat L * NC /\ (dm = true -> mc_nmeas _ _ _ s' = NC)).
Proof.
  intros Hn HR. destruct (thm_run_structure _ _ _ _ _ _ _ Hn HR) as (full & last & b & H1 & H2 & H3 & H4 & _).
  destruct (fulls_counts _ _ _ H2) as [F1 F2].
  eexists. split; [exact H1|].
  assert (Hl : (forall j, (j < length measures)%nat -> count (is_measure j) last = if dm then mc_nmeas _ _ _ s' - Z.of_nat (length full) else 0) /\
     (dm = false -> mc_nmeas _ _ _ s' = 0) /\ (~ signalled W Sg Ratio arrive s s' -> count is_decided last = Z.of_nat L /\ (dm = true -> mc_nmeas _ _ _ s' = Z.of_nat (length full) + 1))).
  { destruct H3 as [[Hf Hm]|(Hc & Hs & Hm)].
    - destruct (full_counts _ _ _ Hf) as [G1 G2]. split; [|split].
      + intros j Hj. rewrite G2, Hm. apply Nat.ltb_lt in Hj. rewrite Hj, andb_true_r. destruct dm; lia.
      + intros ->. exact Hm.
      + intros _. split; [exact G1|]. intros ->. exact Hm.
    - destruct Hc as (steps & Hle & Hst & ->). destruct (steps_counts _ Hst) as [G1 G2]. split; [|split].
      + intros j Hj. rewrite G2, Hm. destruct dm; lia.
      + intros ->. exact Hm.
      + intros Hx. contradiction. }
  destruct Hl as (L1 & L2 & L3). split; [|split; [exact L2|]].
  - intros j Hj. rewrite !count_app, F2, (L1 j Hj). apply Nat.ltb_lt in Hj. rewrite Hj, andb_true_r. unfold McTools.count. cbn. destruct dm; [lia|]. rewrite L2 by reflexivity. reflexivity.
  - cbv zeta. intros Hs. destruct (L3 Hs) as [G1 G2]. split.
    + rewrite !count_app, F1, G1, H4. unfold McTools.count. cbn. nia.
    + intros Hd. rewrite (G2 Hd), H4. lia.
Qed.
(** warmup: no measurement; accumulation only after a complete warmup *)
Lemma thm_warmup fuel nw na L si s st s' :
  warmup_and_accumulate W Sg Ratio smul classify moves rng measures auxs duty stop_callback arrive emerg rethrow has_env fuel nw na L si s = RReturn _ _ _ st s' ->
  nw <> 0 -> na <> 0 ->
  let s0 := match si with Some x => set_sign _ _ _ s x | None => s end in
  exists stw sw, run fuel nw L false s0 = RReturn _ _ _ stw sw /\
    (exists t, mc_trace _ _ _ sw = mc_trace _ _ _ s ++ t /\ forall j, (j < length measures)%nat -> count (is_measure j) t = 0) /\
    (stw <> 0 /\ st = stw /\ s' = sw \/ stw = 0 /\ run fuel na L true sw = RReturn _ _ _ st s').
Proof.
  unfold warmup_and_accumulate. intros HR Hw Ha. cbv zeta. set (s0 := match si with Some x => set_sign _ _ _ s x | None => s end) in *.
  destruct (run fuel nw L false s0) as [stw sw| | | |] eqn:E; try discriminate. exists stw, sw. split; [reflexivity|]. split.
  - destruct (thm_run_numbers _ _ _ _ _ _ _ Hw E) as (t & Ht & H1 & H2 & _). exists t. split; [rewrite Ht; destruct si; reflexivity|]. intros j Hj. rewrite (H1 j Hj). apply H2. reflexivity.
  - destruct (Z.eqb_spec stw 0) as [->|Hne].
    + right. split; [reflexivity|exact HR].
    + injection HR as -> ->. left. auto.
Qed.

(** without a monitor, a run whose user code does not throw always returns *)
Lemma main_returns fuel : forall n L dm nc s, good_moves -> no_throw -> rethrow && has_env = false -> 0 <= nc < n -> n <= INT_MAX ->
  (Z.to_nat (n - nc) <= fuel)%nat -> exists st s', main_loop fuel n L dm nc s = RReturn _ _ _ st s'.
Proof.
  induction fuel as [|fuel IH]; intros n L dm nc s Hg Hx Hmo Hn Hmax Hf; [lia|]. cbn [McTools.main_loop].
  destruct (cycle_safe L dm s Hg) as (h & s1 & -> & Hh). specialize (Hh Hx).
  destruct (catch h s1) as [rc|s2] eqn:Ek; [destruct h; discriminate || contradiction|].
  destruct (end_of_cycle n nc s2) as [re|s3] eqn:Ee; apply eoc_spec in Ee as [(Er & Hm)|(Hm & b & s4 & X4 & Hn4 & Hrest)].
  - lia.
  - destruct Hrest as (st & s5 & _ & _ & _ & ->). unfold monitor. rewrite Hmo. cbn [andb orb]. eauto.
  - discriminate.
  - destruct Hrest as (_ & _ & _ & Hfin & _). apply finished_false in Hfin. apply IH; auto; lia.
Qed.
Lemma thm_run_returns fuel n L dm s : good_moves -> no_throw -> rethrow && has_env = false -> 0 <= n <= INT_MAX ->
  (Z.to_nat n <= fuel)%nat -> exists st s', run fuel n L dm s = RReturn _ _ _ st s'.
Proof.
  intros Hg Hx Hm Hn Hf. unfold McTools.run. destruct (Z.eqb_spec n 0) as [|Hne]; [eauto|]. apply main_returns; auto; lia.
Qed.

(** ---- the Metropolis rule along a trace ---- *)
Definition decided_by (k : nat) (p : list event) (P : R -> R -> Prop) : Prop :=
  exists p' u r v ratio sg, p = p' ++ [EDraw _ _ u; EAttempt _ _ k (Some r); EDraw _ _ v] /\
    classify r = Some (ratio, sg) /\ pick (acc_sums W Sg Ratio moves) u = Some k /\ P v ratio.
Definition metro_ok (t : list event) : Prop :=
  forall p e q, t = p ++ e :: q ->
    match e with
    | EAccept _ _ k _ => decided_by k p (fun v ratio => (v < Rmin 1 ratio)%R)
    | EReject _ _ k _ => decided_by k p (fun v ratio => ~ (v < Rmin 1 ratio)%R)
    | _ => True
    end.
Lemma decided_by_app k a p P : decided_by k p P -> decided_by k (a ++ p) P.
Proof. intros (p' & u & r & v & ratio & sg & -> & H). exists (a ++ p'), u, r, v, ratio, sg. rewrite app_assoc. auto. Qed.
Lemma metro_app a b : metro_ok a -> metro_ok b -> metro_ok (a ++ b).
Proof.
  intros Ha Hb p e q E. assert (Hcase : (exists l, a = p ++ e :: l) \/ exists l, p = a ++ l /\ b = l ++ e :: q).
  { clear Ha Hb. revert p E. induction a as [|x a IH]; intros p E; [right; exists p; auto|]. destruct p as [|y p]; injection E as -> E.
    - left. exists a. reflexivity.
    - destruct (IH p E) as [[l ->]|(l & -> & ->)]; [left; exists l; reflexivity|right; exists l; auto]. }
  destruct Hcase as [[l El]|(l & -> & El)].
  - exact (Ha p e l El).
  - specialize (Hb l e q El). destruct e; auto using decided_by_app.
Qed.
Lemma metro_nil : metro_ok []. Proof. intros [|? ?] ? ?; discriminate. Qed.
Lemma metro_concat l : Forall metro_ok l -> metro_ok (concat l).
Proof. induction 1; cbn [concat]; [apply metro_nil|]. apply metro_app; assumption. Qed.
Lemma metro_one e : (match e with EAccept _ _ _ _ | EReject _ _ _ _ => False | _ => True end) -> metro_ok [e].
Proof. intros H [|? [|? ?]] x q E; injection E; intros; subst; try discriminate. destruct x; auto; contradiction. Qed.
Lemma metro_map A (f : A -> event) l : (forall x, match f x with EAccept _ _ _ _ | EReject _ _ _ _ => False | _ => True end) -> metro_ok (map f l).
Proof. intros H. induction l as [|x l IH]; [apply metro_nil|]. apply (metro_app [f x]); [apply metro_one, H|exact IH]. Qed.
Lemma metro_step t : step_trace t -> metro_ok t.
Proof.
  intros [u k r v a ratio sg Hp Hc Hv|u k r v ratio sg Hp Hc Hv] p e q E.
  all: destruct p as [|e1 [|e2 [|e3 [|e4 [|? ?]]]]]; cbn [app] in E; injection E; intros; subst; try exact I; try discriminate.
  all: exists [], u, r, v, ratio, sg; auto.
Qed.
Lemma metro_full L dm t : full_cycle L dm t -> metro_ok t.
Proof.
  intros (steps & x & _ & Hs & ->). apply metro_app; [apply metro_concat; eapply Forall_impl; [|exact Hs]; apply metro_step|].
  apply metro_app; [destruct duty; [apply metro_one; exact I|apply metro_nil]|]. destruct dm; [|apply metro_nil].
  apply metro_app; apply metro_map; intros; exact I.
Qed.
Lemma thm_run_metropolis fuel n L dm s st s' : n <> 0 -> run fuel n L dm s = RReturn _ _ _ st s' ->
  exists t, mc_trace _ _ _ s' = mc_trace _ _ _ s ++ t /\ metro_ok t.
Proof.
  intros Hn HR. destruct (thm_run_structure _ _ _ _ _ _ _ Hn HR) as (full & last & b & Ht & Hf & Hl & _). eexists. split; [exact Ht|].
  apply metro_app; [apply metro_concat, Forall_map; eapply Forall_impl; [|exact Hf]|].
  { intros c Hc. apply metro_app; [eapply metro_full; exact Hc|apply metro_one; exact I]. }
  apply metro_app; [|apply metro_one; exact I]. destruct Hl as [(Hl & _)|(Hl & _)]; [eapply metro_full; exact Hl|].
  destruct Hl as (steps & _ & Hs & ->). apply metro_concat. eapply Forall_impl; [|exact Hs]. apply metro_step.
Qed.
End McProofs.

(** ---- findings ---- *)
(** a signal during the last cycle: status 0 although the cycle was interrupted *)
Lemma cex_status : exists (moves : list (umove unit R dbl)) (measures : list (R -> unit -> bool * unit)) arrive s s',
  run unit R dbl Rmult classify_double moves (fun w => (0%R, w)) measures [] None (fun w => (false, w)) arrive (fun _ => false) true true 1 1 1 true s = RReturn _ _ _ 0 s' /\
  length measures = 1%nat /\ mc_trace _ _ _ s' = [EStop _ _ false] /\ mc_nmeas _ _ _ s' = 0.
Proof.
  exists [mkMove unit R dbl 1%R (fun w => (Some (Fin 1%R), w)) (fun w => (Some 1%R, w)) (fun w => (true, w))], [fun _ w => (true, w)].
  exists (fun p => if Nat.eqb p 0 then [2] else []), (mkMc unit R dbl tt 1%R 0 0 0 [0] [0] [] 0 false []).
  eexists. split; [cbv -[Rmult]; reflexivity|]. repeat split.
Qed.
(** an exception without an MPI environment dereferences the null monitor *)
Lemma cex_null_monitor : exists (moves : list (umove unit R dbl)) s,
  run unit R dbl Rmult classify_double moves (fun w => (0%R, w)) [] [] None (fun w => (false, w)) (fun _ => []) (fun _ => false) true false 1 1 1 true s = RUB _ _ _.
Proof. exists [], (mkMc unit R dbl tt 1%R 0 0 0 [] [] [] 0 false []). reflexivity. Qed.

(** ---- ratios ---- *)
Section Ratios.
Local Open Scope R_scope.
Lemma thm_classify_double r : 1 / 10 ^ 14 < Rabs r ->
  exists s, classify_double (Fin r) = Some (Rabs r, s) /\ r = Rabs r * s /\ (0 < r -> s = 1) /\ (r < 0 -> s = -1).
Proof.
  intros Hr. assert (Hp : 0 < 1 / 10 ^ 14). { unfold Rdiv. rewrite Rmult_1_l. apply Rinv_0_lt_compat. apply pow_lt. lra. }
  exists (r / Rabs r). cbn [classify_double]. unfold sign_or_one. destruct (Rlt_dec (1 / 10 ^ 14) (Rabs r)); [|contradiction].
  split; [reflexivity|]. split; [field; lra|]. split; intros H.
  - rewrite Rabs_right by lra. field. lra.
  - rewrite Rabs_left by lra. field. lra.
Qed.
Lemma thm_classify_inf v : v < 1 ->
  classify_double PInf = Some (100, 1) /\ classify_double NInf = Some (100, -1) /\ classify_double NaN = None /\ v < Rmin 1 100.
Proof. intros Hv. rewrite Rmin_left by lra. auto. Qed.
Lemma thm_classify_complex z : 1 / 10 ^ 14 < cabs z ->
  exists s, classify_complex (Some z) = Some (cabs z, s) /\ cabs s = 1 /\ z = (cabs z * fst s, cabs z * snd s).
Proof.
  intros Hz. assert (Hp : 0 < 1 / 10 ^ 14). { unfold Rdiv. rewrite Rmult_1_l. apply Rinv_0_lt_compat. apply pow_lt. lra. }
  exists (fst z / cabs z, snd z / cabs z). cbn [classify_complex]. destruct (Rlt_dec (1 / 10 ^ 14) (cabs z)); [|contradiction].
  split; [reflexivity|]. split.
  - unfold cabs at 1. cbn [fst snd]. set (c := cabs z) in *.
    assert (Hc : c * c = fst z * fst z + snd z * snd z). { unfold c, cabs. apply sqrt_sqrt. nra. }
    replace (fst z / c * (fst z / c) + snd z / c * (snd z / c)) with 1; [apply sqrt_1|]. replace (fst z / c * (fst z / c) + snd z / c * (snd z / c)) with ((fst z * fst z + snd z * snd z) / (c * c)) by (field; lra).
    rewrite <- Hc. field. lra.
  - destruct z as [a b]. cbn [fst snd]. f_equal; field; lra.
Qed.
(** a move set used as a move returns the absolute value of the ratio, so the sign taken by
    the outer set is 1 and the inner accept() carries the whole sign *)
Lemma thm_nested r : classify_double (Fin (Rabs r)) = Some (Rabs r, 1).
Proof.
  cbn [classify_double]. rewrite Rabs_Rabsolu. f_equal. f_equal. unfold sign_or_one. rewrite Rabs_Rabsolu. destruct (Rlt_dec (1 / 10 ^ 14) (Rabs r)); [|reflexivity].
  assert (Hp : 0 < 1 / 10 ^ 14). { unfold Rdiv. rewrite Rmult_1_l. apply Rinv_0_lt_compat. apply pow_lt. lra. } field. lra.
Qed.
(** a negative ratio of absolute value at most 1e-14 is taken with sign +1 *)
Lemma cex_tiny_ratio : exists r v, r < 0 /\ 0 <= v /\ v < Rmin 1 (Rabs r) /\ classify_double (Fin r) = Some (Rabs r, 1).
Proof.
  exists (- (1 / 10 ^ 15)), 0. assert (H1 : 0 < 1 / 10 ^ 15 < 1 / 10 ^ 14).
  { assert (H15 : 10 ^ 15 = 10 * 10 ^ 14) by (cbn [pow]; ring). assert (H14 : 0 < 10 ^ 14) by (apply pow_lt; lra). rewrite H15. split; [apply Rdiv_lt_0_compat; lra|].
    apply Rmult_lt_reg_r with (10 * 10 ^ 14); [lra|]. unfold Rdiv. field_simplify; lra. }
  assert (H14 : 1 / 10 ^ 14 < 1). { assert (H14 : 1 < 10 ^ 14) by (apply Rlt_pow_R1; [lra|lia]). apply Rmult_lt_reg_r with (10 ^ 14); [lra|]. unfold Rdiv. field_simplify; lra. }
  assert (HA : Rabs (- (1 / 10 ^ 15)) = 1 / 10 ^ 15) by (rewrite Rabs_Ropp; apply Rabs_right; lra).
  split; [lra|]. split; [lra|]. rewrite HA. split; [rewrite Rmin_right by lra; lra|]. cbn [classify_double]. rewrite HA. unfold sign_or_one. rewrite HA. destruct (Rlt_dec (1 / 10 ^ 14) (1 / 10 ^ 15)); [lra|reflexivity].
Qed.
End Ratios.
Lemma thm_acceptance_rate nodes : Forall (fun n => 0 <= fst n <= snd n) nodes -> Exists (fun n => 0 < snd n) nodes ->
  exists r, acceptance_rate nodes = Some r /\ (0 <= r <= 1)%R /\
    (r * IZR (fold_right (fun n a => snd n + a)%Z 0%Z nodes) = IZR (fold_right (fun n a => fst n + a)%Z 0%Z nodes))%R.
Proof.
  intros Hf He. unfold acceptance_rate.
  assert (G : forall (f : Z * Z -> Z) l a, fold_left (fun a n => a + f n) l a = a + fold_right (fun n a => f n + a) 0 l).
  { intros f l. induction l as [|x l IH]; intros a; cbn [fold_left fold_right]; [lia|]. rewrite IH. lia. }
  rewrite !G, !Z.add_0_l. set (p := fold_right (fun n a => snd n + a) 0 nodes). set (q := fold_right (fun n a => fst n + a) 0 nodes).
  assert (Hpq : 0 <= q <= p). { unfold p, q. clear He p q. induction Hf; cbn [fold_right]; lia. }
  assert (Hp : 0 < p). { unfold p. clear Hpq p q. induction He as [x l Hx|x l He IH]; cbn [fold_right]; inversion Hf as [|? ? H1 H2]; subst.
    - assert (0 <= fold_right (fun n a => snd n + a) 0 l). { clear - H2. induction H2; cbn [fold_right]; lia. } lia.
    - specialize (IH H2). lia. }
  destruct (Z.eqb_spec p 0); [lia|]. assert (Hp' : (0 < IZR p)%R) by (apply IZR_lt; lia). exists (IZR q / IZR p)%R. split; [reflexivity|]. split.
  - assert ((0 <= IZR q <= IZR p)%R) by (split; apply IZR_le; lia). split.
    + apply Rmult_le_pos; [lra|]. left. apply Rinv_0_lt_compat. exact Hp'.
    + apply Rmult_le_reg_r with (IZR p); [exact Hp'|]. unfold Rdiv. rewrite Rmult_assoc, Rinv_l, Rmult_1_r, Rmult_1_l by lra. lra.
  - unfold Rdiv. rewrite Rmult_assoc, Rinv_l, Rmult_1_r by lra. reflexivity.
Qed.

(** a concrete simulation: one move that multiplies the weight by -1/2 *)
Definition toy_moves : list (umove unit R dbl) := [mkMove unit R dbl 1%R (fun w => (Some (Fin (- (1 / 2))%R), w)) (fun w => (Some 1%R, w)) (fun w => (true, w))].
Definition toy_state : mc unit R dbl := mkMc unit R dbl tt 1%R 0 0 0 [0] [0] [] 0 false [].
Lemma toy_good : good_moves unit R dbl toy_moves (fun w => (0%R, w)).
Proof. split; [repeat constructor; cbn; lra|]. split; [cbn; lra|]. intros w. cbn. lra. Qed.
Lemma toy_no_throw : no_throw unit R dbl classify_double toy_moves [fun _ w => (true, w)] [] None.
Proof.
  split; [|split; [repeat constructor|split; [constructor|exact I]]]. repeat constructor; intros; cbn; try discriminate.
  eexists. split; [reflexivity|discriminate].
Qed.
Lemma toy_returns : exists st s',
  run unit R dbl Rmult classify_double toy_moves (fun w => (0%R, w)) [fun _ w => (true, w)] [] None (fun w => (false, w)) (fun _ => []) (fun _ => false) false false 3 3 2 true toy_state = RReturn _ _ _ st s'.
Proof. apply thm_run_returns; [apply toy_good|apply toy_no_throw|reflexivity|unfold INT_MAX; lia|cbn; lia]. Qed.
