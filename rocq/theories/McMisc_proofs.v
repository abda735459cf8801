From Coq Require Import ZArith List Bool Lia Sorted.
From Coq Require String.
From Verif Require Import Base Indices McMisc.
Import ListNotations.
Local Open Scope Z_scope.

Section Measures.
Variable Sg : Type.
Notation meas := (meas Sg). Notation mset := (mset Sg).
Definition str_lt (a b : string) : Prop := str_cmp a b = Lt.
Definition view (v : nat * list Sg) : meas := mkMeas Sg (fst v) (Z.of_nat (length (snd v))) (snd v).
Definition agree (st : mset) (r : registry Sg) : Prop := forall n, ms_find Sg n (ms_map Sg st) = option_map view (r n).
Definition sorted (l : list (string * meas)) : Prop := StronglySorted str_lt (map fst l).

Lemma cmp_refl a : str_cmp a a = Eq. Proof. apply (oc_eq _ str_ok). reflexivity. Qed.
Lemma eqb_iff a b : cmp_eqb str_cmp a b = true <-> a = b. Proof. apply (cmp_eqb_eq str_cmp str_ok). Qed.
Lemma eqb_false a b : cmp_eqb str_cmp a b = false <-> a <> b.
Proof. rewrite <- eqb_iff. destruct (cmp_eqb str_cmp a b); split; congruence. Qed.
Lemma not_lt a b : cmp_ltb str_cmp a b = false -> a <> b -> str_lt b a.
Proof.
  unfold cmp_ltb, str_lt. intros H Hne. rewrite (oc_anti _ str_ok). destruct (str_cmp a b) eqn:E; try discriminate; [|reflexivity].
  apply (oc_eq _ str_ok) in E. contradiction.
Qed.
Lemma lt_ne a b : str_lt a b -> a <> b.
Proof. intros H ->. unfold str_lt in H. rewrite cmp_refl in H. discriminate. Qed.

Lemma find_none_in n l : ms_find Sg n l = None <-> ~ In n (map fst l).
Proof.
  induction l as [|[n' m] l IH]; cbn [ms_find map fst In]; [tauto|]. destruct (cmp_eqb str_cmp n n') eqn:E.
  - apply eqb_iff in E. subst. split; [discriminate|]. intros H. exfalso. apply H. left. reflexivity.
  - apply eqb_false in E. rewrite IH. split; [intros H [H1|H1]; [congruence|auto]|tauto].
Qed.
Lemma emplace_in n m l x : In x (map fst (ms_emplace Sg n m l)) <-> x = n \/ In x (map fst l).
Proof.
  induction l as [|[n' m'] l IH]; cbn [ms_emplace map fst In]; [intuition|]. destruct (cmp_ltb str_cmp n n'); cbn [map fst In]; [intuition|]. rewrite IH. intuition.
Qed.
Lemma emplace_sorted n m l : sorted l -> ~ In n (map fst l) -> sorted (ms_emplace Sg n m l).
Proof.
  unfold sorted. induction l as [|[n' m'] l IH]; cbn [ms_emplace map fst In]; intros Hs Hn; [repeat constructor|].
  inversion Hs as [|? ? Hs' Hall]; subst. destruct (cmp_ltb str_cmp n n') eqn:E; cbn [map fst].
  - constructor; [exact Hs|]. assert (Hlt : str_lt n n') by (unfold cmp_ltb, str_lt in *; destruct (str_cmp n n'); congruence).
    constructor; [exact Hlt|]. eapply Forall_impl; [|exact Hall]. intros y Hy. exact (oc_trans _ str_ok _ _ _ Hlt Hy).
  - constructor; [apply IH; tauto|]. apply Forall_forall. intros y Hy. apply emplace_in in Hy as [->|Hy].
    + apply not_lt; [exact E|]. intros ->. apply Hn. left. reflexivity.
    + rewrite Forall_forall in Hall. apply Hall. exact Hy.
Qed.
Lemma emplace_find n m l x : ~ In n (map fst l) -> ms_find Sg x (ms_emplace Sg n m l) = if String.eqb x n then Some m else ms_find Sg x l.
Proof.
  induction l as [|[n' m'] l IH]; cbn [ms_emplace map fst In ms_find]; intros Hn.
  - destruct (String.eqb_spec x n) as [Hx|Hx]; [rewrite (proj2 (eqb_iff x n)) by exact Hx; reflexivity|rewrite (proj2 (eqb_false x n)) by exact Hx; reflexivity].
  - destruct (cmp_ltb str_cmp n n'); cbn [ms_find].
    + destruct (String.eqb_spec x n) as [Hx|Hx]; [rewrite (proj2 (eqb_iff x n)) by exact Hx; reflexivity|rewrite (proj2 (eqb_false x n)) by exact Hx; reflexivity].
    + destruct (cmp_eqb str_cmp x n') eqn:E.
      * apply eqb_iff in E. subst x. destruct (String.eqb_spec n' n) as [->|]; [exfalso; apply Hn; left; reflexivity|reflexivity].
      * apply IH. tauto.
Qed.
Lemma erase_in n l x : In x (map fst (ms_erase Sg n l)) -> In x (map fst l).
Proof. induction l as [|[n' m] l IH]; cbn [ms_erase map fst In]; [tauto|]. destruct (cmp_eqb str_cmp n n'); cbn [map fst In]; tauto. Qed.
Lemma erase_sorted n l : sorted l -> sorted (ms_erase Sg n l).
Proof.
  unfold sorted. induction l as [|[n' m] l IH]; cbn [ms_erase map fst]; intros Hs; [constructor|]. inversion Hs as [|? ? Hs' Hall]; subst.
  destruct (cmp_eqb str_cmp n n'); [exact Hs'|]. cbn [map fst]. constructor; [auto|]. apply Forall_forall. intros y Hy. apply erase_in in Hy. rewrite Forall_forall in Hall. auto.
Qed.
Lemma erase_find n l x : sorted l -> ms_find Sg x (ms_erase Sg n l) = if String.eqb x n then None else ms_find Sg x l.
Proof.
  unfold sorted. induction l as [|[n' m] l IH]; cbn [ms_erase map fst ms_find]; intros Hs; [destruct (String.eqb x n); reflexivity|].
  inversion Hs as [|? ? Hs' Hall]; subst. destruct (cmp_eqb str_cmp n n') eqn:E.
  - apply eqb_iff in E. subst n'. destruct (String.eqb_spec x n) as [Hx|Hx].
    + apply find_none_in. rewrite Hx. intros Hi. rewrite Forall_forall in Hall. apply (lt_ne _ _ (Hall n Hi)). reflexivity.
    + rewrite (proj2 (eqb_false x n)) by exact Hx. reflexivity.
  - cbn [ms_find]. apply eqb_false in E. destruct (cmp_eqb str_cmp x n') eqn:E2.
    + apply eqb_iff in E2. subst x. destruct (String.eqb_spec n' n); [congruence|reflexivity].
    + apply IH. exact Hs'.
Qed.
Lemma acc_find s l x : ms_find Sg x (map (fun e => (fst e, me_accumulate Sg s (snd e))) l) = option_map (me_accumulate Sg s) (ms_find Sg x l).
Proof. induction l as [|[n m] l IH]; cbn [ms_find map fst snd]; [reflexivity|]. destruct (cmp_eqb str_cmp x n); [reflexivity|exact IH]. Qed.

Lemma step_refines st r o : sorted (ms_map Sg st) -> agree st r ->
  match ms_step Sg st o, reg_step Sg r (ms_next Sg st) o with
  | Some (st', _), Some (r', next') => sorted (ms_map Sg st') /\ agree st' r' /\ ms_next Sg st' = next'
  | None, None => True
  | _, _ => False
  end.
Proof.
  intros Hs Ha. destruct o as [n|n id| |s]; cbn [ms_step reg_step].
  - rewrite (Ha n). destruct (r n) as [v|] eqn:Er; cbn [option_map].
    + auto.
    + assert (Hn : ~ In n (map fst (ms_map Sg st))). { apply find_none_in. rewrite (Ha n), Er. reflexivity. }
      cbn [ms_map ms_next]. split; [apply emplace_sorted; assumption|]. split; [|reflexivity]. intros x. cbn [ms_map]. rewrite emplace_find by exact Hn. unfold upd.
      destruct (String.eqb x n); [reflexivity|apply Ha].
  - rewrite (Ha n). destruct (r n) as [[id' l]|] eqn:Er; cbn [option_map]; [|exact I]. cbn [view me_id fst]. destruct (Nat.eqb id' id); [|exact I].
    cbn [ms_map ms_next]. split; [apply erase_sorted; exact Hs|]. split; [|reflexivity]. intros x. cbn [ms_map]. rewrite erase_find by exact Hs. unfold upd.
    destruct (String.eqb x n); [reflexivity|apply Ha].
  - cbn [ms_map ms_next]. split; [constructor|]. split; [|reflexivity]. intros x. reflexivity.
  - cbn [ms_map ms_next]. split; [|split; [|reflexivity]].
    + unfold sorted. rewrite map_map. cbn [fst]. exact Hs.
    + intros x. cbn [ms_map]. rewrite acc_find, (Ha x). destruct (r x) as [[id l]|]; [|reflexivity]. cbn [option_map]. unfold view, me_accumulate. cbn [fst snd me_id me_count me_seen].
      rewrite app_length. cbn [length]. do 2 f_equal. lia.
Qed.
Lemma run_refines ops : forall st r, sorted (ms_map Sg st) -> agree st r ->
  match ms_run Sg ops st, reg_run Sg ops r (ms_next Sg st) with
  | Some (st', _), Some (r', next') => sorted (ms_map Sg st') /\ agree st' r' /\ ms_next Sg st' = next'
  | None, None => True
  | _, _ => False
  end.
Proof.
  induction ops as [|o ops IH]; intros st r Hs Ha; cbn [ms_run reg_run]; [auto|].
  pose proof (step_refines st r o Hs Ha) as H. destruct (ms_step Sg st o) as [[st' x]|]; destruct (reg_step Sg r (ms_next Sg st) o) as [[r' next']|]; try contradiction; [|exact I].
  destruct H as (Hs' & Ha' & <-). specialize (IH st' r' Hs' Ha'). destruct (ms_run Sg ops st') as [[st'' xs]|]; exact IH.
Qed.
(** the set is the registry: each measure saw exactly the signs accumulated since its insertion,
    and its count is their number *)
Lemma thm_measures ops :
  match ms_run Sg ops (ms_empty Sg), reg_run Sg ops (fun _ => None) 0 with
  | Some (st, _), Some (r, _) =>
      StronglySorted str_lt (ms_names Sg st) /\
      (forall n, In n (ms_names Sg st) <-> r n <> None) /\
      (forall n, ms_find Sg n (ms_map Sg st) = option_map (fun v => mkMeas Sg (fst v) (Z.of_nat (length (snd v))) (snd v)) (r n))
  | None, None => True
  | _, _ => False
  end.
Proof.
  assert (H := run_refines ops (ms_empty Sg) (fun _ => None)). cbn [ms_empty ms_map ms_next] in H.
  specialize (H (SSorted_nil _)). specialize (H (fun _ => eq_refl)). change (mkMset Sg [] 0) with (ms_empty Sg) in H.
  destruct (ms_run Sg ops (ms_empty Sg)) as [[st xs]|]; destruct (reg_run Sg ops (fun _ => None) 0) as [[r next]|]; auto.
  destruct H as (Hs & Ha & _). split; [exact Hs|]. split; [|exact Ha]. intros n. unfold ms_names. destruct (r n) as [v|] eqn:Er.
  - split; [discriminate|]. intros _. destruct (in_dec String.string_dec n (map fst (ms_map Sg st))) as [Hi|Hi]; [exact Hi|]. apply find_none_in in Hi. rewrite (Ha n), Er in Hi. discriminate.
  - split; [|contradiction]. intros Hi _. apply (proj1 (find_none_in n (ms_map Sg st))); [rewrite (Ha n), Er; reflexivity|exact Hi].
Qed.
Lemma in_find l n m : sorted l -> In (n, m) l -> ms_find Sg n l = Some m.
Proof.
  unfold sorted. induction l as [|[n' m'] l IH]; cbn [ms_find map fst In]; intros Hs Hi; [contradiction|]. inversion Hs as [|? ? Hs' Hall]; subst.
  destruct Hi as [[= -> ->]|Hi]; [rewrite (proj2 (eqb_iff n n)); reflexivity|]. destruct (cmp_eqb str_cmp n n') eqn:E; [|auto].
  apply eqb_iff in E. subst n'. exfalso. rewrite Forall_forall in Hall. apply (lt_ne n n); [|reflexivity]. apply Hall. apply in_map_iff. exists (n, m). auto.
Qed.
(** one accumulation calls the registered measures once each, in the order of the names *)
Lemma thm_accumulate ops st outs r next s : ms_run Sg ops (ms_empty Sg) = Some (st, outs) -> reg_run Sg ops (fun _ => None) 0 = Some (r, next) ->
  exists (ns : list string) (ids : list nat),
    StronglySorted str_lt ns /\ (forall n, In n ns <-> r n <> None) /\
    Forall2 (fun n id => exists l, r n = Some (id, l)) ns ids /\
    exists st', ms_step Sg st (MAccumulate Sg s) = Some (st', MOCalls Sg (map (fun id => (id, s)) ids)).
Proof.
  intros H1 H2. assert (H := thm_measures ops). rewrite H1, H2 in H. destruct H as (Hs & Hin & Ha).
  exists (ms_names Sg st), (map (fun e => me_id Sg (snd e)) (ms_map Sg st)). split; [exact Hs|]. split; [exact Hin|]. split.
  - assert (Hf : forall e, In e (ms_map Sg st) -> exists l, r (fst e) = Some (me_id Sg (snd e), l)).
    { intros [n m] He. assert (Hfm := in_find _ _ _ Hs He). rewrite (Ha n) in Hfm. cbn [fst snd]. destruct (r n) as [[id l]|]; [|discriminate]. injection Hfm as <-. exists l. reflexivity. }
    clear - Hf. unfold ms_names. induction (ms_map Sg st) as [|e l IH]; cbn [map]; constructor; [apply Hf; left; reflexivity|apply IH; intros; apply Hf; right; assumption].
  - cbn [ms_step]. eexists. rewrite map_map. reflexivity.
Qed.
(** a duplicate name throws and changes nothing; a new one never throws *)
Lemma thm_insert ops st outs n : ms_run Sg ops (ms_empty Sg) = Some (st, outs) ->
  (In n (ms_names Sg st) -> ms_step Sg st (MInsert Sg n) = Some (st, MOThrow Sg)) /\
  (~ In n (ms_names Sg st) -> exists st' id, ms_step Sg st (MInsert Sg n) = Some (st', MOItr Sg n id) /\
     forall x, In x (ms_names Sg st') <-> x = n \/ In x (ms_names Sg st)).
Proof.
  intros _. unfold ms_names. cbn [ms_step]. split; intros Hi.
  - destruct (ms_find Sg n (ms_map Sg st)) as [m|] eqn:E; [reflexivity|]. apply find_none_in in E. contradiction.
  - apply find_none_in in Hi as E. rewrite E. eexists _, _. split; [reflexivity|]. intros x. cbn [ms_map]. apply emplace_in.
Qed.
End Measures.

Section Buffered.
Variables (A G : Type) (gen : G -> A * G).
Fixpoint after (g : G) (n : nat) : G := match n with O => g | S n' => after (snd (gen g)) n' end.
Lemma stream_after g n i : stream A G gen (after g n) i = stream A G gen g (n + i).
Proof. revert g. induction n as [|n IH]; intros g; [reflexivity|]. cbn [after Nat.add stream]. apply IH. Qed.
Lemma after_after g a b : after (after g a) b = after g (a + b).
Proof. revert g. induction a as [|a IH]; intros g; [reflexivity|]. apply IH. Qed.
Lemma seq_add s : forall a o, map (fun i => (a + i)%nat) (seq o s) = seq (a + o) s.
Proof. induction s as [|s IH]; intros a o; [reflexivity|]. cbn [seq map]. rewrite IH. f_equal. f_equal. lia. Qed.
Lemma fill_spec n : forall g, fill A G gen n g = (map (stream A G gen g) (seq 0 n), after g n).
Proof.
  induction n as [|n IH]; intros g; [reflexivity|]. cbn [fill]. destruct (gen g) as [x g1] eqn:E. rewrite IH. cbn [seq map after stream]. rewrite E. cbn [fst snd].
  rewrite <- seq_shift, map_map. f_equal. f_equal. apply map_ext. intros i. cbn [stream]. rewrite E. reflexivity.
Qed.
(** cursor at i: the buffer holds the values from i - index on *)
Definition binv (g : G) (size : nat) (i : nat) (b : buf A G) : Prop :=
  exists k j, i = (k + j)%nat /\ (j <= size)%nat /\ b = mkBuf A G (Z.of_nat j) (map (stream A G gen g) (seq k size)) (after g (k + size)).
Lemma ready_inv g size i b : (1 <= size)%nat -> Z.of_nat size <= two64 -> binv g size i b -> exists k j, i = (k + j)%nat /\ (j < size)%nat /\
  bf_ready A G gen b = mkBuf A G (Z.of_nat j) (map (stream A G gen g) (seq k size)) (after g (k + size)).
Proof.
  intros H1 H2 (k & j & -> & Hj & ->). unfold bf_ready. cbn [bf_buffer bf_index]. rewrite map_length, seq_length.
  unfold wrap64. rewrite Z.mod_small by (unfold two64 in *; lia). destruct (Z.ltb_spec (Z.of_nat size - 1) (Z.of_nat j)) as [Hlt|Hle].
  - assert (j = size) as -> by lia. exists (k + size)%nat, 0%nat. split; [lia|]. split; [lia|]. unfold bf_refill. cbn [bf_buffer bf_gen]. rewrite map_length, seq_length, fill_spec, after_after.
    f_equal. rewrite (map_ext _ (fun i => stream A G gen g ((k + size) + i))) by (intros; apply stream_after). rewrite <- (map_map (fun i => ((k + size) + i)%nat)). f_equal.
    rewrite seq_add. f_equal. lia.
  - exists k, j. split; [reflexivity|]. split; [lia|]. reflexivity.
Qed.
Lemma run_inv g size ops : (1 <= size)%nat -> Z.of_nat size <= two64 -> forall i b, binv g size i b ->
  bf_run A G gen ops b = Ok (cursor A (stream A G gen g) ops i).
Proof.
  intros H1 H2. induction ops as [|o ops IH]; intros i b Hb; [reflexivity|]. cbn [bf_run cursor].
  destruct (ready_inv g size i b H1 H2 Hb) as (k & j & -> & Hj & Hr).
  assert (Hat : bf_at A G (bf_ready A G gen b) = Ok (stream A G gen g (k + j))).
  { unfold bf_at. rewrite Hr. cbn [bf_buffer bf_index]. rewrite Nat2Z.id.
    rewrite (map_nth_error (stream A G gen g) j (seq k size) (d := (k + j)%nat)); [reflexivity|]. rewrite (nth_error_nth' _ 0%nat) by (rewrite seq_length; lia). rewrite seq_nth by lia. reflexivity. }
  destruct o; unfold bf_call, bf_preview; cbv zeta; rewrite Hat.
  - rewrite (IH (S (k + j))); [reflexivity|]. exists k, (S j). split; [lia|]. split; [lia|]. rewrite Hr. cbn [bf_index bf_buffer bf_gen]. f_equal. lia.
  - rewrite (IH (k + j)%nat); [reflexivity|]. exists k, j. split; [reflexivity|]. split; [lia|]. exact Hr.
Qed.
Lemma thm_buffered g size ops : (1 <= size)%nat -> Z.of_nat size <= two64 ->
  bf_run A G gen ops (bf_make A G gen size g) = Ok (cursor A (stream A G gen g) ops 0).
Proof.
  intros H1 H2. apply run_inv with (size := size); auto. exists 0%nat, 0%nat. split; [reflexivity|]. split; [lia|]. unfold bf_make. rewrite fill_spec. reflexivity.
Qed.
(** the k-th call returns the k-th value however previews are interleaved *)
Lemma cursor_calls s ops : forall i, 
  map snd (filter (fun e => match fst e with BCall => true | BPreview => false end) (combine ops (cursor A s ops i))) =
  map s (seq i (length (filter (fun o => match o with BCall => true | BPreview => false end) ops))).
Proof. induction ops as [|[] ops IH]; intros i; cbn; [reflexivity| |]; rewrite IH; reflexivity. Qed.
Lemma thm_size0 g o ops : bf_run A G gen (o :: ops) (bf_make A G gen 0 g) = UB.
Proof. destruct o; reflexivity. Qed.
End Buffered.

(** ---- signals ---- *)
Lemma removelast_len A (l : list A) : l <> [] -> length l = S (length (removelast l)).
Proof. intros H. destruct l as [|x l]; [contradiction|]. rewrite (app_removelast_last x H) at 1. rewrite app_length. cbn [length]. lia. Qed.
Definition no_stop (o : sop) : Prop := o <> SStop.
Lemma sg_count ops : forall s s' outs, Forall no_stop ops -> sg_run ops s = Some (s', outs) ->
  (length (sg_list s') + n_consumed (combine ops outs) = length (sg_list s) + length (delivered (combine ops outs)))%nat.
Proof.
  induction ops as [|o ops IH]; intros s s' outs Hn H; cbn [sg_run] in H; [injection H as <- <-; reflexivity|].
  inversion Hn as [|? ? Ho Hn']; subst. destruct (sg_step s o) as [[s1 x]|] eqn:E; [|discriminate].
  destruct (sg_run ops s1) as [[s2 xs]|] eqn:E2; [|discriminate]. injection H as <- <-. specialize (IH _ _ _ Hn' E2).
  cbn [combine]. unfold n_consumed, delivered in *. cbn [filter flat_map]. destruct o as [| |p| | |n]; cbn [sg_step] in E.
  - destruct (sg_init s); injection E as <- <-; cbn [sg_list] in IH; exact IH.
  - exfalso. apply Ho. reflexivity.
  - injection E as <- <-. destruct (sg_list s) as [|z l] eqn:El; cbn [length Nat.eqb negb andb] in *.
    + destruct p; cbn [length]; rewrite El in IH; cbn [length app] in *; exact IH.
    + destruct p; cbn [length].
      * cbn [sg_list] in IH. assert (Hr := removelast_len Z (z :: l) ltac:(discriminate)). cbn [length app] in *. lia.
      * rewrite El in IH. exact IH.
  - destruct (sg_list s) as [|z l] eqn:El; [discriminate|]. injection E as <- <-. rewrite El in IH. exact IH.
  - destruct (sg_list s) as [|z l] eqn:El; [discriminate|]. injection E as <- <-. cbn [sg_list] in IH.
    assert (Hr := removelast_len Z (z :: l) ltac:(discriminate)). change (match l with [] => [] | _ :: _ => z :: removelast l end) with (removelast (z :: l)) in IH. cbn [length app] in *. lia.
  - destruct (sg_handlers s); injection E as <- <-; cbn [sg_list app length] in *; [|exact IH]. rewrite app_length in IH. cbn [length] in IH. lia.
Qed.
(** no signal is lost and none is reported twice: between two stops, received() answers whether
    more signals were delivered than consumed *)
Lemma thm_signals_conserved s0 ops s outs p :
  sg_list s0 = [] -> Forall no_stop ops -> sg_run ops s0 = Some (s, outs) ->
  exists s', sg_step s (SReceived p) = Some (s', SBool (n_consumed (combine ops outs) <? length (delivered (combine ops outs)))%nat) /\
    (n_consumed (combine ops outs) <= length (delivered (combine ops outs)))%nat.
Proof.
  intros H0 Hn H. pose proof (sg_count _ _ _ _ Hn H) as Hc. rewrite H0 in Hc. cbn [length] in Hc. cbn [sg_step]. eexists. split; [|lia]. do 3 f_equal.
  destruct (Nat.eqb_spec (length (sg_list s)) 0); destruct (Nat.ltb_spec (n_consumed (combine ops outs)) (length (delivered (combine ops outs)))); try reflexivity; lia.
Qed.
(** the most recent signal is reported first, and consuming it gives back the state before *)
Lemma thm_signal_lifo s n : sg_handlers s = true ->
  exists s1, sg_step s (SDeliver n) = Some (s1, SNone) /\ sg_step s1 SLast = Some (s1, SInt n) /\
    sg_step s1 SPop = Some (s, SNone) /\ sg_step s1 (SReceived true) = Some (s, SBool true) /\ sg_step s1 (SReceived false) = Some (s1, SBool true).
Proof.
  intros Hh. destruct s as [l i h]. cbn in Hh. subst h. eexists. cbn [sg_step sg_handlers sg_list sg_init]. split; [reflexivity|]. cbn [sg_list sg_init sg_handlers].
  assert (Hne : exists z l', l ++ [n] = z :: l') by (destruct l; cbn; eauto). assert (Hz : Nat.eqb (length (l ++ [n])) 0 = false) by (rewrite app_length; cbn; apply Nat.eqb_neq; lia).
  rewrite Hz, removelast_last, last_last. cbn [negb andb]. destruct Hne as (z & l' & ->). auto.
Qed.
(** start is idempotent and keeps pending signals; stop forgets them *)
Lemma thm_start_stop s :
  (exists s1, sg_step s SStart = Some (s1, SNone) /\ sg_list s1 = sg_list s /\ sg_step s1 SStart = Some (s1, SNone)) /\
  (exists s2, sg_step s SStop = Some (s2, SNone) /\ sg_step s2 (SReceived false) = Some (s2, SBool false) /\ sg_step s2 (SReceived true) = Some (s2, SBool false)).
Proof.
  destruct s as [l i h]. split.
  - destruct i; eexists; cbn; auto.
  - eexists. cbn. auto.
Qed.
(** after one start, a handled signal never kills the process *)
Lemma sg_handlers_keep ops : forall s s' outs, sg_handlers s = true -> sg_run ops s = Some (s', outs) -> sg_handlers s' = true /\ ~ In SKilled outs.
Proof.
  induction ops as [|o ops IH]; intros s s' outs Hh H; cbn [sg_run] in H; [injection H as <- <-; auto|].
  destruct (sg_step s o) as [[s1 x]|] eqn:E; [|discriminate]. destruct (sg_run ops s1) as [[s2 xs]|] eqn:E2; [|discriminate]. injection H as <- <-.
  assert (Hs : sg_handlers s1 = true /\ x <> SKilled).
  { destruct o as [| |p| | |n]; cbn [sg_step] in E.
    - destruct (sg_init s); injection E as <- <-; split; auto; discriminate.
    - injection E as <- <-. split; [exact Hh|discriminate].
    - injection E as <- <-. split; [|discriminate]. destruct (negb _ && p); exact Hh.
    - destruct (sg_list s); [discriminate|]. injection E as <- <-. split; [exact Hh|discriminate].
    - destruct (sg_list s); [discriminate|]. injection E as <- <-. split; [exact Hh|discriminate].
    - rewrite Hh in E. injection E as <- <-. split; [reflexivity|discriminate]. }
  destruct Hs as [H1 H2]. destruct (IH _ _ _ H1 E2) as [H3 H4]. split; [exact H3|]. intros [Hx|Hx]; [congruence|contradiction].
Qed.
Lemma cex_after_stop : exists s outs,
  sg_run [SStart; SStop; SDeliver 2; SStart; SReceived false] sg_initial = Some (s, outs) /\ last outs SNone = SBool true.
Proof. eexists _, _. split; reflexivity. Qed.
Lemma cex_order : exists s outs, sg_run [SStart; SDeliver 10; SDeliver 12; SLast; SPop; SLast] sg_initial = Some (s, outs) /\
  outs = [SNone; SNone; SNone; SInt 12; SNone; SInt 10].
Proof. eexists _, _. split; reflexivity. Qed.
Lemma cex_last_empty : sg_run [SStart; SLast] sg_initial = None. Proof. reflexivity. Qed.
