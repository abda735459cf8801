From Coq Require Import ZArith QArith Qround Qabs List Bool Lia Lqa Psatz.
From Verif Require Import Base Hist.
Import ListNotations.
Local Open Scope Q_scope.

Lemma Qle_bool_false x y : Qle_bool x y = false <-> y < x.
Proof.
  split; intros H.
  - apply Qnot_le_lt. intros L. apply Qle_bool_iff in L. congruence.
  - destruct (Qle_bool x y) eqn:E; [|reflexivity]. apply Qle_bool_iff in E. exfalso. eapply Qlt_not_le; eauto.
Qed.
Lemma injZ_lt a b : (a < b)%Z -> inject_Z a < inject_Z b.
Proof. intros H. rewrite <- Zlt_Qlt. exact H. Qed.
Lemma injZ_le a b : (a <= b)%Z -> inject_Z a <= inject_Z b.
Proof. intros H. rewrite <- Zle_Qle. exact H. Qed.
Lemma Qfloor_iff t n : Qfloor t = n <-> inject_Z n <= t /\ t < inject_Z n + 1.
Proof.
  split.
  - intros <-. split; [apply Qfloor_le|]. pose proof (Qlt_floor t) as H. rewrite inject_Z_plus in H. exact H.
  - intros [H1 H2]. apply Z.le_antisymm.
    + assert (H : inject_Z (Qfloor t) < inject_Z (n + 1)) by (rewrite inject_Z_plus; eapply Qle_lt_trans; [apply Qfloor_le|exact H2]).
      rewrite <- Zlt_Qlt in H. lia.
    + rewrite <- (Qfloor_Z n). apply Qfloor_resp_le. exact H1.
Qed.

Section Bins.
Variables (a b : Q) (N : Z).
Hypothesis ab : a < b.
Hypothesis N2 : (2 <= N)%Z.
Let k := inject_Z (N - 1).
Let d := (b - a) / k.
Let step := k / (b - a).
Lemma k_pos : 0 < k. Proof. unfold k. change 0 with (inject_Z 0). apply injZ_lt. lia. Qed.
Lemma w_pos : 0 < b - a. Proof. lra. Qed.
Lemma d_pos : 0 < d. Proof. unfold d. apply Qlt_shift_div_l; [exact k_pos|]. rewrite Qmult_0_l. exact w_pos. Qed.
Lemma step_d : step * d == 1.
Proof. unfold step, d. field. split; [pose proof k_pos|pose proof w_pos]; lra. Qed.
Lemma step_pos : 0 < step. Proof. unfold step. apply Qlt_shift_div_l; [exact w_pos|]. rewrite Qmult_0_l. exact k_pos. Qed.
Lemma scale_le x y : x * d <= y * d <-> x <= y. Proof. apply Qmult_le_r, d_pos. Qed.
Lemma scale_lt x y : x * d < y * d <-> x < y. Proof. apply Qmult_lt_r, d_pos. Qed.
Definition pos (x : Q) : Q := (x - a) * step.
Lemma pos_d x : pos x * d == x - a.
Proof. unfold pos. rewrite <- Qmult_assoc, step_d. ring. Qed.
Lemma centre_d n : centre a b N n - a == inject_Z n * d.
Proof. unfold centre, d. fold k. field. pose proof k_pos. lra. Qed.
Definition bin (x : Q) : Z := Qfloor (pos x + (1 # 2)).
Lemma in_bin_iff n x : in_bin a b N n x = (n =? bin x)%Z.
Proof.
  unfold in_bin. fold k d. apply eq_true_iff_eq. rewrite andb_true_iff, negb_true_iff, Qle_bool_iff, Qle_bool_false, Z.eqb_eq.
  pose proof (centre_d n) as Hc. pose proof (pos_d x) as Hx.
  assert (S : (pos x + (1 # 2)) * d == x - a + d / 2) by (rewrite <- Hx; field).
  assert (S2 : (inject_Z n + 1) * d == centre a b N n - a + d) by (rewrite Hc; ring).
  assert (D : d == d / 2 + d / 2) by field.
  assert (H1 : centre a b N n - d / 2 <= x <-> inject_Z n <= pos x + (1 # 2)).
  { rewrite <- (scale_le (inject_Z n)). rewrite S, <- Hc. split; intros; lra. }
  assert (H2 : x < centre a b N n + d / 2 <-> pos x + (1 # 2) < inject_Z n + 1).
  { rewrite <- (scale_lt (pos x + (1 # 2))). rewrite S, S2. split; intros; lra. }
  rewrite H1, H2. unfold bin. rewrite <- (Qfloor_iff (pos x + (1 # 2)) n). split; congruence.
Qed.
Lemma bin_range x : in_range a b x = true -> (0 <= bin x < N)%Z.
Proof.
  unfold in_range. rewrite andb_true_iff, !Qle_bool_iff. intros [Ha Hb].
  assert (P0 : 0 <= pos x). { apply scale_le. rewrite pos_d. lra. }
  assert (P1 : pos x <= k). { apply scale_le. rewrite pos_d. unfold d. setoid_replace (k * ((b - a) / k)) with (b - a) by (field; pose proof k_pos; lra). lra. }
  unfold bin. split.
  - change 0%Z with (Qfloor 0). apply Qfloor_resp_le. lra.
  - assert (H : inject_Z (Qfloor (pos x + (1 # 2))) < inject_Z N).
    { eapply Qle_lt_trans; [apply Qfloor_le|]. assert (E : k == inject_Z N - 1) by (unfold k, Z.sub; rewrite inject_Z_plus; reflexivity). lra. }
    rewrite <- Zlt_Qlt in H. exact H.
Qed.
(** the centre of the bin of x is a nearest one *)
Lemma bin_nearest x m : Qabs (x - centre a b N (bin x)) <= Qabs (x - centre a b N m).
Proof.
  destruct (proj1 (Qfloor_iff (pos x + (1 # 2)) (bin x)) eq_refl) as [H1 H2].
  pose proof (centre_d (bin x)) as C1. pose proof (centre_d m) as C2. pose proof (pos_d x) as Hx.
  assert (E1 : x - centre a b N (bin x) == (pos x - inject_Z (bin x)) * d) by (setoid_replace ((pos x - inject_Z (bin x)) * d) with (pos x * d - inject_Z (bin x) * d) by ring; lra).
  assert (E2 : x - centre a b N m == (pos x - inject_Z m) * d) by (setoid_replace ((pos x - inject_Z m) * d) with (pos x * d - inject_Z m * d) by ring; lra).
  rewrite E1, E2, !Qabs_Qmult. apply Qmult_le_compat_r; [|apply Qabs_nonneg].
  destruct (Z.lt_trichotomy m (bin x)) as [L|[->|L]]; [|apply Qle_refl|].
  - assert (inject_Z (m + 1) <= inject_Z (bin x)) by (apply injZ_le; lia). rewrite inject_Z_plus in H.
    change (inject_Z 1) with 1 in H. rewrite (Qabs_pos (pos x - inject_Z m)) by lra. apply Qabs_Qle_condition. split; lra.
  - assert (inject_Z (bin x + 1) <= inject_Z m) by (apply injZ_le; lia). rewrite inject_Z_plus in H.
    change (inject_Z 1) with 1 in H. rewrite (Qabs_neg (pos x - inject_Z m)) by lra. apply Qabs_Qle_condition. split; lra.
Qed.
End Bins.

(** ---- streams ---- *)
Definition expected (a b : Q) (N : Z) (xs : list Q) : list Q :=
  map (fun n => inject_Z (count (fun x => in_range a b x && in_bin a b N (Z.of_nat n) x) xs)) (seq 0 (Z.to_nat N)).
Definition same_data (l1 l2 : list Q) := Forall2 Qeq l1 l2.

Lemma count_app p xs ys : count p (xs ++ ys) = (count p xs + count p ys)%Z.
Proof. unfold count. rewrite filter_app, app_length. lia. Qed.
Lemma count_one p x : count p [x] = (if p x then 1 else 0)%Z.
Proof. unfold count. cbn. destruct (p x); reflexivity. Qed.

Lemma incr_nth l n i : nth i (incr l n) 0 == nth i l 0 + (if (i =? n)%nat && (n <? length l)%nat then 1 else 0).
Proof.
  revert n i. induction l as [|x l IH]; intros n i.
  - cbn. rewrite andb_false_r. destruct i, n; cbn; ring.
  - destruct n as [|n], i as [|i]; cbn; try ring. rewrite IH. cbn. unfold Nat.ltb. cbn. reflexivity.
Qed.
Lemma incr_length l n : length (incr l n) = length l.
Proof. revert n. induction l as [|x l IH]; intros [|n]; cbn; congruence. Qed.

Lemma same_data_nth l1 l2 : same_data l1 l2 <-> length l1 = length l2 /\ forall i, (i < length l1)%nat -> nth i l1 0 == nth i l2 0.
Proof.
  split.
  - intros H. induction H as [|x y l1 l2 E H [IH1 IH2]]; cbn; [split; [reflexivity|intros; lia]|].
    split; [congruence|]. intros [|i] L; [exact E|]. apply IH2. lia.
  - revert l2. induction l1 as [|x l1 IH]; intros [|y l2]; cbn; intros [H1 H2]; try discriminate; constructor.
    + apply (H2 0%nat). lia.
    + apply IH. split; [congruence|]. intros i L. apply (H2 (S i)). lia.
Qed.
Lemma expected_length a b N xs : length (expected a b N xs) = Z.to_nat N.
Proof. unfold expected. rewrite map_length, seq_length. reflexivity. Qed.
Lemma expected_nth a b N xs i : (i < Z.to_nat N)%nat ->
  nth i (expected a b N xs) 0 = inject_Z (count (fun x => in_range a b x && in_bin a b N (Z.of_nat i) x) xs).
Proof.
  intros L. unfold expected. erewrite nth_indep by (rewrite map_length, seq_length; exact L).
  rewrite (map_nth (fun n => inject_Z (count (fun x => in_range a b x && in_bin a b N (Z.of_nat n) x) xs)) _ 0%nat). rewrite seq_nth by exact L. reflexivity.
Qed.

(** what the histogram holds after the samples xs *)
Definition holds (a b : Q) (N : Z) (xs : list Q) (h : hist) : Prop :=
  h_a h = a /\ h_b h = b /\ h_nbins h = N /\ h_step h = inject_Z (N - 1) / (b - a) /\
  h_npts h = count (in_range a b) xs /\ h_lost h = count (fun x => negb (in_range a b x)) xs /\
  same_data (h_data h) (expected a b N xs).

Lemma make_ok a b N h : make a b N = Ok h -> a < b /\ holds a b N [] h.
Proof.
  unfold make, init_step, bind. destruct (Qle_bool b a) eqn:E; [discriminate|]. apply Qle_bool_false in E.
  intros H. injection H as <-. split; [exact E|]. repeat split. cbn [h_data]. apply same_data_nth.
  rewrite repeat_length, expected_length. split; [reflexivity|]. intros i L. rewrite expected_nth by exact L.
  rewrite nth_repeat. reflexivity.
Qed.
Lemma push_step a b N xs h x : a < b -> (2 <= N)%Z -> holds a b N xs h -> exists h', push h x = Ok h' /\ holds a b N (xs ++ [x]) h'.
Proof.
  intros ab N2 (Ea & Eb & En & Es & Ep & El & Ed). unfold push. rewrite Ea, Eb, Es.
  apply same_data_nth in Ed. destruct Ed as [Ld Hd]. rewrite expected_length in Ld.
  destruct (in_range a b x) eqn:R.
  - pose proof R as R'. unfold in_range in R'. rewrite andb_true_iff in R'. destruct R' as [R1 R2]. rewrite R1, R2. cbn [negb orb].
    pose proof (bin_range a b N ab N2 x R) as B. change (Qfloor ((x - a) * (inject_Z (N - 1) / (b - a)) + (1 # 2))) with (bin a b N x).
    rewrite Ld. destruct (Z.ltb_spec (bin a b N x) 0) as [?|_]; [lia|]. destruct (Z.leb_spec (Z.of_nat (Z.to_nat N)) (bin a b N x)) as [?|_]; [lia|].
    cbn [orb]. eexists. split; [reflexivity|]. unfold holds; cbn [h_a h_b h_nbins h_npts h_lost h_data h_step].
    rewrite !count_app, !count_one, R, Ep, El. cbn [negb]. repeat split; try assumption; try lia.
    apply same_data_nth. rewrite incr_length, expected_length. split; [exact Ld|]. intros i L. rewrite incr_nth, Hd by exact L.
    rewrite Ld in L. rewrite !expected_nth by exact L. rewrite count_app, count_one, R, (in_bin_iff a b N ab N2). cbn [andb].
    rewrite inject_Z_plus. apply Qplus_comp; [reflexivity|]. rewrite Ld.
    destruct (Z.eqb_spec (Z.of_nat i) (bin a b N x)) as [E|E], (Nat.eqb_spec i (Z.to_nat (bin a b N x))) as [E'|E'];
      try (exfalso; lia); cbn [andb]; [|reflexivity]. destruct (Nat.ltb_spec (Z.to_nat (bin a b N x)) (Z.to_nat N)); [reflexivity|lia].
  - pose proof R as R'. unfold in_range in R'. assert (T : negb (Qle_bool a x) || negb (Qle_bool x b) = true) by (rewrite <- negb_andb, R'; reflexivity).
    rewrite T. eexists. split; [reflexivity|]. unfold holds; cbn [h_a h_b h_nbins h_npts h_lost h_data h_step].
    rewrite !count_app, !count_one, R, Ep, El. cbn [negb]. repeat split; try assumption; try lia.
    apply same_data_nth. rewrite expected_length. split; [exact Ld|]. intros i L. rewrite Hd by exact L. rewrite Ld in L.
    rewrite !expected_nth by exact L. rewrite count_app, count_one, R. cbn [andb]. rewrite Z.add_0_r. reflexivity.
Qed.
Lemma push_all_holds a b N : a < b -> (2 <= N)%Z -> forall ys xs h, holds a b N xs h ->
  exists h', push_all h ys = Ok h' /\ holds a b N (xs ++ ys) h'.
Proof.
  intros ab N2. induction ys as [|y ys IH]; intros xs h H.
  - exists h. rewrite app_nil_r. split; [reflexivity|exact H].
  - destruct (push_step a b N xs h y ab N2 H) as (h1 & P & H1). destruct (IH _ _ H1) as (h2 & P2 & H2).
    exists h2. cbn [push_all bind]. rewrite P. cbn [bind]. split; [exact P2|]. rewrite <- app_assoc in H2. exact H2.
Qed.

(** the sum of the counts over the bins *)
Lemma total_cons x l : total (x :: l) = x + total l.
Proof. reflexivity. Qed.
Lemma total_map (f g : nat -> Q) l : (forall n, In n l -> f n == g n) -> total (map f l) == total (map g l).
Proof.
  induction l as [|n l IH]; intros H; [reflexivity|]. cbn [map]. rewrite !total_cons, (H n (or_introl eq_refl)), IH; [reflexivity|].
  intros m I. apply H. right. exact I.
Qed.
Lemma total_plus (f g : nat -> Q) l : total (map (fun n => f n + g n) l) == total (map f l) + total (map g l).
Proof. induction l as [|n l IH]; cbn [map]; [reflexivity|]. rewrite !total_cons, IH. ring. Qed.
Lemma total_same l1 l2 : same_data l1 l2 -> total l1 == total l2.
Proof. induction 1 as [|x y l1 l2 E H IH]; [reflexivity|]. rewrite !total_cons, E, IH. reflexivity. Qed.
Lemma total_zero l : total (map (fun _ : nat => 0) l) == 0.
Proof. induction l as [|n l IH]; [reflexivity|]. cbn [map]. rewrite total_cons, IH. ring. Qed.
Lemma total_delta m s n : (s <= m < s + n)%nat -> total (map (fun i => if (i =? m)%nat then 1 else 0) (seq s n)) == 1.
Proof.
  revert s. induction n as [|n IH]; intros s H; [lia|]. cbn [seq map]. rewrite total_cons. destruct (Nat.eqb_spec s m) as [->|D].
  - rewrite (total_map _ (fun _ => 0)); [rewrite total_zero; ring|]. intros i I. apply in_seq in I. destruct (Nat.eqb_spec i m); [lia|reflexivity].
  - rewrite IH by lia. ring.
Qed.
Lemma total_expected a b N xs : a < b -> (2 <= N)%Z -> total (expected a b N xs) == inject_Z (count (in_range a b) xs).
Proof.
  intros ab N2. induction xs as [|x xs IH].
  - unfold expected, count. cbn. apply total_zero.
  - unfold expected in *. rewrite (total_map _ (fun n => (if in_range a b x && in_bin a b N (Z.of_nat n) x then 1 else 0) +
      inject_Z (count (fun x => in_range a b x && in_bin a b N (Z.of_nat n) x) xs))).
    2: { intros n _. change (x :: xs) with ([x] ++ xs). rewrite count_app, count_one, inject_Z_plus. destruct (_ && _); reflexivity. }
    rewrite total_plus, IH. change (x :: xs) with ([x] ++ xs). rewrite count_app, count_one, inject_Z_plus. apply Qplus_comp; [|reflexivity].
    destruct (in_range a b x) eqn:R; cbn [andb]; [|apply total_zero].
    pose proof (bin_range a b N ab N2 x R) as B.
    rewrite (total_map _ (fun i => if (i =? Z.to_nat (bin a b N x))%nat then 1 else 0)).
    + apply total_delta. lia.
    + intros n _. rewrite (in_bin_iff a b N ab N2). destruct (Z.eqb_spec (Z.of_nat n) (bin a b N x)), (Nat.eqb_spec n (Z.to_nat (bin a b N x))); try reflexivity; exfalso; lia.
Qed.

(** ---- sums of histograms ---- *)
Lemma add_lists_nth l1 l2 i : length l1 = length l2 -> nth i (add_lists l1 l2) 0 == nth i l1 0 + nth i l2 0.
Proof.
  revert l2 i. induction l1 as [|x l1 IH]; intros [|y l2] i H; try discriminate; [destruct i; reflexivity|].
  destruct i as [|i]; cbn [add_lists nth]; [reflexivity|]. apply IH. injection H. auto.
Qed.
Lemma add_lists_length l1 l2 : length l1 = length l2 -> length (add_lists l1 l2) = length l1.
Proof. revert l2. induction l1 as [|x l1 IH]; intros [|y l2] H; try discriminate; [reflexivity|]. cbn. f_equal. apply IH. injection H. auto. Qed.
Lemma add_expected a b N xs ys l1 l2 : same_data l1 (expected a b N xs) -> same_data l2 (expected a b N ys) ->
  same_data (add_lists l1 l2) (expected a b N (xs ++ ys)).
Proof.
  rewrite !same_data_nth, !expected_length. intros [L1 H1] [L2 H2]. rewrite add_lists_length by congruence. split; [exact L1|].
  intros i L. rewrite add_lists_nth by congruence. rewrite H1, H2 by (try rewrite L2; try rewrite L1 in L; lia). rewrite L1 in L.
  rewrite !expected_nth by exact L. rewrite count_app, inject_Z_plus. reflexivity.
Qed.
Lemma holds_length a b N xs h : holds a b N xs h -> length (h_data h) = Z.to_nat N.
Proof. intros (_ & _ & _ & _ & _ & _ & D). apply same_data_nth in D. destruct D as [D _]. rewrite expected_length in D. exact D. Qed.
Lemma add_holds a b N xs ys h1 h2 : holds a b N xs h1 -> holds a b N ys h2 ->
  exists h, add h1 h2 = Ok h /\ holds a b N (xs ++ ys) h.
Proof.
  intros H1 H2. pose proof (holds_length _ _ _ _ _ H1) as L1. pose proof (holds_length _ _ _ _ _ H2) as L2.
  destruct H1 as (Ea1 & Eb1 & En1 & Es1 & Ep1 & El1 & Ed1), H2 as (Ea2 & Eb2 & En2 & Es2 & Ep2 & El2 & Ed2).
  unfold add. rewrite Ea1, Ea2, Eb1, Eb2, L1, L2, Nat.eqb_refl.
  assert (R : forall q, Qeq_bool q q = true) by (intros q; apply Qeq_bool_iff; reflexivity). rewrite !R. cbn [andb negb orb].
  eexists. split; [reflexivity|]. unfold holds; cbn [h_a h_b h_nbins h_npts h_lost h_data h_step].
  rewrite !count_app. repeat split; try assumption; try lia. apply add_expected; assumption.
Qed.
Lemma add_throws h1 h2 : ~ h_a h1 == h_a h2 \/ ~ h_b h1 == h_b h2 \/ length (h_data h1) <> length (h_data h2) -> add h1 h2 = Throw.
Proof.
  intros H. unfold add. destruct (Qeq_bool (h_a h1) (h_a h2)) eqn:E1; [|reflexivity]. destruct (Qeq_bool (h_b h1) (h_b h2)) eqn:E2; [|reflexivity].
  destruct (Nat.eqb_spec (length (h_data h1)) (length (h_data h2))) as [E3|E3]; [|reflexivity]. apply Qeq_bool_iff in E1, E2. tauto.
Qed.

Lemma fold_lists a b N hs : forall xss d xs, Forall2 (fun ys h => holds a b N ys h) xss hs -> same_data d (expected a b N xs) ->
  same_data (fold_left (fun d g => add_lists d (h_data g)) hs d) (expected a b N (xs ++ concat xss)).
Proof.
  induction hs as [|h hs IH]; intros xss d xs F D; inversion F; subst; cbn [fold_left concat]; [rewrite app_nil_r; exact D|].
  rewrite app_assoc. apply IH; [assumption|]. apply add_expected; [exact D|]. apply H2.
Qed.
Lemma fold_counts a b N hs : forall xss xs n m, Forall2 (fun ys h => holds a b N ys h) xss hs ->
  n = count (in_range a b) xs -> m = count (fun x => negb (in_range a b x)) xs ->
  fold_left (fun n g => n + h_npts g)%Z hs n = count (in_range a b) (xs ++ concat xss) /\
  fold_left (fun n g => n + h_lost g)%Z hs m = count (fun x => negb (in_range a b x)) (xs ++ concat xss).
Proof.
  induction hs as [|h hs IH]; intros xss xs n m F En Em; inversion F; subst; cbn [fold_left concat]; [rewrite app_nil_r; auto|].
  rewrite app_assoc. apply IH; [assumption| |]; destruct H2 as (_ & _ & _ & _ & Hp & Hl & _); rewrite count_app; lia.
Qed.
Lemma reduce_holds a b N xss hs : a < b -> hs <> [] -> Forall2 (fun xs h => holds a b N xs h) xss hs ->
  exists h, mpi_reduce hs = Ok h /\ holds a b N (concat xss) h.
Proof.
  intros ab NE F. destruct hs as [|h hs]; [congruence|]. inversion F as [|xs ? xss' ? H F']; subst. pose proof H as (Ea & Eb & En & Es & Ep & El & Ed).
  unfold mpi_reduce, init_step. rewrite Ea, Eb, En. apply Qle_bool_false in ab. rewrite ab. cbn [bind].
  eexists. split; [reflexivity|]. cbn [concat]. destruct (fold_counts a b N hs xss' xs _ _ F' Ep El) as [C1 C2].
  unfold holds; cbn [h_a h_b h_nbins h_npts h_lost h_data h_step]. repeat split; try assumption. apply fold_lists; assumption.
Qed.

(** ---- pdf and cdf ---- *)
Lemma running_nth l : forall s i, (i < length l)%nat -> nth i (running s l) 0 == s + total (firstn (S i) l).
Proof.
  induction l as [|x l IH]; intros s i L; [cbn in L; lia|]. destruct i as [|i]; cbn [running nth firstn]; rewrite total_cons.
  - cbn [firstn]. change (total []) with 0. ring.
  - rewrite IH by (cbn in L; lia). cbn [firstn]. ring.
Qed.
Lemma partial_nth l i : (i < length l)%nat -> nth i (partial_sums l) 0 == total (firstn (S i) l).
Proof.
  destruct l as [|x l]; intros L; [cbn in L; lia|]. destruct i as [|i]; cbn [partial_sums nth].
  - cbn [firstn]. rewrite total_cons. change (total []) with 0. ring.
  - rewrite running_nth by (cbn in L; lia). reflexivity.
Qed.
Lemma running_length s l : length (running s l) = length l.
Proof. revert s. induction l; intros s; cbn; congruence. Qed.
Lemma partial_length l : length (partial_sums l) = length l.
Proof. destruct l; cbn; [reflexivity|]. f_equal. apply running_length. Qed.
Lemma total_div c l : total (map (fun x => x / c) l) == total l / c.
Proof. induction l as [|x l IH]; [cbn; unfold Qdiv; ring|]. cbn [map]. rewrite !total_cons, IH. unfold Qdiv. ring. Qed.
Lemma nth_map_div c l i : nth i (map (fun x => x / c) l) 0 == nth i l 0 / c.
Proof. revert i. induction l as [|x l IH]; intros [|i]; cbn [map nth]; try reflexivity; apply IH. Qed.
Lemma total_nonneg l : Forall (fun x => 0 <= x) l -> 0 <= total l.
Proof. induction 1 as [|x l Hx H IH]; [apply Qle_refl|]. rewrite total_cons. lra. Qed.
Lemma count_nonneg p xs : (0 <= count p xs)%Z.
Proof. unfold count. lia. Qed.
Lemma holds_nonneg a b N xs h : holds a b N xs h -> Forall (fun x => 0 <= x) (h_data h).
Proof.
  intros (_ & _ & _ & _ & _ & _ & D). assert (E : Forall (fun x => 0 <= x) (expected a b N xs)).
  { apply Forall_forall. intros q I. unfold expected in I. apply in_map_iff in I. destruct I as (n & <- & _).
    change 0 with (inject_Z 0). apply injZ_le. apply count_nonneg. }
  revert E. induction D as [|x y l1 l2 E D IH]; intros F; constructor; inversion F; subst; [rewrite E; assumption|apply IH; assumption].
Qed.
Lemma firstn_total_mono l i j : Forall (fun x => 0 <= x) l -> (i <= j)%nat -> total (firstn i l) <= total (firstn j l).
Proof.
  revert i j. induction l as [|x l IH]; intros i j F L; [rewrite !firstn_nil; apply Qle_refl|].
  inversion F; subst. destruct i as [|i], j as [|j]; try lia; cbn [firstn]; rewrite ?total_cons.
  - apply Qle_refl.
  - change (total []) with 0. assert (0 <= total (firstn j l)) by (apply total_nonneg, Forall_forall; intros q I; eapply Forall_forall; [eassumption|]; eapply (fun l n => proj1 (Forall_forall (fun x => In x l) (firstn n l))); [|eassumption];
      apply Forall_forall; intros z Iz; rewrite <- (firstn_skipn j l); apply in_or_app; left; exact Iz). lra.
  - assert (total (firstn i l) <= total (firstn j l)) by (apply IH; [assumption|lia]). lra.
Qed.

Lemma pdf_sum a b N xs h p : a < b -> (2 <= N)%Z -> holds a b N xs h -> pdf h = Some p ->
  total (h_data p) == 1 /\ forall n, nth n (h_data p) 0 == nth n (h_data h) 0 / inject_Z (h_npts h).
Proof.
  intros ab N2 (Ea & Eb & En & Es & Ep & El & Ed). unfold pdf. destruct (Z.eqb_spec (h_npts h) 0) as [?|NZ]; [discriminate|].
  intros H. injection H as <-. cbn [h_data]. split; [|intros n; apply nth_map_div].
  rewrite total_div, (total_same _ _ Ed), total_expected, <- Ep by assumption. field. intros E. apply NZ. unfold Qeq in E. cbn in E. lia.
Qed.
Lemma cdf_proof a b N xs h p : a < b -> (2 <= N)%Z -> holds a b N xs h -> cdf h = Some p ->
  length (h_data p) = Z.to_nat N /\
  (forall n, (n < Z.to_nat N)%nat -> nth n (h_data p) 0 == total (firstn (S n) (h_data h)) / inject_Z (h_npts h)) /\
  (forall m n, (m <= n < Z.to_nat N)%nat -> nth m (h_data p) 0 <= nth n (h_data p) 0) /\
  nth (Z.to_nat N - 1) (h_data p) 0 == 1.
Proof.
  intros ab N2 HH. pose proof (holds_length _ _ _ _ _ HH) as LL. pose proof (holds_nonneg _ _ _ _ _ HH) as NN. pose proof HH as (Ea & Eb & En & Es & Ep & El & Ed).
  unfold cdf. destruct (Z.eqb_spec (h_npts h) 0) as [?|NZ]; [discriminate|]. intros H. injection H as <-. cbn [h_data].
  assert (P : 0 < inject_Z (h_npts h)). { change 0 with (inject_Z 0). apply injZ_lt. pose proof (count_nonneg (in_range a b) xs). lia. }
  assert (S : forall n, (n < Z.to_nat N)%nat -> nth n (map (fun x => x / inject_Z (h_npts h)) (partial_sums (h_data h))) 0 == total (firstn (S n) (h_data h)) / inject_Z (h_npts h)).
  { intros n L. rewrite nth_map_div, partial_nth by lia. reflexivity. }
  split; [rewrite map_length, partial_length; exact LL|]. split; [exact S|]. split.
  - intros m n L. rewrite !S by lia. apply Qmult_le_r; [apply Qinv_lt_0_compat; exact P|]. apply firstn_total_mono; [exact NN|lia].
  - rewrite S by lia. replace (Datatypes.S (Z.to_nat N - 1)) with (length (h_data h)) by lia. rewrite firstn_all, (total_same _ _ Ed), total_expected, <- Ep by assumption.
    field. lra.
Qed.

Lemma mesh_point_centre a b N xs h n : a < b -> (2 <= N)%Z -> holds a b N xs h -> mesh_point h n == centre a b N n.
Proof.
  intros ab N2 (Ea & Eb & En & Es & _). unfold mesh_point, centre. rewrite Ea, Es. field. split.
  - pose proof (k_pos N N2). lra.
  - lra.
Qed.
Lemma h5_proof a b N xs h : a < b -> holds a b N xs h -> h5_read (h5_write h) = Ok h.
Proof.
  intros ab (Ea & Eb & En & Es & _). unfold h5_read, h5_write, init_step. cbn [f_a f_b f_nbins f_npts f_lost f_data]. rewrite Ea, Eb, En.
  apply Qle_bool_false in ab. rewrite ab. cbn [bind]. rewrite <- Es. destruct h; cbn in *. subst. reflexivity.
Qed.
Lemma clear_proof a b N xs h : holds a b N xs h -> holds a b N [] (clear h).
Proof.
  intros H. pose proof (holds_length _ _ _ _ _ H) as L. destruct H as (Ea & Eb & En & Es & _). unfold clear, holds. cbn [h_a h_b h_nbins h_npts h_lost h_data h_step].
  repeat split; try assumption. apply same_data_nth. rewrite map_length, expected_length. split; [exact L|]. intros i Li. rewrite expected_nth by lia.
  change (inject_Z (count _ [])) with 0. clear. generalize (h_data h). intros l. revert i. induction l as [|x l IH]; intros [|i]; cbn [map nth]; try reflexivity. apply IH.
Qed.
