(** Property C97: the window of a plot *)
From Coq Require Import List Bool Arith ZArith Lia.
From Verif Require Import Base ClipArray.
Import ListNotations.

Lemma find_spec : forall (T : Type) (p : T -> bool) l, match find_first p l with
  | None => forall i v, nth_error l i = Some v -> p v = false
  | Some k => (exists v, nth_error l k = Some v /\ p v = true) /\ forall i v, i < k -> nth_error l i = Some v -> p v = false end.
Proof.
  intros T p l. induction l as [|x r IH]; [intros [|i] v; discriminate|]. cbn. destruct (p x) eqn:E.
  - split; [exists x; split; [reflexivity|exact E]|intros; lia].
  - destruct (find_first p r) as [k|]; cbn.
    + destruct IH as [H1 H2]. split; [exact H1|]. intros [|i] v Hi Hv; cbn in Hv; [congruence|]. apply (H2 i v); [lia|exact Hv].
    + intros [|i] v Hv; cbn in Hv; [congruence|]. apply (IH i v Hv).
Qed.

(** C97: on values in increasing order clip_array returns the slice of exactly the values in [x_min, x_max], and it raises
    only if x_max < x_min.  [ltb] is the strict comparison of any total preorder. *)
Theorem C97_clip : forall (T : Type) (ltb : T -> T -> bool), (forall a b c, ltb a b = false -> ltb b c = false -> ltb a c = false) -> (forall a b, ltb a b = true -> ltb b a = false) ->
  forall x lo hi, (forall i j u v, i < j -> nth_error x i = Some u -> nth_error x j = Some v -> ltb v u = false) ->
  (ltb hi lo = true -> clip_array ltb x lo hi = Throw) /\
  (ltb hi lo = false -> exists a b, clip_array ltb x lo hi = Ok (a, b) /\ a <= b <= length x /\
     forall i v, nth_error x i = Some v -> (a <= i < b <-> ltb v lo = false /\ ltb hi v = false)).
Proof.
  intros T ltb tr asym x lo hi sorted. unfold clip_array. split; intros W; rewrite W; [reflexivity|].
  pose proof (find_spec T (fun v => negb (ltb v lo)) x) as FL. pose proof (find_spec T (fun v => ltb hi v) x) as FH.
  destruct (find_first (fun v => negb (ltb v lo)) x) as [low|].
  2: { exists 0, 0. split; [reflexivity|]. split; [lia|]. intros i v Hv. specialize (FL i v Hv). cbn in FL. apply negb_false_iff in FL. split; [lia|]. intros [H _]; congruence. }
  destruct FL as [(vl & L1 & L2) L3]. cbn in L2, L3. apply negb_true_iff in L2.
  assert (LL : low < length x) by (apply nth_error_Some; congruence).
  assert (LOW : forall i v, nth_error x i = Some v -> (low <= i <-> ltb v lo = false)).
  { intros i v Hv. split; intros H.
    - destruct (Nat.eq_dec i low) as [->|]; [congruence|]. apply (tr v vl lo); [apply (sorted low i vl v); [lia|exact L1|exact Hv]|exact L2].
    - destruct (le_lt_dec low i) as [|Hi]; [assumption|]. specialize (L3 i v Hi Hv). apply negb_false_iff in L3. congruence. }
  destruct (find_first (fun v => ltb hi v) x) as [high|].
  - destruct FH as [(vh & H1 & H2) H3]. cbn in H2, H3. assert (HL : high < length x) by (apply nth_error_Some; congruence).
    exists low, high. split; [reflexivity|]. split.
    + split; [|lia]. apply (LOW high vh H1). destruct (ltb vh lo) eqn:E; [|reflexivity]. exfalso.
      assert (ltb hi vh = false) by (apply (tr hi lo vh); [exact W|apply asym, E]). congruence.
    + intros i v Hv. rewrite <- (LOW i v Hv). split; intros [A B]; (split; [exact A|]).
      * apply (H3 i v B Hv).
      * destruct (le_lt_dec high i) as [Hi|]; [|assumption]. exfalso. destruct (Nat.eq_dec i high) as [->|]; [congruence|].
        assert (ltb hi vh = false) by (apply (tr hi v vh); [exact B|apply (sorted high i vh v); [lia|exact H1|exact Hv]]). congruence.
  - exists low, (length x). split; [reflexivity|]. split; [lia|]. intros i v Hv. rewrite <- (LOW i v Hv). cbn in FH.
    split; intros [A B]; (split; [exact A|]); [apply (FH i v Hv)|apply nth_error_Some; congruence].
Qed.
Print Assumptions C97_clip.

(** The documentation also accepts any generator of ordered values: then values in the window are lost, or it raises. *)
Theorem C97_generator_refuted :
  (clip_array Z.ltb [1; 2; 3; 4]%Z 2%Z 3%Z = Ok (1, 3) /\ clip_generator Z.ltb [1; 2; 3; 4]%Z 2%Z 3%Z = Ok (1, 1)) /\
  forall (T : Type) (ltb : T -> T -> bool) l lo hi, ltb hi lo = false -> (exists v, In v l /\ ltb v lo = false) -> (forall v, In v l -> ltb hi v = false) ->
    clip_generator ltb l lo hi = Throw.
Proof.
  split; [split; reflexivity|]. intros T ltb l lo hi W (v & Hv & V) H. unfold clip_generator. rewrite W.
  pose proof (find_spec T (fun u => negb (ltb u lo)) l) as FL. destruct (find_first (fun u => negb (ltb u lo)) l) as [low|].
  - pose proof (find_spec T (fun u => ltb hi u) (skipn (S low) l)) as FH. destruct (find_first (fun u => ltb hi u) (skipn (S low) l)) as [h|]; [|reflexivity].
    destruct FH as [(u & U1 & U2) _]. cbn beta in U2. rewrite H in U2; [discriminate|]. apply nth_error_In in U1. rewrite <- (firstn_skipn (S low) l). apply in_or_app. right. exact U1.
  - apply In_nth_error in Hv. destruct Hv as [i Hi]. specialize (FL i v Hi). cbn in FL. rewrite V in FL. discriminate.
Qed.
Print Assumptions C97_generator_refuted.

(** integers meet the hypotheses of C97_clip *)
Example clip_example : exists a b, clip_array Z.ltb [1; 3; 3; 7]%Z 2%Z 5%Z = Ok (a, b) /\ a <= b <= 4 /\
  forall i v, nth_error [1; 3; 3; 7]%Z i = Some v -> (a <= i < b <-> Z.ltb v 2 = false /\ Z.ltb 5 v = false).
Proof.
  apply (C97_clip Z Z.ltb); [intros a b c; rewrite !Z.ltb_ge; lia|intros a b; rewrite Z.ltb_ge, Z.ltb_lt; lia| |reflexivity].
  intros i j u v L Hu Hv. apply Z.ltb_ge. destruct i as [|[|[|[|i]]]], j as [|[|[|[|j]]]]; cbn in Hu, Hv; try lia; try (injection Hu as <-; injection Hv as <-; lia); (destruct i; discriminate) || (destruct j; discriminate).
Qed.
