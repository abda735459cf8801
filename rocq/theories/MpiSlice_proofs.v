From Coq Require Import ZArith List Bool Lia.
From Verif Require Import MpiSlice.
Import ListNotations.
Local Open Scope Z_scope.

Section Slice.
  Variables (size imin imax : Z).
  Hypothesis Hs : 1 <= size.
  Hypothesis Hm : imin - 1 <= imax.
  Notation inf := (fun r => slice_inf size r imin imax).
  Notation sup := (fun r => slice_sup size r imin imax).

  Lemma quot : exists j i, 0 <= j /\ 0 <= i < size /\ imax - imin + 1 = size * j + i /\
    (forall r, slice_inf size r imin imax = if r <=? i - 1 then imin + r * (j + 1) else imin + r * j + i) /\
    (forall r, slice_sup size r imin imax = if r <=? i - 1 then imin + (r + 1) * (j + 1) - 1 else imin + (r + 1) * j + i - 1).
  Proof.
    exists ((imax - imin + 1) / size), (imax - imin + 1 - size * ((imax - imin + 1) / size)).
    pose proof (Z.div_mod (imax - imin + 1) size ltac:(lia)) as H. pose proof (Z.mod_pos_bound (imax - imin + 1) size ltac:(lia)).
    split; [apply Z.div_pos; lia|]. split; [lia|]. split; [lia|]. split; reflexivity.
  Qed.

  Lemma slice_first : inf 0 = imin.
  Proof. cbv beta. destruct quot as (j & i & Hj & Hi & E & -> & _). destruct (Z.leb_spec 0 (i - 1)); lia. Qed.
  Lemma slice_last : sup (size - 1) = imax.
  Proof. cbv beta. destruct quot as (j & i & Hj & Hi & E & _ & ->). destruct (Z.leb_spec (size - 1) (i - 1)); nia. Qed.
  Lemma slice_next r : inf (r + 1) = sup r + 1.
  Proof. cbv beta. destruct quot as (j & i & Hj & Hi & E & -> & ->). destruct (Z.leb_spec (r + 1) (i - 1)), (Z.leb_spec r (i - 1)); lia. Qed.
  Lemma slice_len r : exists j, 0 <= j /\ size * j <= imax - imin + 1 < size * (j + 1) /\ (sup r - inf r + 1 = j \/ sup r - inf r + 1 = j + 1).
  Proof. cbv beta. destruct quot as (j & i & Hj & Hi & E & -> & ->). exists j. destruct (Z.leb_spec r (i - 1)); lia. Qed.
  Lemma slice_len_diff r r' : Z.abs ((sup r - inf r) - (sup r' - inf r')) <= 1.
  Proof. cbv beta. destruct quot as (j & i & Hj & Hi & E & Q1 & Q2). rewrite !Q1, !Q2. destruct (Z.leb_spec r (i - 1)), (Z.leb_spec r' (i - 1)); lia. Qed.
  Lemma slice_inf_mono r r' : 0 <= r -> r <= r' -> inf r <= inf r'.
  Proof. cbv beta. intros H1 H2. destruct quot as (j & i & Hj & Hi & E & Q1 & Q2). rewrite !Q1. destruct (Z.leb_spec r (i - 1)), (Z.leb_spec r' (i - 1)); nia. Qed.
  Lemma slice_sup_lt r r' : 0 <= r -> r < r' -> sup r < inf r'.
  Proof. intros H1 H2. pose proof (slice_next r). pose proof (slice_inf_mono (r + 1) r'). cbv beta in *. lia. Qed.
  Lemma slice_bounds r : 0 <= r < size -> imin <= inf r /\ inf r - 1 <= sup r /\ sup r <= imax.
  Proof. cbv beta. intros H. destruct quot as (j & i & Hj & Hi & E & -> & ->). destruct (Z.leb_spec r (i - 1)); nia. Qed.
  Lemma slice_cover x : imin <= x <= imax -> exists r, 0 <= r < size /\ inf r <= x <= sup r.
  Proof.
    intros Hx. assert (H : forall n : nat, Z.of_nat n <= size -> x <= sup (Z.of_nat n - 1) -> exists r, 0 <= r < size /\ inf r <= x <= sup r).
    { induction n as [|n IH]; intros Hn Hle.
      - exfalso. pose proof (slice_next (-1)). pose proof slice_first. cbv beta in *. replace (-1 + 1) with 0 in H by lia. cbn in Hle. lia.
      - destruct (Z.le_gt_cases x (sup (Z.of_nat n - 1))) as [L|G]; [apply IH; [lia|exact L]|].
        exists (Z.of_nat n). split; [lia|]. pose proof (slice_next (Z.of_nat n - 1)) as N1. cbv beta in *. replace (Z.of_nat n - 1 + 1) with (Z.of_nat n) in N1 by lia.
        replace (Z.of_nat (S n) - 1) with (Z.of_nat n) in Hle by lia. lia. }
    apply (H (Z.to_nat size)); [lia|]. replace (Z.of_nat (Z.to_nat size) - 1) with (size - 1) by lia. pose proof slice_last. cbv beta in *. lia.
  Qed.
  Lemma slice_unique x r r' : 0 <= r -> 0 <= r' -> inf r <= x <= sup r -> inf r' <= x <= sup r' -> r = r'.
  Proof.
    intros H H' Hx Hx'. destruct (Z.lt_trichotomy r r') as [L|[E|G]]; [|exact E|].
    - pose proof (slice_sup_lt r r' H L). cbv beta in *. lia.
    - pose proof (slice_sup_lt r' r H' G). cbv beta in *. lia.
  Qed.
End Slice.

Section Array.
  Context {A : Type}.
  Variables (size : Z) (l : list A).
  Hypothesis Hs : 1 <= size.
  Let imax := Z.of_nat (length l) - 1.

  Lemma slice_array_eq r : 0 <= r < size -> exists a b, Z.of_nat a = slice_inf size r 0 imax /\ Z.of_nat b = slice_sup size r 0 imax + 1 /\ (a <= b <= length l)%nat /\
    slice_array size r l = firstn (b - a) (skipn a l).
  Proof.
    intros Hr. assert (Hm : 0 - 1 <= imax) by (unfold imax; lia).
    pose proof (slice_bounds size 0 imax Hs Hm r Hr) as (B1 & B2 & B3). cbv beta in *.
    exists (Z.to_nat (slice_inf size r 0 imax)), (Z.to_nat (slice_sup size r 0 imax + 1)).
    split; [lia|]. split; [lia|]. split; [unfold imax in *; lia|].
    unfold slice_array, py_slice, py_bound. fold imax.
    destruct (Z.ltb_spec (slice_inf size r 0 imax) 0); [lia|]. destruct (Z.ltb_spec (slice_sup size r 0 imax + 1) 0); [lia|].
    rewrite !Z.min_r by (unfold imax in *; lia). reflexivity.
  Qed.

  Lemma slices_prefix n : (Z.of_nat n <= size) -> exists b, Z.of_nat b = slice_inf size (Z.of_nat n) 0 imax /\
    flat_map (fun r => slice_array size (Z.of_nat r) l) (seq 0 n) = firstn b l.
  Proof.
    assert (Hm : 0 - 1 <= imax) by (unfold imax; lia).
    induction n as [|n IH]; intros Hn.
    - exists O. pose proof (slice_first size 0 imax Hs Hm). cbv beta in *. split; [cbn [Z.of_nat]; lia|]. destruct l; reflexivity.
    - destruct IH as (b & Eb & E); [lia|]. rewrite seq_S, flat_map_app, E. cbn [flat_map Nat.add]. rewrite app_nil_r.
      destruct (slice_array_eq (Z.of_nat n)) as (a & c & Ea & Ec & Hac & ->); [lia|]. assert (a = b) by lia. subst a.
      exists c. pose proof (slice_next size 0 imax Hs Hm (Z.of_nat n)). cbv beta in *. split; [rewrite Nat2Z.inj_succ; unfold Z.succ; lia|].
      replace c with (b + (c - b))%nat at 2 by lia. generalize (c - b)%nat as k. clear. intros k. revert l.
      induction b as [|b IHb]; intros [|x l]; cbn [firstn skipn app Nat.add]; try reflexivity; [destruct k; reflexivity|]. f_equal. apply IHb.
  Qed.
  Lemma slices_concat : flat_map (fun r => slice_array size (Z.of_nat r) l) (seq 0 (Z.to_nat size)) = l.
  Proof.
    assert (Hm : 0 - 1 <= imax) by (unfold imax; lia).
    destruct (slices_prefix (Z.to_nat size)) as (b & Eb & ->); [lia|].
    pose proof (slice_next size 0 imax Hs Hm (size - 1)) as N1. pose proof (slice_last size 0 imax Hs Hm) as N2. cbv beta in *.
    replace (size - 1 + 1) with size in N1 by lia. rewrite Z2Nat.id in Eb by lia. apply firstn_all2. unfold imax in *. lia.
  Qed.
End Array.
