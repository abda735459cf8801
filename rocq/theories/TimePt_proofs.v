From Coq Require Import ZArith Bool Lia ZifyBool.
From Verif Require Import Base TimePt.
Open Scope Z_scope.
Ltac Zify.zify_post_hook ::= Z.div_mod_to_equations.

Lemma Nmax_val : Nmax = 18446744073709551615. Proof. reflexivity. Qed.
Lemma two64_val : two64 = 18446744073709551616. Proof. reflexivity. Qed.

Ltac w := unfold is_u64, wrap64, same_angle in *; rewrite ?Nmax_val, ?two64_val in *.

Lemma tp_add_ok a b : is_u64 a -> is_u64 b ->
  0 <= tp_add a b < Nmax /\ same_angle (tp_add a b) (a + b).
Proof.
  intros Ha Hb. unfold tp_add. w.
  assert (E: (18446744073709551615 - Z.max a b) mod 18446744073709551616 = 18446744073709551615 - Z.max a b)
    by (apply Z.mod_small; lia). rewrite E.
  destruct (18446744073709551615 - Z.max a b <? Z.min a b) eqn:C; simpl negb; cbv iota.
  - assert (E2 : (a + b) mod 18446744073709551616 = a + b - 18446744073709551616) by (symmetry; apply Z.mod_unique with 1; lia).
    rewrite E2.
    assert (E3 : (a + b - 18446744073709551616 + 1) mod 18446744073709551616 = a + b - 18446744073709551615) by (rewrite Z.mod_small; lia).
    rewrite E3. split; [lia|].
    exists (-1 - (a + b - 18446744073709551615) / 18446744073709551615). lia.
  - assert (E2 : (a + b) mod 18446744073709551616 = a + b) by (rewrite Z.mod_small; lia).
    rewrite E2. split; [lia|].
    exists (- ((a + b) / 18446744073709551615)). lia.
Qed.

Lemma tp_sub_ok a b : is_u64 a -> is_u64 b ->
  0 <= tp_sub a b < Nmax /\ same_angle (tp_sub a b) (a - b).
Proof.
  intros Ha Hb. unfold tp_sub. w.
  destruct (a >=? b) eqn:C.
  - rewrite (Z.mod_small (a - b)) by lia. split; [lia|].
    exists (- ((a - b) / 18446744073709551615)). lia.
  - rewrite (Z.mod_small (b - a)) by lia. rewrite Z.mod_small by lia.
    split; [lia|]. exists 1. lia.
Qed.

Lemma same_angle_unique a b : 0 <= a < Nmax -> 0 <= b < Nmax -> same_angle a b -> a = b.
Proof. intros Ha Hb [k Hk]. w. assert (k = 0) by nia. subst. lia. Qed.

Lemma tp_sub_add a b : is_u64 a -> is_u64 b -> a < Nmax -> tp_add (tp_sub a b) b = a.
Proof.
  intros Ha Hb Hlt.
  destruct (tp_sub_ok a b Ha Hb) as [R [k Hk]].
  assert (Hs : is_u64 (tp_sub a b)) by (w; lia).
  destruct (tp_add_ok (tp_sub a b) b Hs Hb) as [R2 [k2 Hk2]].
  apply same_angle_unique; [exact R2| unfold is_u64 in Ha; lia |].
  exists (k + k2). lia.
Qed.

Lemma tp_add_sub a b : is_u64 a -> is_u64 b -> a < Nmax -> tp_sub (tp_add a b) b = a.
Proof.
  intros Ha Hb Hlt.
  destruct (tp_add_ok a b Ha Hb) as [R [k Hk]].
  assert (Hs : is_u64 (tp_add a b)) by (w; lia).
  destruct (tp_sub_ok (tp_add a b) b Hs Hb) as [R2 [k2 Hk2]].
  apply same_angle_unique; [exact R2| unfold is_u64 in Ha; lia |].
  exists (k + k2). lia.
Qed.

Lemma tp_add_comm a b : is_u64 a -> is_u64 b -> tp_add a b = tp_add b a.
Proof.
  intros Ha Hb. unfold tp_add. rewrite (Z.max_comm b a), (Z.min_comm b a), (Z.add_comm b a). reflexivity.
Qed.

Lemma tp_add_assoc a b c : is_u64 a -> is_u64 b -> is_u64 c ->
  tp_add (tp_add a b) c = tp_add a (tp_add b c).
Proof.
  intros Ha Hb Hc.
  destruct (tp_add_ok a b Ha Hb) as [R1 [k1 H1]].
  destruct (tp_add_ok b c Hb Hc) as [R2 [k2 H2]].
  assert (U1 : is_u64 (tp_add a b)) by (w; lia).
  assert (U2 : is_u64 (tp_add b c)) by (w; lia).
  destruct (tp_add_ok _ c U1 Hc) as [R3 [k3 H3]].
  destruct (tp_add_ok a _ Ha U2) as [R4 [k4 H4]].
  apply same_angle_unique; try assumption. exists (k1 + k3 - k2 - k4). lia.
Qed.

Lemma tp_neg_ok a : is_u64 a -> is_u64 (tp_neg a) /\ same_angle (tp_neg a) (- a).
Proof.
  intros Ha. unfold tp_neg. w. rewrite Z.mod_small by lia.
  split; [lia|]. exists 1. lia.
Qed.

Lemma tp_neg_sub a : is_u64 a -> 0 < a -> tp_neg a = tp_sub 0 a.
Proof.
  intros Ha Hp. unfold tp_neg, tp_sub. w.
  destruct (0 >=? a) eqn:C; [lia|]. rewrite (Z.mod_small (a - 0)) by lia. f_equal. lia.
Qed.

Lemma tp_mult_ok a b : is_u64 a -> 0 <= b -> a * b <= Nmax -> tp_mult_by_int a b = a * b.
Proof. intros. unfold tp_mult_by_int. w. apply Z.mod_small. nia. Qed.

Lemma tp_div_mult a b : is_u64 a -> 0 < b ->
  exists q, tp_div_by_int a b = Ok q /\ is_u64 q /\ q * b <= a < (q + 1) * b.
Proof.
  intros Ha Hb. unfold tp_div_by_int. destruct (b =? 0) eqn:E; [lia|].
  exists (a / b). split; [reflexivity|]. w.
  assert (a = b * (a / b) + a mod b) by (apply Z.div_mod; lia).
  assert (0 <= a mod b < b) by (apply Z.mod_pos_bound; lia).
  assert (0 <= a / b) by (apply Z.div_pos; lia).
  assert (a / b <= a) by (apply Z.div_le_upper_bound; nia).
  split; [lia|nia].
Qed.

(** the interval [tp1, tp2) read cyclically on the 2^64 grid points *)
Definition cyc_interval (t1 t2 x : Z) : Prop :=
  if t1 <? t2 then t1 <= x < t2 else (t1 <= x \/ x < t2).

Lemma tp_random_between_ok rng t1 t2 :
  (forall m, 1 <= m < two64 -> 0 <= rng m < m) ->
  is_u64 t1 -> is_u64 t2 -> t1 <> t2 ->
  is_u64 (tp_random_between rng t1 t2) /\ cyc_interval t1 t2 (tp_random_between rng t1 t2).
Proof.
  intros Hr H1 H2 Hne. unfold tp_random_between, cyc_interval.
  assert (B : 0 <= rng (wrap64 (t2 - t1)) < wrap64 (t2 - t1)) by (apply Hr; w; lia).
  set (r := rng _) in *. clearbody r.
  destruct (t1 <? t2) eqn:C; w; lia.
Qed.
