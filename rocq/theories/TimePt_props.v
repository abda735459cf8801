(** Property C33. *)
From Coq Require Import ZArith Bool Lia.
From Verif Require Import Base TimePt TimePt_proofs.
Open Scope Z_scope.

(** Sum and difference of two points are the sum and difference on the circle,
    represented by the canonical grid integer in [0, Nmax). *)
Theorem C33_time_pt_add_is_circle_addition :
  forall a b, is_u64 a -> is_u64 b ->
    0 <= tp_add a b < Nmax /\ same_angle (tp_add a b) (a + b).
Proof. exact tp_add_ok. Qed.
Print Assumptions C33_time_pt_add_is_circle_addition.
Example C33_add_ex : tp_add (Nmax - 3) 10 = 7. Proof. reflexivity. Qed.

Theorem C33_time_pt_sub_is_circle_subtraction :
  forall a b, is_u64 a -> is_u64 b ->
    0 <= tp_sub a b < Nmax /\ same_angle (tp_sub a b) (a - b).
Proof. exact tp_sub_ok. Qed.
Print Assumptions C33_time_pt_sub_is_circle_subtraction.
Example C33_sub_ex : tp_sub 3 10 = Nmax - 7. Proof. reflexivity. Qed.

(** Group laws on the points below beta. *)
Theorem C33_time_pt_group_laws :
  forall a b c, is_u64 a -> is_u64 b -> is_u64 c ->
    tp_add a b = tp_add b a /\
    tp_add (tp_add a b) c = tp_add a (tp_add b c) /\
    (a < Nmax -> tp_add (tp_sub a b) b = a /\ tp_sub (tp_add a b) b = a).
Proof.
  exact (fun a b c Ha Hb Hc =>
    conj (tp_add_comm a b Ha Hb) (conj (tp_add_assoc a b c Ha Hb Hc)
      (fun H => conj (tp_sub_add a b Ha Hb H) (tp_add_sub a b Ha Hb H)))).
Qed.
Print Assumptions C33_time_pt_group_laws.
Example C33_group_ex : is_u64 (Nmax - 1) /\ is_u64 5 /\ Nmax - 1 < Nmax.
Proof. unfold is_u64, Nmax, two64. lia. Qed.

(** Unary minus is the circle negation, and agrees with 0 - a except at 0. *)
Theorem C33_time_pt_neg_is_circle_negation :
  forall a, is_u64 a ->
    is_u64 (tp_neg a) /\ same_angle (tp_neg a) (- a) /\
    (0 < a -> tp_neg a = tp_sub 0 a).
Proof.
  exact (fun a Ha => conj (proj1 (tp_neg_ok a Ha)) (conj (proj2 (tp_neg_ok a Ha)) (tp_neg_sub a Ha))).
Qed.
Print Assumptions C33_time_pt_neg_is_circle_negation.

(** The code's -t differs from 0 - t at t = 0 : they compare different. *)
Theorem C33_time_pt_neg_is_zero_minus_refuted :
  exists a, is_u64 a /\ tp_eqb (tp_neg a) (tp_sub 0 a) = false.
Proof. exact (ex_intro _ 0 (conj (conj (Z.le_refl 0) eq_refl) eq_refl)). Qed.
Print Assumptions C33_time_pt_neg_is_zero_minus_refuted.

(** Multiplication by an integer is exact while the product stays on [0,beta]... *)
Theorem C33_time_pt_mult_exact_without_wrap :
  forall a b, is_u64 a -> 0 <= b -> a * b <= Nmax -> tp_mult_by_int a b = a * b.
Proof. exact tp_mult_ok. Qed.
Print Assumptions C33_time_pt_mult_exact_without_wrap.
Example C33_mult_ex : is_u64 (two64 / 4) /\ two64 / 4 * 3 <= Nmax.
Proof. unfold is_u64, Nmax, two64. split; [split|]; vm_compute; congruence. Qed.

(** ... but it wraps modulo 2^64 and not modulo Nmax, unlike operator+. *)
Theorem C33_time_pt_mult_is_repeated_addition_refuted :
  exists a, is_u64 a /\ ~ same_angle (tp_mult_by_int a 2) (tp_add a a).
Proof.
  exists (Nmax - 1). split; [split; vm_compute; congruence|].
  intros [k Hk]. change (-1 = k * 18446744073709551615) in Hk. lia.
Qed.
Print Assumptions C33_time_pt_mult_is_repeated_addition_refuted.

(** Division by a positive integer and floor_div are the floor of the quotient. *)
Theorem C33_time_pt_division_is_floor :
  forall a b, is_u64 a -> 0 < b ->
    (exists q, tp_div_by_int a b = Ok q /\ is_u64 q /\ q * b <= a < (q + 1) * b) /\
    tp_floor_div a b = tp_div_by_int a b.
Proof. exact (fun a b Ha Hb => conj (tp_div_mult a b Ha Hb) eq_refl). Qed.
Print Assumptions C33_time_pt_division_is_floor.

(** A random point drawn between two distinct points lies in the (cyclic)
    half-open interval, whatever the generator returns within its contract. *)
Theorem C33_time_pt_random_between_in_interval :
  forall rng t1 t2,
    (forall m, 1 <= m < two64 -> 0 <= rng m < m) ->
    is_u64 t1 -> is_u64 t2 -> t1 <> t2 ->
    is_u64 (tp_random_between rng t1 t2) /\
    (if t1 <? t2 then t1 <= tp_random_between rng t1 t2 < t2
     else t1 <= tp_random_between rng t1 t2 \/ tp_random_between rng t1 t2 < t2).
Proof. exact tp_random_between_ok. Qed.
Print Assumptions C33_time_pt_random_between_in_interval.
Example C33_random_ex : tp_random_between (fun m => m - 1) 10 2 = 1. Proof. reflexivity. Qed.
