(** Model of c++/triqs/mc_tools/random_generator.hpp:68-87, in IEEE binary64 arithmetic with
    rounding to nearest (Flocq).  [u] is the number returned by gen(). *)
From Coq Require Import ZArith Reals Lia Lra.
From Flocq Require Import Core.Raux Core.Core.
Local Open Scope R_scope.

Definition fexp : Z -> Z := FLT_exp (-1074) 53.
Definition is_double (x : R) : Prop := generic_format radix2 fexp x.
Definition rnd (x : R) : R := round radix2 fexp ZnearestE x.

(** random_generator.hpp:68-70 : i == 1 ? 0 : T(floor(i * gen())), where the integer i is
    converted to double *)
Definition rng_int (i : Z) (u : R) : Z := if (i =? 1)%Z then 0%Z else Zfloor (rnd (rnd (IZR i) * u)).
(** random_generator.hpp:78 *)
Definition rng_upto (x u : R) : R := rnd (x * u).
(** random_generator.hpp:81-84 *)
Definition rng_between (a b u : R) : R := rnd (a + rnd (rnd (b - a) * u)).

(** ---- proofs ---- *)
#[local] Instance fexp_valid : Valid_exp fexp.
Proof. unfold fexp. apply FLT_exp_valid. reflexivity. Qed.
#[local] Instance fexp_mono : Monotone_exp fexp.
Proof. unfold fexp. apply FLT_exp_monotone. Qed.

Lemma format_1 : is_double 1.
Proof. apply (generic_format_bpow radix2 fexp 0). unfold fexp, FLT_exp; lia. Qed.
Lemma pred_1 : pred radix2 fexp 1 = 1 - bpow radix2 (-53).
Proof.
  rewrite pred_eq_pos by lra. unfold pred_pos. replace (mag radix2 1 : Z) with 1%Z by (symmetry; apply (mag_bpow radix2 0)).
  change (bpow radix2 (1 - 1)) with 1. rewrite Req_bool_true by reflexivity. reflexivity.
Qed.
Lemma double_below_1 u : is_double u -> u < 1 -> u <= 1 - bpow radix2 (-53).
Proof. intros Hu H. rewrite <- pred_1. apply pred_ge_gt; [apply fexp_valid|exact Hu|apply format_1|exact H]. Qed.

(** for a normal x > 0, the rounded product with u < 1 is below x *)
Lemma round_mult_lt x u : is_double x -> bpow radix2 (-1021) <= x -> is_double u -> 0 <= u < 1 -> rnd (x * u) <= pred radix2 fexp x.
Proof.
  intros Fx Hx Fu [Hu0 Hu1]. assert (Hp : 0 < x) by (eapply Rlt_le_trans; [apply bpow_gt_0|exact Hx]).
  assert (Fp : is_double (pred radix2 fexp x)) by (apply generic_format_pred; [apply fexp_valid|exact Fx]).
  apply round_N_le_midp; [apply fexp_valid|exact Fp|]. rewrite succ_pred by (try apply fexp_valid; exact Fx).
  assert (Hu : x * u <= x * (1 - bpow radix2 (-53))) by (apply Rmult_le_compat_l; [lra|apply double_below_1; assumption]).
  assert (Hgap : x - pred radix2 fexp x < 2 * (x * bpow radix2 (-53))).
  { rewrite pred_eq_pos by lra. unfold pred_pos. destruct (mag radix2 x) as [e He]. cbn [mag_val]. specialize (He (Rgt_not_eq _ _ Hp)). rewrite Rabs_pos_eq in He by lra.
    assert (Hee : (-1020 <= e)%Z). { assert (bpow radix2 (-1021) < bpow radix2 e) as Hb by lra. apply lt_bpow in Hb. lia. }
    assert (H2 : forall k, bpow radix2 (k + 1) = 2 * bpow radix2 k) by (intros k; rewrite bpow_plus_1; reflexivity).
    destruct (Req_bool_spec x (bpow radix2 (e - 1))) as [Heq|Hne].
    - replace (fexp (e - 1)) with (e - 1 - 53)%Z by (unfold fexp, FLT_exp; lia). rewrite Heq at 3. replace (x - (x - bpow radix2 (e - 1 - 53))) with (bpow radix2 (e - 1 - 53)) by ring.
      rewrite <- bpow_plus. replace (e - 1 + -53)%Z with (e - 1 - 53)%Z by ring. pose proof (bpow_gt_0 radix2 (e - 1 - 53)). lra.
    - rewrite ulp_neq_0 by lra. unfold cexp. rewrite (mag_unique_pos radix2 x e) by exact He. replace (fexp e) with (e - 53)%Z by (unfold fexp, FLT_exp; lia).
      replace (x - (x - bpow radix2 (e - 53))) with (bpow radix2 (e - 53)) by ring. assert (Hlt : bpow radix2 (e - 1) < x) by lra.
      replace (bpow radix2 (e - 53)) with (2 * (bpow radix2 (e - 1) * bpow radix2 (-53))).
      2:{ rewrite <- bpow_plus, <- H2. f_equal. lia. }
      apply Rmult_lt_compat_l; [lra|]. apply Rmult_lt_compat_r; [apply bpow_gt_0|exact Hlt]. }
  lra.
Qed.

(** integers drawn are in range: every n >= 1 (below the largest double) *)
Theorem thm_rng_int n u : (1 <= n)%Z -> is_double u -> 0 <= u < 1 -> (0 <= rng_int n u <= n - 1)%Z.
Proof.
  intros Hn Fu Hu. unfold rng_int. destruct (Z.eqb_spec n 1); [lia|].
  assert (Hn1 : 1 <= IZR n) by (apply IZR_le; exact Hn).
  assert (Fx : is_double (rnd (IZR n))) by (apply generic_format_round; [apply fexp_valid|apply valid_rnd_N]).
  assert (Hx1 : 1 <= rnd (IZR n)). { apply round_ge_generic; [apply fexp_valid|apply valid_rnd_N|apply format_1|exact Hn1]. }
  assert (Hle : rnd (rnd (IZR n) * u) <= pred radix2 fexp (rnd (IZR n))).
  { apply round_mult_lt; try assumption. eapply Rle_trans; [|exact Hx1]. change 1 with (bpow radix2 0). apply bpow_le. lia. }
  assert (Hpn : pred radix2 fexp (rnd (IZR n)) < IZR n).
  { apply Rnot_le_lt. intros Hc. assert (Hc2 : rnd (IZR n) <= pred radix2 fexp (rnd (IZR n))).
    { apply round_le_generic; [apply fexp_valid|apply valid_rnd_N|apply generic_format_pred; [apply fexp_valid|exact Fx]|exact Hc]. }
    pose proof (pred_lt_id radix2 fexp (rnd (IZR n))) as Hl. assert (rnd (IZR n) <> 0) as Hne by lra. specialize (Hl Hne). lra. }
  assert (H0 : 0 <= rnd (rnd (IZR n) * u)). { apply round_ge_generic; [apply fexp_valid|apply valid_rnd_N|apply generic_format_0|]. apply Rmult_le_pos; lra. }
  split.
  - apply Zfloor_lub. exact H0.
  - assert (Zfloor (rnd (rnd (IZR n) * u)) < n)%Z; [|lia]. apply lt_IZR. eapply Rle_lt_trans; [apply Zfloor_lb|]. lra.
Qed.
(** every value is reached: k is drawn by u = k/n when the division is exact *)
Theorem thm_rng_int_onto k j : (0 <= j)%Z -> (0 <= k < 2 ^ j)%Z -> (j <= 53)%Z ->
  exists u, is_double u /\ 0 <= u < 1 /\ rng_int (2 ^ j) u = k.
Proof.
  intros Hj Hk Hj53. assert (Hpow : IZR (2 ^ j) = bpow radix2 j) by (rewrite <- (IZR_Zpower radix2) by exact Hj; reflexivity).
  assert (F : forall a e, (Z.abs a < 2 ^ 53)%Z -> (-1074 <= e)%Z -> is_double (IZR a * bpow radix2 e)).
  { intros a e Ha He. apply generic_format_FLT. exists (Float radix2 a e); [unfold F2R; reflexivity|exact Ha|exact He]. }
  assert (Hb0 : 0 < bpow radix2 (- j)) by apply bpow_gt_0.
  assert (Hjj : bpow radix2 j * bpow radix2 (- j) = 1). { rewrite <- bpow_plus. replace (j + - j)%Z with 0%Z by ring. reflexivity. }
  assert (Hkj : (2 ^ j <= 2 ^ 53)%Z) by (apply Z.pow_le_mono_r; lia).
  exists (IZR k * bpow radix2 (- j)). split; [apply F; [rewrite Z.abs_eq by lia; lia|lia]|]. split.
  { split; [apply Rmult_le_pos; [apply IZR_le; lia|lra]|]. rewrite <- Hjj. apply Rmult_lt_compat_r; [exact Hb0|]. rewrite <- Hpow. apply IZR_lt. lia. }
  unfold rng_int. destruct (Z.eqb_spec (2 ^ j) 1) as [E|E]; [lia|]. rewrite Hpow.
  assert (Hr : rnd (bpow radix2 j) = bpow radix2 j). { apply round_generic; [apply valid_rnd_N|]. apply generic_format_bpow. unfold fexp, FLT_exp. lia. }
  rewrite Hr. replace (bpow radix2 j * (IZR k * bpow radix2 (- j))) with (IZR k) by (rewrite <- (Rmult_1_r (IZR k)) at 1; rewrite <- Hjj; ring).
  assert (Hk' : rnd (IZR k) = IZR k). { apply round_generic; [apply valid_rnd_N|]. replace (IZR k) with (IZR k * bpow radix2 0) by (cbn; ring). apply F; [rewrite Z.abs_eq by lia; lia|lia]. }
  rewrite Hk'. apply Zfloor_IZR.
Qed.

(** rng(x) is below x when x is a normal number *)
Theorem thm_rng_upto x u : is_double x -> bpow radix2 (-1021) <= x -> is_double u -> 0 <= u < 1 -> 0 <= rng_upto x u < x.
Proof.
  intros Fx Hx Fu Hu. assert (Hp : 0 < x) by (eapply Rlt_le_trans; [apply bpow_gt_0|exact Hx]). split.
  - apply round_ge_generic; [apply fexp_valid|apply valid_rnd_N|apply generic_format_0|]. apply Rmult_le_pos; lra.
  - eapply Rle_lt_trans; [apply round_mult_lt; assumption|]. apply pred_lt_id. lra.
Qed.

(** rng(a, b) can return b *)
Lemma format_int a : (Z.abs a < 2 ^ 53)%Z -> is_double (IZR a).
Proof.
  intros Ha. apply generic_format_FLT. exists (Float radix2 a 0); [unfold F2R; cbn; ring|exact Ha|cbn; lia].
Qed.
Theorem cex_rng_between : exists a b u, is_double a /\ is_double b /\ a < b /\ is_double u /\ 0 <= u < 1 /\ rng_between a b u = b.
Proof.
  exists 1000, 1001, (1 - bpow radix2 (-53)).
  assert (Hb : 0 < bpow radix2 (-53) < 1). { split; [apply bpow_gt_0|]. change 1 with (bpow radix2 0). apply bpow_lt. lia. }
  assert (Fu : is_double (1 - bpow radix2 (-53))) by (rewrite <- pred_1; apply generic_format_pred; [apply fexp_valid|apply format_1]).
  split; [apply format_int; reflexivity|]. split; [apply format_int; reflexivity|]. split; [lra|]. split; [exact Fu|]. split; [lra|].
  unfold rng_between. replace (1001 - 1000) with 1 by ring.
  assert (rnd 1 = 1) as -> by (apply round_generic; [apply valid_rnd_N|apply format_1]). rewrite Rmult_1_l.
  assert (rnd (1 - bpow radix2 (-53)) = 1 - bpow radix2 (-53)) as -> by (apply round_generic; [apply valid_rnd_N|exact Fu]).
  apply Rle_antisym.
  - apply round_le_generic; [apply fexp_valid|apply valid_rnd_N|apply format_int; reflexivity|lra].
  - apply round_N_ge_midp; [apply fexp_valid|apply format_int; reflexivity|].
    rewrite pred_eq_pos by lra. unfold pred_pos.
    assert (Hm : (mag radix2 1001 : Z) = 10%Z). { apply mag_unique_pos. split; cbn; lra. }
    rewrite Hm. rewrite Req_bool_false by (cbn; lra). rewrite ulp_neq_0 by lra. unfold cexp. rewrite Hm. change (fexp 10) with (-43)%Z.
    assert (bpow radix2 (-53) * 1024 = bpow radix2 (-43)). { change 1024 with (bpow radix2 10). rewrite <- bpow_plus. reflexivity. } lra.
Qed.
Example normal_double_ex : is_double 1000 /\ bpow radix2 (-1021) <= 1000.
Proof. split; [apply format_int; reflexivity|]. apply Rle_trans with (bpow radix2 0); [apply bpow_le; lia|cbn; lra]. Qed.

Theorem thm_rng_between a b u : is_double a -> is_double b -> a < b -> is_double (b - a) -> is_double u -> 0 <= u < 1 -> a <= rng_between a b u <= b.
Proof.
  intros Fa Fb Hab Fd Fu Hu. unfold rng_between.
  assert (Hd : rnd (b - a) = b - a) by (apply round_generic; [apply valid_rnd_N|exact Fd]). rewrite Hd.
  assert (H1 : 0 <= rnd ((b - a) * u) <= b - a).
  { split.
    - apply round_ge_generic; [apply fexp_valid|apply valid_rnd_N|apply generic_format_0|]. apply Rmult_le_pos; lra.
    - apply round_le_generic; [apply fexp_valid|apply valid_rnd_N|exact Fd|]. rewrite <- (Rmult_1_r (b - a)) at 2. apply Rmult_le_compat_l; lra. }
  split.
  - apply round_ge_generic; [apply fexp_valid|apply valid_rnd_N|exact Fa|lra].
  - apply round_le_generic; [apply fexp_valid|apply valid_rnd_N|exact Fb|lra].
Qed.
