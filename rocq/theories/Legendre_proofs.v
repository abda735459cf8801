From Coq Require Import ZArith Reals List Bool Lia Lra Arith Factorial.
From Verif Require Import Legendre.
Import ListNotations.
Local Open Scope R_scope.

Definition lg_inv (x : R) (P : nat -> R) (g : lgen) : Prop :=
  lg_x g = x /\
  (((lg_n g <= 1)%nat /\ lg_0 g = P 0%nat /\ lg_1 g = P 1%nat) \/
   ((2 <= lg_n g)%nat /\ lg_get g (lg_n g mod 2) = P (lg_n g - 2)%nat /\ lg_get g (1 - lg_n g mod 2) = P (lg_n g - 1)%nat)).

Lemma lg_get_set_same g i v : (i <= 1)%nat -> lg_get (lg_set g i v) i = v.
Proof. intros H. destruct i as [|[|i]]; [reflexivity|reflexivity|lia]. Qed.
Lemma lg_get_set_other g i j v : (i <= 1)%nat -> (j <= 1)%nat -> i <> j -> lg_get (lg_set g i v) j = lg_get g j.
Proof. intros Hi Hj H. destruct i as [|[|i]], j as [|[|j]]; try lia; reflexivity. Qed.
Lemma lg_set_n g i v : lg_n (lg_set g i v) = lg_n g. Proof. destruct i; reflexivity. Qed.
Lemma lg_set_x g i v : lg_x (lg_set g i v) = lg_x g. Proof. destruct i; reflexivity. Qed.
Lemma lg_incr_get g i : lg_get (lg_incr g) i = lg_get g i. Proof. destruct i; reflexivity. Qed.

Lemma mod2_cases n : (n mod 2 = 0 /\ S n mod 2 = 1 \/ n mod 2 = 1 /\ S n mod 2 = 0)%nat.
Proof.
  pose proof (Nat.div_mod_eq n 2). pose proof (Nat.div_mod_eq (S n) 2). pose proof (Nat.mod_upper_bound n 2 ltac:(lia)). pose proof (Nat.mod_upper_bound (S n) 2 ltac:(lia)). lia.
Qed.

Lemma lg_next_inv x P g : bonnet x P -> lg_inv x P g ->
  fst (lg_next g) = P (lg_n g) /\ lg_inv x P (snd (lg_next g)) /\ lg_n (snd (lg_next g)) = S (lg_n g).
Proof.
  intros (P0 & P1 & PR) (Hx & HI). unfold lg_next. destruct (Nat.ltb_spec 1 (lg_n g)) as [H|H].
  - destruct HI as [[Hn _]|(Hn & Ha & Hb)]; [lia|]. cbv zeta. cbn [fst snd].
    set (eo := (lg_n g mod 2)%nat) in *.
    set (v := (INR (2 * lg_n g - 1) * lg_x g * lg_get g (1 - eo) - INR (lg_n g - 1) * lg_get g eo) / INR (lg_n g)).
    assert (HN : 0 < INR (lg_n g)) by (apply lt_0_INR; lia).
    assert (Hv : v = P (lg_n g)).
    { unfold v. rewrite Ha, Hb, Hx, !minus_INR, mult_INR by lia. apply (Rmult_eq_reg_l (INR (lg_n g))); [|lra]. rewrite (PR _ Hn). cbn [INR]. field. lra. }
    split; [exact Hv|]. assert (Heo : (eo <= 1)%nat) by (unfold eo; pose proof (Nat.mod_upper_bound (lg_n g) 2 ltac:(lia)); lia).
    split; [|cbn [lg_incr lg_n]; rewrite lg_set_n; reflexivity].
    split; [cbn [lg_incr lg_x]; rewrite lg_set_x; exact Hx|]. right. cbn [lg_incr lg_n]. fold (lg_incr (lg_set g eo v)). rewrite lg_set_n.
    split; [lia|]. replace (S (lg_n g) - 2)%nat with (lg_n g - 1)%nat by lia. replace (S (lg_n g) - 1)%nat with (lg_n g) by lia.
    destruct (mod2_cases (lg_n g)) as [[E1 E2]|[E1 E2]]; fold eo in E1; rewrite E2; rewrite E1 in *; cbn [Nat.sub] in *.
    + split; [exact Hb|exact Hv].
    + split; [exact Hb|exact Hv].
  - destruct HI as [(Hn & Ha & Hb)|(Hn & _)]; [|lia]. cbn [fst snd]. destruct g as [gx gn g0 g1]. cbn [lg_n lg_0 lg_1 lg_x] in *.
    destruct gn as [|[|gn]]; [| |lia]; cbn [lg_get lg_incr lg_n lg_0 lg_1 lg_x].
    + split; [exact Ha|]. split; [|reflexivity]. split; [exact Hx|]. left. cbn. auto.
    + split; [exact Hb|]. split; [|reflexivity]. split; [exact Hx|]. right. cbn. auto.
Qed.
Lemma lg_calls_inv x P k : bonnet x P -> forall g, lg_inv x P g -> lg_calls k g = map P (seq (lg_n g) k).
Proof.
  intros HB. induction k as [|k IH]; intros g Hg; [reflexivity|]. cbn [lg_calls seq map].
  destruct (lg_next_inv x P g HB Hg) as (E1 & E2 & E3). destruct (lg_next g) as [v g']. cbn [fst snd] in *. rewrite E1, (IH g' E2), E3. reflexivity.
Qed.
Lemma thm_lg x P k : bonnet x P -> lg_calls k (lg_reset x) = map P (seq 0 k).
Proof.
  intros HB. rewrite (lg_calls_inv x P k HB); [reflexivity|]. destruct HB as (P0 & P1 & _). split; [reflexivity|]. left. cbn. auto.
Qed.
(** existence of such a sequence *)
Fixpoint legP (x : R) (n : nat) : R * R :=
  match n with O => (1, x) | S k => let (a, b) := legP x k in (b, ((2 * INR (k + 2) - 1) * x * b - (INR (k + 2) - 1) * a) / INR (k + 2)) end.
Lemma legP_shift x n : fst (legP x (S n)) = snd (legP x n).
Proof. cbn [legP]. destruct (legP x n). reflexivity. Qed.
Lemma bonnet_ex x : bonnet x (fun n => fst (legP x n)).
Proof.
  split; [reflexivity|]. split; [reflexivity|]. intros [|[|n]] Hn; [lia|lia|]. replace (S (S n) - 1)%nat with (S n) by lia. replace (S (S n) - 2)%nat with n by lia.
  rewrite !legP_shift. cbn [legP]. destruct (legP x n) as [a b]. cbn [fst snd]. replace (n + 2)%nat with (S (S n)) by lia. field. apply not_0_INR. lia.
Qed.
(** two values known in closed form *)
Lemma bonnet_one P : bonnet 1 P -> forall n, P n = 1.
Proof.
  intros (P0 & P1 & PR). assert (G : forall n, P n = 1 /\ P (S n) = 1).
  { induction n as [|n [IH1 IH2]]; [auto|]. split; [exact IH2|]. specialize (PR (S (S n)) ltac:(lia)). replace (S (S n) - 1)%nat with (S n) in PR by lia. replace (S (S n) - 2)%nat with n in PR by lia.
    rewrite IH1, IH2 in PR. assert (INR (S (S n)) <> 0) by (apply not_0_INR; lia). apply (Rmult_eq_reg_l (INR (S (S n)))); [lra|assumption]. }
  intros n. apply G.
Qed.
Lemma bonnet_parity x P Q : bonnet x P -> bonnet (- x) Q -> forall n, Q n = (-1) ^ n * P n.
Proof.
  intros (P0 & P1 & PR) (Q0 & Q1 & QR). assert (G : forall n, Q n = (-1) ^ n * P n /\ Q (S n) = (-1) ^ (S n) * P (S n)).
  { induction n as [|n [IH1 IH2]]; [rewrite P0, P1, Q0, Q1; cbn; split; ring|]. split; [exact IH2|].
    specialize (PR (S (S n)) ltac:(lia)). specialize (QR (S (S n)) ltac:(lia)). replace (S (S n) - 1)%nat with (S n) in * by lia. replace (S (S n) - 2)%nat with n in * by lia.
    rewrite IH1, IH2 in QR. assert (HN : INR (S (S n)) <> 0) by (apply not_0_INR; lia). apply (Rmult_eq_reg_l (INR (S (S n)))); [|assumption]. rewrite QR.
    replace (INR (S (S n)) * ((-1) ^ S (S n) * P (S (S n)))) with ((-1) ^ S (S n) * (INR (S (S n)) * P (S (S n)))) by ring. rewrite PR. cbn [pow]. ring. }
  intros n. apply G.
Qed.

(** ---- legendre_t ---- *)
Definition zfact (n : Z) : R := INR (fact (Z.to_nat n)).
Lemma zfact_step n : (1 <= n)%Z -> zfact n = IZR n * zfact (n - 1).
Proof.
  intros Hn. unfold zfact. replace (Z.to_nat n) with (S (Z.to_nat (n - 1))) by lia. cbn [fact]. rewrite <- mult_INR || idtac.
  change (fact (Z.to_nat (n - 1)) + Z.to_nat (n - 1) * fact (Z.to_nat (n - 1)))%nat with (S (Z.to_nat (n - 1)) * fact (Z.to_nat (n - 1)))%nat. rewrite mult_INR.
  f_equal. rewrite INR_IZR_INZ. f_equal. lia.
Qed.
Lemma zfact_pos n : 0 < zfact n. Proof. unfold zfact. apply lt_0_INR. apply lt_O_fact. Qed.
Lemma zfact_low n : (n <= 1)%Z -> zfact n = 1.
Proof. intros H. unfold zfact. assert (Z.to_nat n = 0 \/ Z.to_nat n = 1)%nat as [-> | ->] by lia; reflexivity. Qed.
Lemma lt_up_spec fuel : forall i lo f, (0 <= lo)%Z -> (lo <= i)%Z -> (i < Z.of_nat fuel)%Z -> lt_up fuel i lo f * zfact lo = f * zfact i.
Proof.
  induction fuel as [|k IH]; intros i lo f Hlo Hi Hf; [lia|]. cbn [lt_up]. destruct (Z.ltb_spec lo i) as [H1|H1]; cbn [andb].
  - destruct (Z.ltb_spec 1 i) as [H2|H2].
    + rewrite IH by lia. rewrite (zfact_step i) by lia. ring.
    + rewrite !zfact_low by lia. reflexivity.
  - replace i with lo by lia. reflexivity.
Qed.
Lemma lt_down_spec fuel : forall i f, (i < Z.of_nat fuel)%Z -> lt_down fuel i f * zfact i = f.
Proof.
  induction fuel as [|k IH]; intros i f Hf.
  - cbn [lt_down]. rewrite zfact_low by lia. ring.
  - cbn [lt_down]. destruct (Z.ltb_spec 1 i) as [H|H].
    + rewrite (zfact_step i) by lia. assert (HI : IZR i <> 0) by (apply not_0_IZR; lia). specialize (IH (i - 1)%Z (f / IZR i) ltac:(lia)).
      replace (lt_down k (i - 1) (f / IZR i) * (IZR i * zfact (i - 1))) with (IZR i * (lt_down k (i - 1) (f / IZR i) * zfact (i - 1))) by ring. rewrite IH. field. exact HI.
    + rewrite zfact_low by lia. ring.
Qed.
(** Eq. (E8): t_l^(p) = (-1)^p 2 sqrt(2l+1) (l+p-1)! / ((p-1)! (l-p+1)!) for l+p odd and p <= l+1 *)
Lemma thm_legendre_t l p : (0 <= l)%Z -> (1 <= p)%Z ->
  legendre_t l p = if Z.odd (l + p) && (p <=? l + 1)%Z
    then powm1 p * 2 * sqrt (IZR (2 * l + 1)) * (zfact (l + p - 1) / (zfact (p - 1) * zfact (l - p + 1))) else 0.
Proof.
  intros Hl Hp. unfold legendre_t.
  assert (E : (Z.rem (l + p) 2 =? 0)%Z = negb (Z.odd (l + p))).
  { rewrite Z.rem_mod_nonneg by lia. rewrite Zmod_odd. destruct (Z.odd (l + p)); reflexivity. }
  rewrite E. destruct (Z.odd (l + p)); cbn [negb orb andb]; [|reflexivity].
  destruct (Z.ltb_spec (l + 1) p) as [H|H]; destruct (Z.leb_spec p (l + 1)) as [H'|H']; try lia; [reflexivity|]. cbv zeta.
  pose proof (lt_up_spec (Z.to_nat (l + p)) (l + p - 1) (l - p + 1) 1 ltac:(lia) ltac:(lia) ltac:(lia)) as EU.
  set (fu := lt_up (Z.to_nat (l + p)) (l + p - 1) (l - p + 1) 1) in *.
  pose proof (lt_down_spec (Z.to_nat p) (p - 1) fu ltac:(lia)) as ED. set (fd := lt_down (Z.to_nat p) (p - 1) fu) in *.
  f_equal. pose proof (zfact_pos (p - 1)). pose proof (zfact_pos (l - p + 1)).
  apply (Rmult_eq_reg_r (zfact (p - 1) * zfact (l - p + 1))); [|apply Rmult_integral_contrapositive_currified; lra].
  replace (fd * (zfact (p - 1) * zfact (l - p + 1))) with ((fd * zfact (p - 1)) * zfact (l - p + 1)) by ring. rewrite ED, EU. field. split; lra.
Qed.
Lemma thm_lg_values :
  (forall k, lg_calls k (lg_reset 1) = repeat 1 k) /\
  (forall x k i, nth_error (lg_calls k (lg_reset (- x))) i = option_map (fun v => (-1) ^ i * v) (nth_error (lg_calls k (lg_reset x)) i)).
Proof.
  split.
  - intros k. rewrite (thm_lg 1 _ k (bonnet_ex 1)). pose proof (bonnet_one _ (bonnet_ex 1)) as H. generalize 0%nat at 1. induction k as [|k IH]; intros s; [reflexivity|].
    cbn [seq map repeat]. rewrite IH, H. reflexivity.
  - intros x k i. rewrite (thm_lg _ _ k (bonnet_ex (- x))), (thm_lg _ _ k (bonnet_ex x)). rewrite !nth_error_map.
    destruct (nth_error (seq 0 k) i) as [j|] eqn:E; [|reflexivity]. cbn [option_map]. f_equal.
    assert (Hi : (i < k)%nat). { assert (nth_error (seq 0 k) i <> None) as Hn by congruence. apply nth_error_Some in Hn. rewrite seq_length in Hn. exact Hn. }
    rewrite (nth_error_nth' _ 0%nat) in E by (rewrite seq_length; exact Hi). rewrite seq_nth in E by exact Hi. injection E as <-. cbn [Nat.add].
    apply (bonnet_parity x _ _ (bonnet_ex x) (bonnet_ex (- x))).
Qed.
