(** Proofs about the 3j symbols and the Slater interaction matrix: symmetries and the raising
    relation of the 3j symbol, from Racah's formula. *)
From Coq Require Import ZArith List Bool Reals Lia Lra FinFun.
From Verif Require Import Base UMatrix.
Import ListNotations.
Local Open Scope R_scope.

(** ---- sums over integer ranges ---- *)
Section Sums.
  Context {A : Type}.
  Lemma rsum_acc (l : list A) f x : fold_left (fun acc y => acc + f y) l x = x + rsum l f.
  Proof.
    unfold rsum. revert x. induction l as [|y l IH]; intros x; cbn [fold_left]; [ring|]. rewrite IH, (IH (0 + f y)). ring.
  Qed.
  Lemma rsum_nil (f : A -> R) : rsum [] f = 0. Proof. reflexivity. Qed.
  Lemma rsum_cons y (l : list A) f : rsum (y :: l) f = f y + rsum l f.
  Proof. unfold rsum at 1. cbn [fold_left]. rewrite rsum_acc. ring. Qed.
  Lemma rsum_app (l m : list A) f : rsum (l ++ m) f = rsum l f + rsum m f.
  Proof. induction l as [|y l IH]; cbn [app]; rewrite ?rsum_nil, ?rsum_cons; [ring|]. rewrite IH. ring. Qed.
  Lemma rsum_ext (l : list A) f g : (forall x, In x l -> f x = g x) -> rsum l f = rsum l g.
  Proof.
    induction l as [|y l IH]; intros H; [reflexivity|]. rewrite !rsum_cons, (H y (or_introl eq_refl)), IH; [reflexivity|].
    intros. apply H. right. assumption.
  Qed.
  Lemma rsum_zero (l : list A) f : (forall x, In x l -> f x = 0) -> rsum l f = 0.
  Proof. induction l as [|y l IH]; intros H; [reflexivity|]. rewrite rsum_cons, (H y (or_introl eq_refl)), IH; [ring|]. intros. apply H. right. assumption. Qed.
  Lemma rsum_plus (l : list A) f g : rsum l (fun x => f x + g x) = rsum l f + rsum l g.
  Proof. induction l as [|y l IH]; rewrite ?rsum_nil, ?rsum_cons; [ring|]. rewrite IH. ring. Qed.
  Lemma rsum_scal (l : list A) c f : rsum l (fun x => c * f x) = c * rsum l f.
  Proof. induction l as [|y l IH]; rewrite ?rsum_nil, ?rsum_cons; [ring|]. rewrite IH. ring. Qed.
  Lemma rsum_single (l : list A) a f : NoDup l -> In a l -> (forall x, In x l -> x <> a -> f x = 0) -> rsum l f = f a.
  Proof.
    induction l as [|y l IH]; intros HN Hin H; [contradiction|]. inversion_clear HN as [|? ? Hy Hl]. rewrite rsum_cons.
    destruct Hin as [->|Hin].
    - rewrite rsum_zero; [ring|]. intros x Hx. apply H; [right; exact Hx|]. intros ->. contradiction.
    - rewrite (H y), IH; [ring|exact Hl|exact Hin| |left; reflexivity|].
      + intros x Hx. apply H. right. exact Hx.
      + intros ->. contradiction.
  Qed.
End Sums.
Lemma rsum_map {A B} (l : list A) (g : A -> B) f : rsum (map g l) f = rsum l (fun x => f (g x)).
Proof. induction l as [|y l IH]; [reflexivity|]. cbn [map]. rewrite !rsum_cons, IH. reflexivity. Qed.
Lemma rsum_swap {A B} (l : list A) (m : list B) f : rsum l (fun x => rsum m (fun y => f x y)) = rsum m (fun y => rsum l (fun x => f x y)).
Proof.
  induction l as [|x l IH].
  - rewrite rsum_nil. symmetry. apply rsum_zero. reflexivity.
  - rewrite rsum_cons, IH, <- rsum_plus. apply rsum_ext. intros. rewrite rsum_cons. reflexivity.
Qed.

Lemma zrange_in a b t : In t (zrange a b) <-> (a <= t < b)%Z.
Proof.
  unfold zrange. rewrite in_map_iff. split.
  - intros (k & <- & Hk). apply in_seq in Hk. lia.
  - intros H. exists (Z.to_nat (t - a)). split; [lia|]. apply in_seq. lia.
Qed.
Lemma zrange_NoDup a b : NoDup (zrange a b).
Proof. apply FinFun.Injective_map_NoDup; [intros x y; lia|apply seq_NoDup]. Qed.
Lemma zrange_split a m b : (a <= m <= b)%Z -> zrange a b = zrange a m ++ zrange m b.
Proof.
  intros H. unfold zrange. replace (Z.to_nat (b - a)) with (Z.to_nat (m - a) + Z.to_nat (b - m))%nat by lia.
  rewrite seq_app, map_app. f_equal. cbn [plus]. rewrite <- (Nat.add_0_l (Z.to_nat (m - a))) at 1.
  replace (seq (0 + Z.to_nat (m - a)) (Z.to_nat (b - m))) with (map (fun i => (Z.to_nat (m - a) + i)%nat) (seq 0 (Z.to_nat (b - m)))).
  - rewrite map_map. apply map_ext. intros i. lia.
  - generalize (Z.to_nat (m - a)) as w. generalize (Z.to_nat (b - m)) as k. intros k w. cbn [plus].
    apply nth_ext with (d := 0%nat) (d' := 0%nat); rewrite ?map_length, ?seq_length; [reflexivity|].
    intros i Hi. rewrite (nth_indep _ 0%nat (w + 0)%nat) by (rewrite map_length, seq_length; exact Hi). rewrite (map_nth (fun i => (w + i)%nat)), !seq_nth by exact Hi. lia.
Qed.
Lemma zrange_shift a b w : zrange (a + w) (b + w) = map (fun t => (t + w)%Z) (zrange a b).
Proof. unfold zrange. rewrite map_map. replace (b + w - (a + w))%Z with (b - a)%Z by lia. apply map_ext. intros. lia. Qed.
Lemma rsum_one a f : rsum (zrange a (a + 1)) f = f a.
Proof. unfold zrange. replace (a + 1 - a)%Z with 1%Z by lia. cbn [Z.to_nat Pos.to_nat Pos.iter_op seq map]. change (Pos.to_nat 1) with 1%nat. cbn [seq map]. rewrite rsum_cons, rsum_nil. replace (a + Z.of_nat 0)%Z with a by lia. ring. Qed.
(** widening the range with zeros *)
Lemma rsum_widen a b A B f : (A <= a)%Z -> (b <= B)%Z -> (forall t, (A <= t < B)%Z -> (t < a \/ b <= t)%Z -> f t = 0) ->
  rsum (zrange a b) f = rsum (zrange A B) f.
Proof.
  intros HA HB H. destruct (Z.le_gt_cases a b) as [Hab|Hab].
  - rewrite (zrange_split A a B), (zrange_split a b B), !rsum_app by lia.
    rewrite (rsum_zero (zrange A a)), (rsum_zero (zrange b B)); [ring|..]; intros t Ht; apply zrange_in in Ht; apply H; lia.
  - assert (zrange a b = []) as ->. { unfold zrange. replace (Z.to_nat (b - a)) with 0%nat by lia. reflexivity. }
    rewrite rsum_nil. symmetry. apply rsum_zero. intros t Ht. apply zrange_in in Ht. apply H; lia.
Qed.
Lemma rsum_shift a b w f : rsum (zrange (a + w) (b + w)) f = rsum (zrange a b) (fun t => f (t + w)%Z).
Proof. rewrite zrange_shift, rsum_map. reflexivity. Qed.
Lemma rsum_neg k f : rsum (zrange (- k) (k + 1)) f = rsum (zrange (- k) (k + 1)) (fun q => f (- q)%Z).
Proof.
  destruct (Z.le_gt_cases 0 k) as [Hk|Hk].
  - pattern k. apply natlike_ind; [|clear k Hk|exact Hk].
    + cbn. reflexivity.
    + intros k Hk IH. unfold Z.succ. rewrite (zrange_split _ (- k)), (zrange_split (- k) (k + 1)), !rsum_app by lia.
      rewrite IH. replace (- (k + 1))%Z with (- k - 1)%Z by lia. replace (rsum (zrange (- k - 1) (- k)) f) with (f (- k - 1)%Z).
      2: { rewrite <- (rsum_one (- k - 1) f). do 2 f_equal. lia. }
      replace (rsum (zrange (- k - 1) (- k)) (fun q => f (- q)%Z)) with (f (k + 1)%Z).
      2: { pose proof (rsum_one (- k - 1) (fun q => f (- q)%Z)) as E. cbv beta in E. replace (- k - 1 + 1)%Z with (- k)%Z in E by lia. rewrite E. f_equal. lia. }
      rewrite !rsum_one. replace (- (k + 1))%Z with (- k - 1)%Z by lia. ring.
  - assert (zrange (- k) (k + 1) = []) as ->. { unfold zrange. replace (Z.to_nat (k + 1 - - k)) with 0%nat by lia. reflexivity. }
    reflexivity.
Qed.

(** ---- signs and inverse factorials ---- *)
Lemma par_add x y : par (x + y) = par x * par y.
Proof. unfold par. rewrite Z.odd_add. destruct (Z.odd x), (Z.odd y); cbn; ring. Qed.
Lemma par_sq x : par x * par x = 1. Proof. unfold par. destruct (Z.odd x); ring. Qed.
Lemma par_opp x : par (- x) = par x. Proof. unfold par. rewrite Z.odd_opp. reflexivity. Qed.
Lemma par_sub x y : par (x - y) = par x * par y. Proof. unfold Z.sub. rewrite par_add, par_opp. reflexivity. Qed.
Lemma par_1 : par 1 = -1. Proof. reflexivity. Qed.
Lemma par_even x y : (exists k, x = y + 2 * k)%Z -> par x = par y.
Proof. intros (k & ->). unfold par. rewrite Z.odd_add, Z.odd_mul. cbn. rewrite Bool.xorb_false_r. reflexivity. Qed.

Lemma fact_pos z : 0 < fact z. Proof. apply INR_fact_lt_0. Qed.
Lemma fact_succ z : (0 < z)%Z -> fact z = IZR z * fact (z - 1).
Proof.
  intros H. unfold fact. replace (Z.to_nat z) with (S (Z.to_nat (z - 1))) by lia. rewrite fact_simpl, mult_INR. f_equal.
  rewrite INR_IZR_INZ. f_equal. lia.
Qed.
Definition ifact (z : Z) : R := if (z <? 0)%Z then 0 else / fact z.
Lemma ifact_neg z : (z < 0)%Z -> ifact z = 0. Proof. intros H. unfold ifact. apply Z.ltb_lt in H. rewrite H. reflexivity. Qed.
Lemma ifact_pos z : (0 <= z)%Z -> ifact z = / fact z. Proof. intros H. unfold ifact. apply Z.ltb_ge in H. rewrite H. reflexivity. Qed.
Lemma ifact_pred z : IZR z * ifact z = ifact (z - 1).
Proof.
  destruct (Z.lt_trichotomy z 0) as [H|[->|H]].
  - rewrite !ifact_neg by lia. ring.
  - rewrite (ifact_neg (0 - 1)) by lia. ring.
  - rewrite !ifact_pos by lia. rewrite (fact_succ z H). field. split; [apply Rgt_not_eq, fact_pos|]. apply not_0_IZR. lia.
Qed.

(** ---- Racah's sum ---- *)
Definition term (a b c d e t : Z) : R :=
  par t * (ifact t * ifact (a + t) * ifact (b + t) * ifact (c - t) * ifact (d - t) * ifact (e - t)).
Definition racah (a b c d e : Z) : R := rsum (zrange 0 (c + 1)) (term a b c d e).

Lemma term_zero a b c d e t : (t < 0 \/ a + t < 0 \/ b + t < 0 \/ c < t \/ d < t \/ e < t)%Z -> term a b c d e t = 0.
Proof.
  intros H. unfold term.
  destruct H as [H|[H|[H|[H|[H|H]]]]].
  - rewrite (ifact_neg t) by lia. ring.
  - rewrite (ifact_neg (a + t)) by lia. ring.
  - rewrite (ifact_neg (b + t)) by lia. ring.
  - rewrite (ifact_neg (c - t)) by lia. ring.
  - rewrite (ifact_neg (d - t)) by lia. ring.
  - rewrite (ifact_neg (e - t)) by lia. ring.
Qed.

Lemma racah_raise a b c d e : (-1 <= c)%Z ->
  IZR (a + c + 1) * racah (a + 1) b c (d - 1) e + IZR (e + 1) * racah a (b - 1) c d (e + 1) = IZR (b + d) * racah a b c d e.
Proof.
  intros Hc. unfold racah.
  set (G := fun t : Z => ifact t * ifact (a + t + 1) * ifact (b + t) * ifact (c - t - 1) * ifact (d - t - 1) * ifact (e - t)).
  assert (E1 : forall t, IZR (a + c + 1) * term (a + 1) b c (d - 1) e t = IZR (d - t) * term a b c d e t + par t * G t).
  { intros t. unfold term, G. replace (a + c + 1)%Z with ((a + t + 1) + (c - t))%Z by lia. rewrite plus_IZR, Rmult_plus_distr_r.
    replace (a + 1 + t)%Z with (a + t + 1)%Z by lia. replace (d - 1 - t)%Z with (d - t - 1)%Z by lia.
    pose proof (ifact_pred (a + t + 1)) as P1. replace (a + t + 1 - 1)%Z with (a + t)%Z in P1 by lia.
    pose proof (ifact_pred (c - t)) as P2. pose proof (ifact_pred (d - t)) as P3.
    rewrite <- P2. rewrite <- P1. rewrite <- P3. ring. }
  assert (E2 : forall t, IZR (e + 1) * term a (b - 1) c d (e + 1) t = IZR (b + t) * term a b c d e t + par t * G (t - 1)%Z).
  { intros t. unfold term, G. replace (e + 1)%Z with ((e + 1 - t) + t)%Z at 1 by lia. rewrite plus_IZR, Rmult_plus_distr_r.
    replace (b - 1 + t)%Z with (b + t - 1)%Z by lia. replace (a + (t - 1) + 1)%Z with (a + t)%Z by lia.
    replace (b + (t - 1))%Z with (b + t - 1)%Z by lia. replace (c - (t - 1) - 1)%Z with (c - t)%Z by lia. replace (d - (t - 1) - 1)%Z with (d - t)%Z by lia.
    replace (e - (t - 1))%Z with (e + 1 - t)%Z by lia.
    pose proof (ifact_pred (e + 1 - t)) as P1. replace (e + 1 - t - 1)%Z with (e - t)%Z in P1 by lia.
    pose proof (ifact_pred t) as P2. pose proof (ifact_pred (b + t)) as P3.
    rewrite <- P2. rewrite <- P1. rewrite <- P3. ring. }
  rewrite <- !rsum_scal, <- rsum_plus.
  rewrite (rsum_ext _ _ (fun t => IZR (b + d) * term a b c d e t + (par t * G t + par t * G (t - 1)%Z))).
  2: { intros t _. rewrite E1, E2. replace (b + d)%Z with ((d - t) + (b + t))%Z by lia. rewrite (plus_IZR (d - t)). ring. }
  rewrite rsum_plus. replace (rsum (zrange 0 (c + 1)) (fun t => par t * G t + par t * G (t - 1)%Z)) with 0; [ring|]. symmetry.
  assert (T : forall k, (0 <= k)%Z -> rsum (zrange 0 k) (fun t => par t * G t + par t * G (t - 1)%Z) = - par k * G (k - 1)%Z).
  { intros k Hk. pattern k. apply natlike_ind; [|clear k Hk|exact Hk].
    - change (rsum (zrange 0 0) (fun t => par t * G t + par t * G (t - 1)%Z)) with 0. unfold G. rewrite (ifact_neg (0 - 1)) by lia. ring.
    - intros k Hk IH. unfold Z.succ. rewrite (zrange_split 0 k), rsum_app, IH, rsum_one by lia. rewrite par_add, par_1. replace (k + 1 - 1)%Z with k by lia. ring. }
  rewrite T by lia. unfold G. rewrite (ifact_neg (c - (c + 1 - 1) - 1)) by lia. ring.
Qed.

Lemma racah_reverse a b c d e : (0 <= c)%Z -> (0 <= b + e)%Z ->
  racah (a - b) (- b) (b + e) (b + d) (b + c) = par b * racah a b c d e.
Proof.
  intros Hc He. unfold racah. rewrite <- rsum_scal.
  set (W := (c + Z.abs b + Z.abs e + 1)%Z).
  rewrite (rsum_widen 0 (c + 1) (- W) W) by first [lia | intros t _ H; rewrite term_zero; [ring|lia]].
  rewrite (rsum_widen 0 (b + e + 1) (- W + b) (W + b)) by first [lia | intros t _ H; apply term_zero; lia].
  rewrite rsum_shift. apply rsum_ext. intros t _. unfold term.
  replace (a - b + (t + b))%Z with (a + t)%Z by lia. replace (- b + (t + b))%Z with t by lia. replace (b + e - (t + b))%Z with (e - t)%Z by lia.
  replace (b + d - (t + b))%Z with (d - t)%Z by lia. replace (b + c - (t + b))%Z with (c - t)%Z by lia. replace (t + b)%Z with (b + t)%Z by lia.
  rewrite par_add. ring.
Qed.

(** ---- the 3j symbol ---- *)
Definition in_range (j m : Z) : Prop := (- j <= m <= j)%Z.
Definition triangle (j1 j2 j3 : Z) : Prop := (Z.abs (j1 - j2) <= j3 <= j1 + j2)%Z.
Definition delta3 (j1 j2 j3 : Z) : R := sqrt (fact (j1 + j2 - j3) * fact (j1 - j2 + j3) * fact (- j1 + j2 + j3) / fact (j1 + j2 + j3 + 1)).
Definition norm (j m : Z) : R := sqrt (fact (j - m) * fact (j + m)).

Lemma three_j_zero j1 m1 j2 m2 j3 m3 :
  (m1 + m2 + m3 <> 0)%Z \/ ~ in_range j1 m1 \/ ~ in_range j2 m2 \/ ~ in_range j3 m3 \/ ~ triangle j1 j2 j3 -> three_j j1 m1 j2 m2 j3 m3 = 0.
Proof.
  intros H. unfold three_j.
  destruct (Z.eqb_spec (m1 + m2 + m3) 0) as [E0|]; [|reflexivity].
  destruct (Z.ltb_spec m1 (- j1)); [reflexivity|]. destruct (Z.ltb_spec j1 m1); [reflexivity|].
  destruct (Z.ltb_spec m2 (- j2)); [reflexivity|]. destruct (Z.ltb_spec j2 m2); [reflexivity|].
  destruct (Z.ltb_spec m3 (- j3)); [reflexivity|]. destruct (Z.ltb_spec j3 m3); [reflexivity|].
  destruct (Z.ltb_spec (j1 + j2) j3); [reflexivity|]. destruct (Z.ltb_spec j3 (Z.abs (j1 - j2))); [reflexivity|].
  exfalso. unfold in_range, triangle in H. lia.
Qed.

Lemma three_j_formula j1 m1 j2 m2 j3 m3 : (m1 + m2 + m3 = 0)%Z -> in_range j1 m1 -> in_range j2 m2 -> in_range j3 m3 -> triangle j1 j2 j3 ->
  three_j j1 m1 j2 m2 j3 m3 =
    par (j1 - j2 - m3) * delta3 j1 j2 j3 * (norm j1 m1 * norm j2 m2 * norm j3 m3) *
    racah (j3 - j2 + m1) (j3 - j1 - m2) (j1 + j2 - j3) (j1 - m1) (j2 + m2).
Proof.
  intros H0 H1 H2 H3 HT. unfold in_range, triangle in *. unfold three_j.
  destruct (Z.eqb_spec (m1 + m2 + m3) 0) as [_|]; [|contradiction].
  destruct (Z.ltb_spec m1 (- j1)); [lia|]. destruct (Z.ltb_spec j1 m1); [lia|].
  destruct (Z.ltb_spec m2 (- j2)); [lia|]. destruct (Z.ltb_spec j2 m2); [lia|].
  destruct (Z.ltb_spec m3 (- j3)); [lia|]. destruct (Z.ltb_spec j3 m3); [lia|].
  destruct (Z.ltb_spec (j1 + j2) j3); [lia|]. destruct (Z.ltb_spec j3 (Z.abs (j1 - j2))); [lia|].
  cbn [negb orb]. unfold delta3. rewrite <- !Rmult_assoc.
  assert (EN : sqrt (fact (j1 - m1) * fact (j1 + m1) * fact (j2 - m2) * fact (j2 + m2) * fact (j3 - m3) * fact (j3 + m3)) = norm j1 m1 * norm j2 m2 * norm j3 m3).
  { unfold norm. pose proof fact_pos as FP. rewrite <- !sqrt_mult_alt by (repeat apply Rmult_le_pos; left; apply FP). f_equal. ring. }
  rewrite EN. rewrite !Rmult_assoc. do 5 f_equal. unfold racah.
  rewrite <- (rsum_widen (Z.max (Z.max (j2 - j3 - m1) (j1 - j3 + m2)) 0) (Z.min (Z.min (j1 - m1) (j2 + m2)) (j1 + j2 - j3) + 1) 0 (j1 + j2 - j3 + 1));
    [|lia|lia|intros t Ht H'; apply term_zero; lia].
  apply rsum_ext. intros t Ht. apply zrange_in in Ht. unfold term. rewrite !ifact_pos by lia.
  replace (j3 - j1 - m2 + t)%Z with (j3 - j1 - m2 + t)%Z by lia.
  unfold Rdiv. rewrite !Rinv_mult. reflexivity.
Qed.

(** reversing the columns and the signs of the projections *)
Theorem three_j_reverse j1 m1 j2 m2 j3 m3 : three_j j3 (- m3) j2 (- m2) j1 (- m1) = three_j j1 m1 j2 m2 j3 m3.
Proof.
  assert (Hd : ((m1 + m2 + m3 = 0)%Z /\ in_range j1 m1 /\ in_range j2 m2 /\ in_range j3 m3 /\ triangle j1 j2 j3) \/
    ((m1 + m2 + m3 <> 0)%Z \/ ~ in_range j1 m1 \/ ~ in_range j2 m2 \/ ~ in_range j3 m3 \/ ~ triangle j1 j2 j3)).
  { unfold in_range, triangle. lia. }
  destruct Hd as [(H0 & H1 & H2 & H3 & HT)|Hz].
  - rewrite !three_j_formula; unfold in_range, triangle in *; try lia.
    pose proof (racah_reverse (j3 - j2 + m1) (j3 - j1 - m2) (j1 + j2 - j3) (j1 - m1) (j2 + m2) ltac:(lia) ltac:(lia)) as P.
    replace (racah (j1 - j2 + - m3) (j1 - j3 - - m2) (j3 + j2 - j1) (j3 - - m3) (j2 + - m2))
      with (racah (j3 - j2 + m1 - (j3 - j1 - m2)) (- (j3 - j1 - m2)) (j3 - j1 - m2 + (j2 + m2)) (j3 - j1 - m2 + (j1 - m1)) (j3 - j1 - m2 + (j1 + j2 - j3))) by (f_equal; lia).
    rewrite P.
    replace (par (j1 - j2 - m3)) with (par (j3 - j2 - - m1) * par (j3 - j1 - m2)).
    2: { rewrite <- par_add. apply par_even. exists (j3 - j1 - m2)%Z. lia. }
    assert (E1 : forall j m, norm j (- m) = norm j m).
    { intros. unfold norm. f_equal. replace (j - - m)%Z with (j + m)%Z by lia. replace (j + - m)%Z with (j - m)%Z by lia. ring. }
    assert (E2 : delta3 j3 j2 j1 = delta3 j1 j2 j3).
    { unfold delta3. f_equal. replace (j3 + j2 + j1 + 1)%Z with (j1 + j2 + j3 + 1)%Z by lia. replace (j3 + j2 - j1)%Z with (- j1 + j2 + j3)%Z by lia.
      replace (j3 - j2 + j1)%Z with (j1 - j2 + j3)%Z by lia. replace (- j3 + j2 + j1)%Z with (j1 + j2 - j3)%Z by lia. unfold Rdiv. ring. }
    rewrite !E1, E2. ring.
  - rewrite !three_j_zero; [reflexivity|exact Hz|]. unfold in_range, triangle in *. lia.
Qed.

(** the ladder coefficient sqrt(j(j+1) - m(m+1)) *)
Definition ladder (j m : Z) : R := sqrt (IZR (j * (j + 1) - m * (m + 1))).
Lemma ladder_top j : ladder j j = 0. Proof. unfold ladder. replace (j * (j + 1) - j * (j + 1))%Z with 0%Z by lia. apply sqrt_0. Qed.
Lemma ladder_bot j : ladder j (- j - 1) = 0. Proof. unfold ladder. replace (j * (j + 1) - (- j - 1) * (- j - 1 + 1))%Z with 0%Z by lia. apply sqrt_0. Qed.
Lemma ladder_neg j m : ladder j (- m - 1) = ladder j m.
Proof. unfold ladder. do 2 f_equal. lia. Qed.
Lemma norm_raise j m : (- j <= m < j)%Z -> ladder j m * norm j (m + 1) = IZR (j + m + 1) * norm j m.
Proof.
  intros H. unfold ladder, norm. pose proof fact_pos as FP.
  rewrite <- sqrt_mult_alt by (apply IZR_le; nia).
  rewrite <- (sqrt_square (IZR (j + m + 1))) by (apply IZR_le; lia).
  rewrite <- sqrt_mult_alt by (apply Rle_0_sqr). f_equal.
  replace (j * (j + 1) - m * (m + 1))%Z with ((j - m) * (j + m + 1))%Z by lia. rewrite mult_IZR.
  replace (j + (m + 1))%Z with (j + m + 1)%Z by lia. rewrite (fact_succ (j + m + 1)) by lia. replace (j + m + 1 - 1)%Z with (j + m)%Z by lia.
  rewrite (fact_succ (j - m)) by lia. replace (j - (m + 1))%Z with (j - m - 1)%Z by lia. ring.
Qed.

(** J_+ kills the vector of 3j symbols *)
Theorem three_j_raise j1 m1 j2 m2 j3 m3 : in_range j1 m1 -> in_range j2 m2 -> in_range j3 m3 ->
  ladder j1 m1 * three_j j1 (m1 + 1) j2 m2 j3 m3 + ladder j2 m2 * three_j j1 m1 j2 (m2 + 1) j3 m3 + ladder j3 m3 * three_j j1 m1 j2 m2 j3 (m3 + 1) = 0.
Proof.
  intros H1 H2 H3.
  destruct (Z.eq_dec (m1 + m2 + m3) (-1)) as [E|Hne].
  2: { rewrite !three_j_zero by lia. ring. }
  assert (Hd : triangle j1 j2 j3 \/ ~ triangle j1 j2 j3) by (unfold triangle; lia).
  destruct Hd as [HT|HT]; [|rewrite !three_j_zero by tauto; ring].
  unfold in_range in *. assert (HT' := HT). unfold triangle in HT'.
  set (N := norm j1 m1 * norm j2 m2 * norm j3 m3). set (D := delta3 j1 j2 j3).
  set (a := (j3 - j2 + m1)%Z). set (b := (j3 - j1 - m2)%Z). set (c := (j1 + j2 - j3)%Z). set (d := (j1 - m1)%Z). set (e := (j2 + m2)%Z).
  assert (E1 : ladder j1 m1 * three_j j1 (m1 + 1) j2 m2 j3 m3 = par (j1 - j2 - m3) * D * N * (IZR (a + c + 1) * racah (a + 1) b c (d - 1) e)).
  { destruct (Z.eq_dec m1 j1) as [->|Hm].
    - rewrite ladder_top. replace (racah (a + 1) b c (d - 1) e) with 0; [ring|]. symmetry. apply rsum_zero. intros t Ht. apply zrange_in in Ht. apply term_zero. unfold d. lia.
    - rewrite three_j_formula by (unfold in_range; lia || assumption). fold D.
      replace (j3 - j2 + (m1 + 1))%Z with (a + 1)%Z by (unfold a; lia). fold b c e. replace (j1 - (m1 + 1))%Z with (d - 1)%Z by (unfold d; lia).
      pose proof (norm_raise j1 m1 ltac:(lia)) as P. replace (a + c + 1)%Z with (j1 + m1 + 1)%Z by (unfold a, c; lia).
      transitivity (par (j1 - j2 - m3) * D * ((ladder j1 m1 * norm j1 (m1 + 1)) * norm j2 m2 * norm j3 m3) * racah (a + 1) b c (d - 1) e); [ring|].
      rewrite P. unfold N. ring. }
  assert (E2 : ladder j2 m2 * three_j j1 m1 j2 (m2 + 1) j3 m3 = par (j1 - j2 - m3) * D * N * (IZR (e + 1) * racah a (b - 1) c d (e + 1))).
  { destruct (Z.eq_dec m2 j2) as [Hm|Hm].
    - rewrite Hm at 1. rewrite ladder_top. replace (racah a (b - 1) c d (e + 1)) with 0; [ring|]. symmetry.
      apply rsum_zero. intros t Ht. apply zrange_in in Ht. apply term_zero. unfold a, b, c, d, e in *. lia.
    - rewrite three_j_formula by (unfold in_range; lia || assumption). fold D.
      replace (j3 - j1 - (m2 + 1))%Z with (b - 1)%Z by (unfold b; lia). fold a c d. replace (j2 + (m2 + 1))%Z with (e + 1)%Z by (unfold e; lia).
      pose proof (norm_raise j2 m2 ltac:(lia)) as P. replace (IZR (e + 1)) with (IZR (j2 + m2 + 1)) by (f_equal; unfold e; lia).
      transitivity (par (j1 - j2 - m3) * D * (norm j1 m1 * (ladder j2 m2 * norm j2 (m2 + 1)) * norm j3 m3) * racah a (b - 1) c d (e + 1)); [ring|].
      rewrite P. unfold N. ring. }
  assert (E3 : ladder j3 m3 * three_j j1 m1 j2 m2 j3 (m3 + 1) = - (par (j1 - j2 - m3) * D * N * (IZR (b + d) * racah a b c d e))).
  { destruct (Z.eq_dec m3 j3) as [Hm|Hm].
    - rewrite Hm at 1. rewrite ladder_top. replace (racah a b c d e) with 0; [ring|]. symmetry.
      apply rsum_zero. intros t Ht. apply zrange_in in Ht. apply term_zero. unfold a, b, c, d, e in *. lia.
    - rewrite three_j_formula by (unfold in_range; lia || assumption). fold D a b c d e.
      pose proof (norm_raise j3 m3 ltac:(lia)) as P. replace (b + d)%Z with (j3 + m3 + 1)%Z by (unfold b, d; lia).
      replace (par (j1 - j2 - (m3 + 1))) with (- par (j1 - j2 - m3)).
      2: { replace (j1 - j2 - (m3 + 1))%Z with (j1 - j2 - m3 - 1)%Z by lia. rewrite (par_sub _ 1), par_1. ring. }
      transitivity (- par (j1 - j2 - m3) * D * (norm j1 m1 * norm j2 m2 * (ladder j3 m3 * norm j3 (m3 + 1))) * racah a b c d e); [ring|].
      rewrite P. unfold N. ring. }
  rewrite E1, E2, E3. pose proof (racah_raise a b c d e ltac:(unfold c; lia)) as P.
  transitivity (par (j1 - j2 - m3) * D * N * (IZR (a + c + 1) * racah (a + 1) b c (d - 1) e + IZR (e + 1) * racah a (b - 1) c d (e + 1) - IZR (b + d) * racah a b c d e)); [ring|].
  rewrite P. ring.
Qed.
