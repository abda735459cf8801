(** Proofs about log_binning. *)
From mathcomp Require Import all_ssreflect all_algebra.
From Verif Require Import Base FieldTac Stat Stat_proofs Acc AccLin_proofs.
Set Implicit Arguments.
Unset Strict Implicit.
Unset Printing Implicit Defensive.
Import Order.TTheory GRing.Theory Num.Theory.
Local Open Scope ring_scope.

Section Log.
Variable C : numClosedFieldType.
Variable moved : C.
Add Field logF : (Fft C).
Implicit Types (xs ys : seq C).

Definition S xs a b : C := \sum_(a <= i < b) nth 0 xs i.
(** partial sum of the level above n, and its number of blocks *)
Definition A xs c n : C := S xs (2 ^ n.+1 * (c %/ 2 ^ n.+1))%N (2 ^ n * (c %/ 2 ^ n))%N.

Lemma S_cat xs a b c : (a <= b)%N -> (b <= c)%N -> S xs a b + S xs b c = S xs a c.
Proof. by move=> ab bc; rewrite /S (big_cat_nat _ _ _ ab bc). Qed.
Lemma S_rcons xs x a b : (b <= size xs)%N -> S (rcons xs x) a b = S xs a b.
Proof. by move=> b_; apply: eq_big_nat => i /andP[_ ib]; rewrite nth_rcons (leq_trans ib). Qed.
Lemma S_block d i xs : (d * i + d <= size xs)%N -> \sum_(x <- block d i xs) x = S xs (d * i) (d * i + d).
Proof.
move=> le; have le' := leq_trans (leq_addr _ _) le.
rewrite /block /S -[X in \sum_(X <= _ < _) _]add0n big_addn addKn (big_nth 0) size_takel; last by rewrite size_drop leq_subRL.
by apply: eq_big_nat => k /andP[_ kd]; rewrite nth_take // nth_drop addnC.
Qed.

Lemma sqdev_rcons xs x : let k := (size xs).+1%:R in
  sqdev (rcons xs x) = sqdev xs + (k - 1) / k * `|x - avg xs| ^+ 2.
Proof.
move=> k; have k0 : k != 0 by rewrite nat_neq0.
rewrite {1}/sqdev -cats1 big_cat big_seq1 cats1 /= avg_rcons -/k sqdev_shift.
have -> : (size xs)%:R = k - 1 :> C by rewrite /k -addn1 natrD mulr1n addrK.
set d := x - avg xs.
have -> : avg xs - (avg xs + d / k) = - (d / k) by rewrite opprD addrA subrr add0r.
have -> : x - (avg xs + d / k) = d * ((k - 1) / k) by rewrite /d; ffield C.
have kr : `|k - 1| = k - 1 by rewrite /k -addn1 natrD mulr1n addrK normr_nat.
have kk : `|k| = k by rewrite normr_nat.
rewrite normrN !normrM normfV kr kk.
rewrite !expr2; move: (`|d|) (sqdev xs) => D Q; ffield C.
Qed.

Lemma size_means d xs : size (full_means d xs) = (size xs %/ d)%N.
Proof. by rewrite size_map size_iota. Qed.
Lemma means1 xs : full_means 1 xs = xs.
Proof.
rewrite /full_means divn1; apply: (@eq_from_nth _ 0); rewrite size_map size_iota // => i Hi.
by rewrite (nth_map 0%N) ?size_iota // nth_iota // add0n /block mul1n (drop_nth 0 Hi) /= take0 avg1.
Qed.
Lemma block_rcons d i xs x : (d * i + d <= size xs)%N -> block d i (rcons xs x) = block d i xs.
Proof.
move=> le; have le' := leq_trans (leq_addr _ _) le.
by rewrite /block drop_rcons // -cats1 takel_cat // size_drop leq_subRL.
Qed.
Lemma means_rcons d xs x : (0 < d)%N ->
  full_means d (rcons xs x) =
  if (d %| (size xs).+1)%N then rcons (full_means d xs) (S (rcons xs x) ((size xs).+1 - d) (size xs).+1 / d%:R) else full_means d xs.
Proof.
move=> d0; rewrite /full_means size_rcons divnS //.
have le i : (i < size xs %/ d)%N -> (d * i + d <= size xs)%N.
  by move=> Hi; rewrite addnC -mulnS mulnC -leq_divRL.
have E : [seq avg (block d i (rcons xs x)) | i <- iota 0 (size xs %/ d)] = [seq avg (block d i xs) | i <- iota 0 (size xs %/ d)].
  by apply/eq_in_map => i; rewrite mem_iota add0n => /= Hi; rewrite block_rcons // le.
case: ifP => dv; rewrite ?add0n ?E //.
rewrite addnC iotaD map_cat E /= add0n cats1; congr rcons.
have Ec : (size xs).+1 = (d * (size xs %/ d) + d)%N.
  by rewrite -[LHS](divnK dv) divnS // dv mulnDl mul1n addnC mulnC.
have le2 : (d * (size xs %/ d) + d <= size (rcons xs x))%N by rewrite size_rcons Ec.
rewrite /avg S_block // -Ec; congr (_ / _); first by rewrite {2}Ec addnK.
by rewrite size_takel // size_drop size_rcons {1}Ec addKn.
Qed.

(** ---- the upward loop ---- *)
Section Up.
Variables (xs : seq C) (x : C).
Let c := size xs.
Let c' := c.+1.
Let xs' := rcons xs x.
Let v := logn 2 c'.

Lemma dvd_v n : (2 ^ n %| c')%N = (n <= v)%N.
Proof. by rewrite pfactor_dvdn. Qed.
Lemma A_eq n b : (b <= c)%N -> S xs' (2 ^ n.+1 * (c %/ 2 ^ n.+1))%N b = S xs (2 ^ n.+1 * (c %/ 2 ^ n.+1))%N b.
Proof. exact: S_rcons. Qed.
Lemma half n : (2 ^ n.+1 * (c %/ 2 ^ n.+1) <= 2 ^ n * (c %/ 2 ^ n))%N.
Proof. by rewrite expnSr divnMA -mulnA leq_mul2l mulnC leq_trunc_div orbT. Qed.
Lemma top n : (2 ^ n * (c %/ 2 ^ n) <= c)%N.
Proof. by rewrite mulnC leq_trunc_div. Qed.
Lemma last_start n : (n <= v)%N -> (2 ^ n * (c %/ 2 ^ n) = c' - 2 ^ n)%N.
Proof.
move=> nv; have dv : (2 ^ n %| c')%N by rewrite dvd_v.
have := divnK dv; rewrite /c' divnS ?expn_gt0 // dv mulnDl mul1n => <-.
by rewrite addKn mulnC.
Qed.

(** below the valuation: the level becomes full *)
Lemma A_below n : (n < v)%N -> A xs c n + S xs' (c' - 2 ^ n) c' = S xs' (c' - 2 ^ n.+1) c' /\ odd (c %/ 2 ^ n).
Proof.
move=> nv; split.
  rewrite /A -A_eq ?top // !last_start ?(ltnW nv) // S_cat ?leq_subr // leq_sub2l // leq_exp2l //.
have dv : (2 ^ n %| c')%N by rewrite dvd_v ltnW.
have dv2 : (2 ^ n.+1 %| c')%N by rewrite dvd_v.
have := divnS c (_ : 0 < 2 ^ n)%N; rewrite expn_gt0 => /(_ isT); rewrite -/c' dv add1n => E.
have : odd (c' %/ 2 ^ n) = false.
  by apply/negbTE; rewrite -dvdn2 dvdn_divRL // -expnS.
by rewrite E /= => /negbFE.
Qed.
Lemma A_at : A xs c v = 0 /\ odd (c %/ 2 ^ v) = false /\ A xs' c' v = S xs' (c' - 2 ^ v) c' /\ odd (c' %/ 2 ^ v).
Proof.
have dv : (2 ^ v %| c')%N by rewrite dvd_v.
have nd : (2 ^ v.+1 %| c')%N = false by rewrite dvd_v ltnn.
have O : odd (c' %/ 2 ^ v) by rewrite -[odd _]negbK -dvdn2 dvdn_divRL // -expnS nd.
have := divnS c (_ : 0 < 2 ^ v)%N; rewrite expn_gt0 => /(_ isT); rewrite -/c' dv add1n => E.
have Oc : odd (c %/ 2 ^ v) = false by move: O; rewrite E /= => /negbTE.
have H : (2 ^ v.+1 * (c %/ 2 ^ v.+1) = 2 ^ v * (c %/ 2 ^ v))%N.
  by rewrite expnSr divnMA -mulnA; congr (_ * _)%N; rewrite mulnC divnK // dvdn2 Oc.
split; first by rewrite /A H /S big_geq.
split=> //; split=> //.
rewrite /A /c' divnS ?expn_gt0 // -/c' nd add0n H last_start //; congr (S _ _ _).
by rewrite mulnC divnK.
Qed.
Lemma A_above n : (v < n)%N -> A xs' c' n = A xs c n /\ odd (c' %/ 2 ^ n) = odd (c %/ 2 ^ n).
Proof.
move=> vn; have E m : (v < m)%N -> (c' %/ 2 ^ m = c %/ 2 ^ m)%N.
  by move=> vm; rewrite /c' divnS ?expn_gt0 // -/c' dvd_v leqNgt vm.
by rewrite /A (E n vn) (E n.+1 (leqW vn)) A_eq ?top.
Qed.

Lemma upE m len : (m <= v)%N ->
  let k := minn (v - m) len in
  up (S xs' (c' - 2 ^ m) c') [seq A xs c n | n <- iota m len] [seq (odd (c %/ 2 ^ n) : nat) | n <- iota m len] =
  ([seq if (n < m + k)%N then S xs' (c' - 2 ^ n.+1) c' else A xs' c' n | n <- iota m len],
   [seq if (n < m + k)%N then 2%N else odd (c' %/ 2 ^ n) : nat | n <- iota m len], k).
Proof.
elim: len m => [|len IH] m mv k; first by rewrite /k minn0.
rewrite /= -/(up _ _ _); case: (ltngtP m v) mv => // mv _.
  have [-> ->] := A_below mv; rewrite /= (IH m.+1) //.
  have -> : k = (minn (v - m.+1) len).+1.
    by rewrite /k -(subnSK mv) minnSS.
  by rewrite addnS ltnS leq_addr -addSn.
have [a0 [o0 [a1 o1]]] := A_at.
have -> : k = 0%N by rewrite /k mv subnn min0n.
rewrite mv a0 o0 /= add0r addn0 ltnn -a1 o1; congr (_, _, _); congr (_ :: _).
  apply/eq_in_map=> n; rewrite mem_iota => /andP[vn _]; rewrite ltnNge ltnW //=.
  by have [-> _] := A_above vn.
apply/eq_in_map=> n; rewrite mem_iota => /andP[vn _]; rewrite ltnNge ltnW //=.
by have [_ ->] := A_above vn.
Qed.
End Up.

(** ---- the downward loop ---- *)
Lemma set_otherN (b : seq nat) p y k : k != p -> nth 0%N (set_nth 0%N b p y) k = nth 0%N b k.
Proof. by move=> kp; rewrite nth_set_nth /= (negbTE kp). Qed.
Lemma set_sameN (b : seq nat) p y : nth 0%N (set_nth 0%N b p y) p = y.
Proof. by rewrite nth_set_nth /= eqxx. Qed.

Lemma downP cnt n (M Q acc : seq C) (ac : seq nat) : (n < size M)%N -> size Q = size M -> (n <= size acc)%N -> size ac = size acc ->
  exists M' Q' acc' ac', [/\ foldl (@down_step C cnt) (Ok (M, Q, acc, ac)) (rev (iota 0 n)) = Ok (M', Q', acc', ac'),
    [/\ size M' = size M, size Q' = size M, size acc' = size acc & size ac' = size acc],
    forall l, nth 0 M' l = if (0 < l <= n)%N then nth 0 M l + (nth 0 acc l.-1 / (2 ^ l)%:R - nth 0 M l) / (cnt %/ 2 ^ l)%:R else nth 0 M l,
    forall l, nth 0 Q' l = if (0 < l <= n)%N then nth 0 Q l + ((cnt %/ 2 ^ l)%:R - 1) / (cnt %/ 2 ^ l)%:R * `|nth 0 acc l.-1 / (2 ^ l)%:R - nth 0 M l| ^+ 2 else nth 0 Q l &
    (forall l, nth 0 acc' l = if (l < n)%N then 0 else nth 0 acc l) /\ (forall l, nth 0%N ac' l = if (l < n)%N then 0%N else nth 0%N ac l)].
Proof.
elim: n M Q acc ac => [|n IH] M Q acc ac nM SQ nA Sac /=.
  exists M, Q, acc, ac; split=> //; by case=> [|l].
have -> : rev (iota 0 n.+1) = n :: rev (iota 0 n) by rewrite -[n.+1]addn1 iotaD rev_cat.
rewrite /= leqNgt nM /=.
set y := nth 0 acc n / (2 ^ n.+1)%:R - nth 0 M n.+1.
set k := (cnt %/ 2 ^ n.+1)%N.
have nM' : (n < size M)%N by apply: ltnW.
have [||||M' [Q' [acc' [ac' [-> [S1 S2 S3 S4] EM EQ [EA EC]]]]]] := IH (set_nth 0 M n.+1 (nth 0 M n.+1 + y / k%:R)) (set_nth 0 Q n.+1 (nth 0 Q n.+1 + (k%:R - 1) / k%:R * 'Re (y^* * y))) (set_nth 0 acc n 0) (set_nth 0%N ac n 0%N).
- by rewrite size_set_nth (maxn_idPr nM).
- by rewrite !size_set_nth SQ (maxn_idPr nM).
- by rewrite size_set_nth (maxn_idPr nA) ltnW.
- by rewrite !size_set_nth Sac (maxn_idPr nA).
rewrite !size_set_nth (maxn_idPr nM) (maxn_idPr nA) in S1 S2 S3 S4.
exists M', Q', acc', ac'; split=> //.
- move=> l; rewrite EM; case: (ltngtP l n.+1) => [ln|ln|->]; rewrite ?ltnn ?andbF.
  + rewrite -[(l <= n)%N]/(l < n.+1)%N ln ?andbT set_other ?(ltn_eqF ln) //.
    case: l ln => [|l] //= ln; rewrite set_other // (ltn_eqF _) //.
  + by rewrite [(l <= n)%N]leqNgt (ltnW ln) /= andbF set_other // gtn_eqF.
  + by rewrite /= set_same.
- move=> l; rewrite EQ; case: (ltngtP l n.+1) => [ln|ln|->]; rewrite ?ltnn ?andbF.
  + rewrite -[(l <= n)%N]/(l < n.+1)%N ln ?andbT !(set_other _ _ (negbT (ltn_eqF ln))).
    case: l ln => [|l] //= ln; rewrite set_other // (ltn_eqF _) //.
  + by rewrite [(l <= n)%N]leqNgt (ltnW ln) /= andbF set_other // gtn_eqF.
  + by rewrite /= set_same sqn.
- split=> l; [rewrite EA|rewrite EC]; rewrite [(l < n.+1)%N]leq_eqVlt eqSS ltnS; case: (ltngtP l n) => [ln|ln|->] //=.
  + by rewrite set_other // gtn_eqF.
  + by rewrite set_same.
  + by rewrite set_otherN // gtn_eqF.
  + by rewrite set_sameN.
Qed.

(** ---- the number of levels ---- *)
Definition n_acc (max : int) (c : nat) : nat := if max < 0 then n_levels max c else minn (n_levels max c) (absz max - 1).

Lemma n_levelsE max c : max != 0 -> n_levels max c = if max < 0 then (trunc_log 2 c).+1 else minn (absz max) (trunc_log 2 c).+1.
Proof. by move=> m0; rewrite /n_levels (negbTE m0); case: eqP => [->|_]; rewrite ?trunc_log0. Qed.

Lemma tl_S c : trunc_log 2 c.+1 = (trunc_log 2 c + (c.+1 == 2 ^ (trunc_log 2 c).+1)%N)%N.
Proof.
case: eqP => [E|/eqP E]; first by rewrite {1}E trunc_expnK // addn1.
apply/eqP; rewrite addn0 eqn_leq (leq_trunc_log 2 (leqnSn c)) andbT -ltnS.
have lt : (c.+1 < 2 ^ (trunc_log 2 c).+1)%N by rewrite ltn_neqAle E trunc_log_ltn.
by rewrite -(@ltn_exp2l 2) //; apply: leq_ltn_trans lt; apply: trunc_logP.
Qed.

Lemma level_step max c : max != 0 -> max != 1 ->
  let L := n_levels max c in let la := n_acc max c in
  let grow := (c.+1 == 2 ^ la)%N && ((max < 0) || (L%:Z < max)) in
  let more := grow && ((max < 0) || (L%:Z < max - 1)) in
  [/\ n_levels max c.+1 = (L + grow)%N, n_acc max c.+1 = (la + more)%N, (L + grow <= la.+1)%N, grow -> la = L & [\/ (c.+1 < 2 ^ la)%N, grow | L = la.+1]] /\ (0 < la <= L)%N.
Proof.
move=> m0 m1 L la.
case: (ltrP max 0) => [mn|mp].
  have EL : L = (trunc_log 2 c).+1 by rewrite /L n_levelsE // mn.
  have Ela : la = L by rewrite /la /n_acc mn.
  rewrite Ela EL /= /n_acc mn !n_levelsE // mn !andbT tl_S addSn.
  split; last by rewrite leqnn.
  split=> //.
    by rewrite -addSn; case: (_ == _)%N; rewrite ?addn1 ?addn0 // leqnSn.
  case: eqP => [E|/eqP E]; first by constructor 2.
  by constructor 1; rewrite ltn_neqAle E trunc_log_ltn.
case: max mp m0 m1 @L @la => // m _ m0 m1 L la; rewrite /=.
have m2 : (1 < m)%N by case: (m) m0 m1 => [|[|]].
have nlt : (Posz m < 0) = false by [].
have EL c0 : n_levels m c0 = minn m (trunc_log 2 c0).+1 by rewrite n_levelsE.
have Ela c0 : n_acc m c0 = minn (n_levels m c0) (m - 1) by rewrite /n_acc nlt.
have m1E : Posz m - 1 = Posz (m - 1)%N by rewrite -subzn // ltnW.
rewrite m1E !ltz_nat !EL !Ela /L /la !EL !Ela !EL tl_S; set t := trunc_log 2 c.
have lt : (c < 2 ^ t.+1)%N by rewrite trunc_log_ltn.
have m1' : (m - 1).+1 = m by rewrite subn1 prednK // ltnW.
case: (ltnP t.+1 m) => tm.
  have tm1 : (t.+1 <= m - 1)%N by rewrite -ltnS m1'.
  have -> : minn t.+1 (m - 1) = t.+1 by apply/minn_idPl.
  rewrite tm andbT; split; last by rewrite leqnn.
  case: eqP => E; rewrite ?addn0 ?addn1 /=.
    have -> : minn m t.+2 = t.+2 by apply/minn_idPr.
    split=> //; last by constructor 2.
    case: (ltnP t.+1 (m - 1)) => ?; rewrite ?addn1 ?addn0; first by apply/minn_idPl.
    have -> : t.+1 = (m - 1)%N by apply/eqP; rewrite eqn_leq tm1.
    by apply/minn_idPr.
  split=> //; first by apply/minn_idPr; rewrite ltnW.
    have -> : minn m t.+1 = t.+1 by apply/minn_idPr; apply: ltnW.
    by apply/minn_idPl.
  by constructor 1; rewrite ltn_neqAle lt andbT; apply/eqP.
have Em a : (m <= (t + a).+1)%N by apply: leq_trans tm _; rewrite ltnS leq_addr.
rewrite ltnn andbF /= !addn0 (minn_idPl (Em _)).
have -> : minn m (m - 1) = (m - 1)%N by apply/minn_idPr; rewrite leq_subr.
rewrite m1'; split; first by split=> //; constructor 3.
by rewrite subn_gt0 m2 leq_subr.
Qed.

(** ---- the state after a stream ---- *)
Definition level n xs := full_means (2 ^ n) xs.
Definition GInv (s : log C) xs : Prop :=
  let L := n_levels (g_max s) (size xs) in let la := n_acc (g_max s) (size xs) in
  [/\ g_count s = size xs, g_M s = [seq avg (level n xs) | n <- iota 0 L], g_Q s = [seq sqdev (level n xs) | n <- iota 0 L],
      g_acc s = [seq A xs (size xs) n | n <- iota 0 la] & g_ac s = [seq (odd (size xs %/ 2 ^ n) : nat) | n <- iota 0 la]].

Lemma nth_lev (T : Type) (d : T) (h : nat -> T) L n : (n < L)%N -> nth d [seq h i | i <- iota 0 L] n = h n.
Proof. by move=> nL; rewrite (nth_map 0%N) ?size_iota // nth_iota. Qed.
Lemma lev_rcons (T : Type) (h : nat -> T) L : [seq h i | i <- iota 0 L.+1] = rcons [seq h i | i <- iota 0 L] (h L).
Proof. by rewrite -[L.+1]addn1 iotaD map_cat /= add0n cats1. Qed.

Lemma level_rcons n xs x : level n (rcons xs x) =
  if (n <= logn 2 (size xs).+1)%N then rcons (level n xs) (S (rcons xs x) ((size xs).+1 - 2 ^ n) (size xs).+1 / (2 ^ n)%:R) else level n xs.
Proof. by rewrite /level means_rcons ?expn_gt0 // dvd_v. Qed.
Lemma level_count n xs : (n <= logn 2 (size xs).+1)%N -> (size (level n xs)).+1 = ((size xs).+1 %/ 2 ^ n)%N.
Proof. by move=> nv; rewrite size_means divnS ?expn_gt0 // dvd_v nv. Qed.

(** the shift agrees with the power of two *)
Definition fits (max : int) (c : nat) : Prop := (c < 2 ^ 31)%N \/ (0 < max) && (max <= 31).

Lemma pow31 n : (2 ^ 31 <= 2 ^ n)%N = (31 <= n)%N.
Proof. by rewrite leq_exp2l. Qed.
Lemma ltpow31 n : (2 ^ n < 2 ^ 31)%N = (n < 31)%N.
Proof. by rewrite ltn_exp2l. Qed.

Lemma n_acc_le max c : max != 0 -> (n_acc max c <= (trunc_log 2 c).+1)%N /\ (0 < max -> (n_acc max c < absz max)%N).
Proof.
move=> m0; rewrite /n_acc n_levelsE //; case: ltrP => mn.
  by split=> // mp; have := lt_trans mn mp; rewrite ltxx.
split; first by rewrite geq_min geq_min leqnn !orbT.
by case: max m0 mn => [[|m]|m] //= _ _ _; rewrite gtn_min subn1 /= leqnn orbT.
Qed.

Lemma shiftE max c : max != 0 -> fits max c.+1 -> is_shifted (n_acc max c) c.+1 = Ok (c.+1 == 2 ^ n_acc max c)%N.
Proof.
move=> m0 F; rewrite /is_shifted; case: ltnP => // ge31.
have [le lt] := n_acc_le c m0.
case: F => [F|/andP[mp m31]]; last first.
  have := leq_ltn_trans ge31 (lt mp); case: max m31 mp {m0 ge31 le lt} => // m; rewrite lez_nat => m31 _ /= h.
  by have := leq_trans h m31; rewrite ltnn.
have le31 : (n_acc max c <= 31)%N.
  apply: leq_trans le _; rewrite -ltpow31.
  case: (posnP c) => [->|c0]; first by rewrite trunc_log0 ltpow31.
  exact: leq_ltn_trans (trunc_logP (isT : (1 < 2)%N) c0) (ltnW F).
have E : n_acc max c = 31%N by apply/eqP; rewrite eqn_leq le31.
by rewrite E eqxx (ltn_eqF F).
Qed.

Lemma log_step s xs x : g_max s != 0 -> g_max s != 1 -> GInv s xs -> fits (g_max s) (size xs).+1 ->
  exists s', [/\ log_push s x = Ok s', g_max s' = g_max s & GInv s' (rcons xs x)].
Proof.
move=> m0 m1 [Ec EM EQ Ea Eac] F.
set c := size xs in Ec EM EQ Ea Eac F *.
have [[L1 L2 L3 L4 L5] /andP[la0 laL]] := level_step c m0 m1.
set L := n_levels (g_max s) c in EM EQ L1 L2 L3 L4 L5 la0 laL; set la := n_acc (g_max s) c in Ea Eac L1 L2 L3 L4 L5 la0 laL.
set grow := (_ && _) in L1 L2 L3 L4 L5; set more := (_ && _) in L2.
set v := logn 2 c.+1.
rewrite /log_push (negbTE m0) (negbTE m1) Ec -/c.
have S0 : S (rcons xs x) (c.+1 - 2 ^ 0) c.+1 = x by rewrite expn0 subn1 /= /S big_nat1 nth_rcons ltnn eqxx.
have := @upE xs x 0 la (leq0n v); cbv zeta; rewrite -/c S0 -Ea -Eac subn0 add0n => ->.
set k := minn v la.
set acc := [seq _ | n <- iota 0 la]; set ac := [seq _ | n <- iota 0 la].
have Sacc : size acc = la by rewrite size_map size_iota.
have Sac : size ac = la by rewrite size_map size_iota.
rewrite Sacc (shiftE m0 F) EQ size_map size_iota -/grow -/more.
set M0 := (if grow then _ else g_M s); set Q0 := (if grow then _ else _); set acc0 := (if more then _ else acc); set ac0 := (if more then _ else ac).
have SM0 : size M0 = n_levels (g_max s) c.+1.
  by rewrite L1 /M0 EM; case: (grow); rewrite ?size_rcons size_map size_iota ?addn1 ?addn0.
have SQ0 : size Q0 = size M0 by rewrite /Q0 /M0 EM; case: (grow); rewrite ?size_rcons !size_map !size_iota.
have Sacc0 : size acc0 = n_acc (g_max s) c.+1.
  by rewrite L2 /acc0; case: (more); rewrite ?size_rcons Sacc ?addn1 ?addn0.
have Sac0 : size ac0 = size acc0 by rewrite /ac0 /acc0; case: (more); rewrite ?size_rcons Sac Sacc.
have kla : (k <= la)%N by rewrite geq_minr.
have kv : (k <= v)%N by rewrite geq_minl.
have kM : (k < size M0)%N.
  rewrite SM0 L1; case: L5 => [lt|g|->]; last by rewrite addSn ltnS (leq_trans kla) // leq_addr.
    move: kla; rewrite leq_eqVlt => /orP[/eqP kE|kl]; last by apply: leq_trans (leq_trans kl laL) (leq_addr _ _).
    have dv : (2 ^ la %| c.+1)%N by rewrite dvd_v -/c -/v -kE.
    by have := dvdn_leq (ltn0Sn c) dv; rewrite leqNgt lt.
  by rewrite g addn1 ltnS (leq_trans kla).
have v_lim l : (k < l)%N -> (l < size M0)%N -> (v < l)%N.
  rewrite SM0 L1 => kl lL; rewrite ltnNge; apply/negP=> lv.
  have : (l <= k)%N by rewrite leq_min lv -ltnS (leq_trans lL).
  by rewrite leqNgt kl.
have accE n : (n < la)%N -> nth 0 acc0 n = if (n < k)%N then S (rcons xs x) (c.+1 - 2 ^ n.+1) c.+1 else A (rcons xs x) c.+1 n.
  move=> nl; rewrite /acc0 -(@nth_lev _ 0 (fun n => if (n < k)%N then S (rcons xs x) (c.+1 - 2 ^ n.+1) c.+1 else A (rcons xs x) c.+1 n) la n nl) -/acc.
  by case: (more); rewrite // nth_rcons Sacc nl.
have acE n : (n < la)%N -> nth 0%N ac0 n = if (n < k)%N then 2%N else odd (c.+1 %/ 2 ^ n) : nat.
  move=> nl; rewrite /ac0 -(@nth_lev _ 0%N (fun n => if (n < k)%N then 2%N else odd (c.+1 %/ 2 ^ n) : nat) la n nl) -/ac.
  by case: (more); rewrite // nth_rcons Sac nl.
have M0E n : (n < L)%N -> nth 0 M0 n = avg (level n xs).
  by move=> nL; rewrite /M0 EM; case: (grow); rewrite ?nth_rcons ?size_map ?size_iota ?nL nth_lev.
have Q0E n : (n < L)%N -> nth 0 Q0 n = sqdev (level n xs).
  by move=> nL; rewrite /Q0; case: (grow); rewrite ?nth_rcons ?size_map ?size_iota ?nL nth_lev.
have [|M' [Q' [acc' [ac' [-> [S1 S2 S3 S4] EM' EQ' [EA' EC']]]]]] := @downP c.+1 k M0 Q0 acc0 ac0 kM SQ0 _ Sac0.
  by rewrite Sacc0 L2 (leq_trans kla) // leq_addr.
eexists; split; [by []|by []|].
rewrite /GInv /= size_rcons -/c.
have L0 : (0 < L)%N by apply: leq_trans laL.
have l0 ys : level 0 ys = ys by rewrite /level expn0 means1.
have M00 : nth 0 M' 0 = avg xs by rewrite EM' /= M0E // l0.
have Q00 : nth 0 Q' 0 = sqdev xs by rewrite EQ' /= Q0E // l0.
have sM : (0 < size M')%N by rewrite S1 (leq_ltn_trans _ kM).
have sQ : (0 < size Q')%N by rewrite S2 (leq_ltn_trans _ kM).
have new l : (0 < l)%N -> (l < size M0)%N ->
  nth 0 M' l = avg (level l (rcons xs x)) /\ nth 0 Q' l = sqdev (level l (rcons xs x)).
  move=> lp lM; rewrite EM' EQ' lp level_rcons -/c -/v /=.
  case: (leqP l k) => lk; last first.
    have vl := v_lim l lk lM; rewrite leqNgt vl /=.
    have lL : (l < L)%N.
      move: lM; rewrite SM0 L1; case g : grow; rewrite ?addn0 // addn1 ltnS leq_eqVlt => /orP[/eqP lE|//].
      have /andP[/eqP cE _] : is_true grow by rewrite g.
      by move: vl; rewrite /v cE pfactorK // (L4 g) lE ltnn.
    by rewrite M0E // Q0E.
  have lv : (l <= v)%N := leq_trans lk kv; rewrite lv.
  have lp1 : (l.-1 < k)%N by rewrite prednK.
  have lpa : (l.-1 < la)%N := leq_trans lp1 kla. rewrite (accE _ lpa) lp1 prednK // -(level_count lv) avg_rcons sqdev_rcons.
  case: (ltnP l L) => lL; first by rewrite M0E // Q0E.
  have g : grow by move: lM lL; rewrite SM0 L1; case: (grow) => //; rewrite addn0 ltnNge => /negbTE->.
  have lE : l = L by apply/eqP; rewrite eqn_leq lL andbT; move: lM; rewrite SM0 L1 g addn1 ltnS.
  have /andP[/eqP cE _] : is_true grow by [].
  have -> : level l xs = [::].
    by apply: size0nil; rewrite size_means -/c lE divn_small // -(L4 g) -cE.
  rewrite /= /Q0 g nth_rcons size_map size_iota lE ltnn eqxx; split.
    by rewrite /avg big_nil mul0r invr1 !mulr1 subr0 add0r addrC subrK.
  by rewrite subrr !mul0r /sqdev big_nil.
have top n : (n < n_acc (g_max s) c.+1)%N -> (la <= n)%N -> more /\ n = la.
  rewrite L2; case: (more); rewrite ?addn0 ?addn1 => h1 h2; last by move: h1; rewrite ltnNge h2.
  by split=> //; apply/eqP; rewrite eqn_leq h2 andbT -ltnS.
have full : more -> v = la /\ k = la.
  case/andP=> /andP[/eqP cE _] _; have vE : v = la by rewrite /v cE pfactorK.
  by rewrite /k vE minnn.
split=> //.
- apply: (@eq_from_nth _ 0); rewrite size_set_nth (maxn_idPr sM) S1 SM0 ?size_map ?size_iota // => l lL.
  rewrite nth_lev //; case: l lL => [|l] lL; first by rewrite set_same M00 l0 avg_rcons.
  by rewrite set_other //; have [|->] := @new l.+1 isT; rewrite ?SM0.
- apply: (@eq_from_nth _ 0); rewrite size_set_nth (maxn_idPr sQ) S2 SM0 ?size_map ?size_iota // => l lL.
  rewrite nth_lev //; case: l lL => [|l] lL; first by rewrite set_same M00 Q00 l0 sqdev_rcons sqn.
  by rewrite set_other //; have [|_ ->] := @new l.+1 isT; rewrite ?SM0.
- apply: (@eq_from_nth _ 0); rewrite S3 Sacc0 ?size_map ?size_iota // => n nl; rewrite nth_lev // EA'.
  case: (ltnP n k) => nk.
    have nv : (n < v)%N := leq_trans nk kv.
    rewrite /A; have dv : (2 ^ n.+1 %| c.+1)%N by rewrite dvd_v.
    have dv' : (2 ^ n %| c.+1)%N by rewrite dvd_v ltnW.
    by rewrite mulnC divnK // mulnC divnK // /S big_geq.
  case: (ltnP n la) => nla; first by rewrite accE // ltnNge nk.
  have [mo nE] := top n nl nla; have [vE kE] := full mo.
  rewrite nE /acc0 mo nth_rcons Sacc ltnn eqxx -nth_last Sacc nth_lev ?prednK // kE ?prednK // ?leqnn ?ltn_predL ?la0.
  by have [_ [_ [E _]]] := A_at xs x; rewrite -/c -/v vE in E; rewrite E.
- apply: (@eq_from_nth _ 0%N); rewrite S4 Sacc0 ?size_map ?size_iota // => n nl; rewrite nth_lev // EC'.
  case: (ltnP n k) => nk.
    have nv : (n < v)%N := leq_trans nk kv.
    have dv : (2 ^ n.+1 %| c.+1)%N by rewrite dvd_v.
    have dv' : (2 ^ n %| c.+1)%N by rewrite dvd_v ltnW.
    by rewrite -[odd _]negbK -dvdn2 dvdn_divRL // -expnS dv.
  case: (ltnP n la) => nla; first by rewrite acE // ltnNge nk.
  have [mo nE] := top n nl nla; have [vE kE] := full mo.
  rewrite nE /ac0 mo nth_rcons Sac ltnn eqxx.
  by have [_ [_ [_ E]]] := A_at xs x; rewrite -/c -/v vE in E; rewrite E.
Qed.
End Log.
