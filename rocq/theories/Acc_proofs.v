(** Proofs about whole accumulators. *)
From mathcomp Require Import all_ssreflect all_algebra.
From Verif Require Import Base FieldTac Stat Stat_proofs Acc AccLin_proofs AccLog_proofs.
Set Implicit Arguments.
Unset Strict Implicit.
Unset Printing Implicit Defensive.
Import Order.TTheory GRing.Theory Num.Theory.
Local Open Scope ring_scope.

Section Acc.
Variable C : numClosedFieldType.
Variable moved : C.
Implicit Types (xs : seq C) (h : seq (op C)).

(** what the logarithmic part holds *)
Definition log_ok (max : int) xs (g : log C) : Prop :=
  [/\ g_max g = max, g_M g = [seq avg (level n xs) | n <- iota 0 (n_levels max (size xs))],
      g_Q g = [seq sqdev (level n xs) | n <- iota 0 (n_levels max (size xs))] & max != 0 -> g_count g = size xs].

Lemma n_levels1 c : n_levels 1 c = 1%N.
Proof. by rewrite n_levelsE //= (minn_idPl _). Qed.

(** the invariant for every maximum *)
Definition LInv (max : int) xs (g : log C) : Prop :=
  g_max g = max /\
  if max == 0 then g = log_init C 0
  else if max == 1 then [/\ g_count g = size xs, g_M g = [:: avg xs] & g_Q g = [:: sqdev xs]]
  else GInv g xs.

Lemma LInv_init max : LInv max [::] (log_init C max).
Proof.
rewrite /LInv /log_init; case: eqP => [->|/eqP m0] //=; split=> //.
case: eqP => [_|/eqP m1] //=; first by rewrite /avg /sqdev !big_nil mul0r.
rewrite /GInv /=.
have E1 : n_levels max 0 = 1%N.
  rewrite n_levelsE // trunc_log0; case: ltrP => // mp; apply/minn_idPr.
  by case: max m0 m1 mp => [[|m]|m].
have E2 : n_acc max 0 = 1%N.
  rewrite /n_acc E1; case: ltrP => // mp; apply/minn_idPl.
  by case: max m0 m1 mp {E1} => [[|[|m]]|m].
rewrite E1 E2 /=; split=> //=.
- by rewrite /avg big_nil mul0r.
- by rewrite /sqdev big_nil.
- by rewrite /A /S div0n !muln0 big_geq.
Qed.

Lemma LInv_step max xs g x : LInv max xs g -> fits max (size xs).+1 -> exists g', log_push g x = Ok g' /\ LInv max (rcons xs x) g'.
Proof.
rewrite /LInv => -[Em]; case: eqP => [m0|/eqP m0].
  by move=> -> _; exists (log_init C 0); rewrite /log_push eqxx /= m0.
case: eqP => [m1 [Ec EM EQ] _|/eqP m1 G F].
  rewrite /log_push Em (negbTE m0) m1 eqxx; eexists; split; first by [].
  split=> //=; rewrite EM EQ Ec size_rcons /=; split=> //; first by rewrite avg_rcons.
  by rewrite sqdev_rcons sqn.
rewrite -Em in m0 m1 F *; have [g' [-> Em' G']] := @log_step C g xs x m0 m1 G F.
by exists g'; rewrite Em'.
Qed.

Lemma LInv_ok max xs g : LInv max xs g -> log_ok max xs g.
Proof.
case=> Em; rewrite /log_ok Em; case: eqP => [-> ->|/eqP m0]; first by rewrite /n_levels eqxx.
case: eqP => [->|/eqP m1].
  by case=> Ec EM EQ; rewrite n_levels1 /= EM EQ /level expn0 means1.
by case=> Ec EM EQ _ _; rewrite EM EQ Em; split.
Qed.

Lemma fits_mono max m n : (m <= n)%N -> fits max n -> fits max m.
Proof. by move=> mn [lt|F]; [left; apply: leq_ltn_trans lt | right]. Qed.

Lemma data_cat h1 h2 : data (h1 ++ h2) = data h1 ++ data h2.
Proof. by elim: h1 => [|[x|f] h1 IH] //=; rewrite IH. Qed.

Lemma run_ok max xs h a : LInv max xs (a_log a) -> a_count a = size xs -> fits max (size (xs ++ data h)) ->
  exists a', [/\ run moved h a = Ok a', LInv max (xs ++ data h) (a_log a') & a_count a' = size (xs ++ data h)].
Proof.
elim: h xs a => [|[x|f] h IH] xs a I Ea F /=; first by exists a; rewrite cats0 in F *.
  have F' : fits max (size xs).+1.
    by apply: fits_mono F; rewrite size_cat /= addnS ltnS leq_addr.
  have [g' [E I']] := LInv_step x I F'; rewrite /acc_push E.
  rewrite /= -cat_rcons in F *; apply: IH => //=; by rewrite size_rcons Ea.
exact: IH.
Qed.

Lemma run_log max nlin cap h : fits max (size (data h)) ->
  exists a, [/\ run moved h (acc_init C max nlin cap) = Ok a, log_ok max (data h) (a_log a) & a_count a = size (data h)].
Proof.
move=> F; have [a [E I Ea]] := @run_ok max [::] h (acc_init C max nlin cap) (LInv_init max) erefl F.
by exists a; split=> //; apply: LInv_ok.
Qed.
Lemma run_log' max nlin cap h a : fits max (size (data h)) -> run moved h (acc_init C max nlin cap) = Ok a ->
  log_ok max (data h) (a_log a) /\ a_count a = size (data h).
Proof. by move=> F E; have [a' []] := run_log nlin cap F; rewrite E => -[<-]. Qed.

(** ---- standard errors ---- *)
Definition err ys : C := if (size ys <= 1)%N then 0 else std_err ys.

Lemma errE ys c q : c = size ys -> q = sqdev ys -> (if (c <= 1)%N then 0 else sqrtC (q / (c * (c - 1))%:R)) = err ys.
Proof. by move=> -> ->; rewrite /err; case: leqP => // s1; rewrite natC // ltnW. Qed.

Lemma errors_proof max xs a : log_ok max xs (a_log a) ->
  log_bin_errors a = ([seq err (level n xs) | n <- iota 0 (n_levels max (size xs))], [seq size (level n xs) | n <- iota 0 (n_levels max (size xs))]).
Proof.
case=> _ _ EQ Ec; rewrite /log_bin_errors EQ size_map size_iota.
case: (eqVneq max 0) => [->|m0]; first by rewrite /n_levels eqxx.
have En n : (g_count (a_log a) %/ 2 ^ n)%N = size (level n xs) by rewrite Ec // size_means.
congr (_, _); last by apply: eq_map => n; rewrite En.
apply/eq_in_map=> n; rewrite mem_iota add0n => /= nL; rewrite !nth_lev //.
exact: errE.
Qed.

Lemma all_reduce_proof max (ps : seq (accumulator C * seq C)) : List.Forall (fun p => log_ok max p.2 (a_log p.1)) ps ->
  let levels := foldr maxn 0%N [seq n_levels max (size p.2) | p <- ps] in
  let pooled n := flatten [seq level n p.2 | p <- ps & (n < n_levels max (size p.2))%N] in
  log_bin_errors_all_reduce [seq p.1 | p <- ps] = ([seq err (pooled n) | n <- iota 0 levels], [seq size (pooled n) | n <- iota 0 levels]).
Proof.
move=> H levels pooled; rewrite /log_bin_errors_all_reduce.
have Em : foldr maxn 0%N [seq size (g_Q (a_log a)) | a <- [seq p.1 | p <- ps]] = levels.
  rewrite /levels; elim: ps H {levels pooled} => //= p ps IH H; inversion_clear H as [|? ? Hp Hps].
  by rewrite IH //; case: Hp => _ _ -> _; rewrite size_map size_iota.
rewrite Em.
have Er n : mpi_reduce_MQ [seq (nth 0 (g_M (a_log a)) n, nth 0 (g_Q (a_log a)) n, (g_count (a_log a) %/ 2 ^ n)%N)
                                | a <- [seq p.1 | p <- ps] & (n < size (g_Q (a_log a)))%N] = (avg (pooled n), sqdev (pooled n), size (pooled n)).
  rewrite /pooled -mqE; congr mpi_reduce_MQ; rewrite -!map_comp.
  elim: ps H {levels pooled Em} => //= p ps IH H; inversion_clear H as [|? ? Hp Hps].
  case: Hp => _ EM EQ Ec; rewrite EQ size_map size_iota.
  case: ifP => // nL; last exact: IH.
  rewrite /= -IH // EM EQ !nth_lev // Ec ?size_means //.
  by apply: contraL nL => /eqP->; rewrite /n_levels eqxx.
congr (_, _); apply: eq_map => n; rewrite Er //.
exact: errE.
Qed.

(** ---- the datum number 2^31 ---- *)
Lemma tl_pred n m : m.+1 = (2 ^ n.+1)%N -> trunc_log 2 m = n.
Proof.
move=> E; have : (m < 2 ^ (trunc_log 2 m).+1)%N by rewrite trunc_log_ltn.
rewrite E leq_exp2l // ltnS => le; apply/eqP; rewrite eqn_leq le andbT.
case: (posnP m) => [->|m0]; first by rewrite trunc_log0.
by rewrite -ltnS -(@ltn_exp2l 2) // -E ltnS; apply: trunc_logP.
Qed.
Lemma down_ub cnt l : foldl (@down_step C cnt) UB l = UB.
Proof. by elim: l. Qed.
Lemma shift31 n : is_shifted 31 n = Ok false.
Proof. by []. Qed.

Lemma stuck K max xs x g : max < 0 \/ (K.+1)%:Z < max -> (size xs).+1 = (2 ^ K.+1)%N -> is_shifted K.+1 (size xs).+1 = Ok false ->
  LInv max xs g -> log_push g x = UB.
Proof.
move=> Hm Sx1 Sh [Em]; have m0 : max != 0 by case: Hm; case: (max) => [[]|].
have m1 : max != 1 by case: Hm; case: (max) => [[|[]]|].
rewrite (negbTE m0) (negbTE m1) => -[Ec EM EQ Ea Eac].
have tl := tl_pred Sx1.
have EL : n_levels max (size xs) = K.+1.
  rewrite n_levelsE // tl; case: Hm => [->//|Km].
  case: ltrP => // mp; apply/minn_idPr; case: (max) Km mp => // m; rewrite ltz_nat => Km _; exact: ltnW.
have Ela : n_acc max (size xs) = K.+1.
  rewrite /n_acc EL; case: Hm => [->//|Km].
  case: ltrP => // mp; apply/minn_idPl; case: (max) Km mp => // m; rewrite ltz_nat => Km _ /=.
  by rewrite subn1 -ltnS prednK // (leq_trans _ Km).
rewrite Em EL in EM EQ; rewrite Em Ela in Ea Eac.
have vE : logn 2 (size xs).+1 = K.+1 by rewrite Sx1 pfactorK.
rewrite /log_push Em (negbTE m0) (negbTE m1) Ec.
have S0 : S (rcons xs x) ((size xs).+1 - 2 ^ 0) (size xs).+1 = x by rewrite expn0 subn1 /= /S big_nat1 nth_rcons ltnn eqxx.
have := @upE C xs x 0 K.+1 (leq0n _); cbv zeta; rewrite S0 -Ea -Eac subn0 add0n vE minnn => ->.
rewrite size_map size_iota Sh /= EM.
have -> : rev (iota 0 K.+1) = K :: rev (iota 0 K) by rewrite -[K.+1]addn1 iotaD rev_cat.
by rewrite -/(iota 0 K.+1) /= size_map size_iota leqnn down_ub.
Qed.

Lemma run_cat h1 h2 a a1 : run moved h1 a = Ok a1 -> run moved (h1 ++ h2) a = run moved h2 a1.
Proof.
elim: h1 a => [|[x|f] h1 IH] a /=; first by case=> ->.
  by case: acc_push => // a'; apply: IH.
exact: IH.
Qed.

Lemma overflow_proof max nlin cap xs : max < 0 \/ 31 < max -> size xs = (2 ^ 31)%N ->
  run moved (map (@Push C) xs) (acc_init C max nlin cap) = UB.
Proof.
move=> Hm; case/lastP: xs => [|xs x] Sx.
  by have := expn_gt0 2 31; rewrite -Sx.
rewrite size_rcons in Sx.
have D : data (map (@Push C) xs) = xs by elim: (xs) => //= y ys ->.
have F : fits max (size (data (map (@Push C) xs))) by left; rewrite D -Sx.
have [a [E I Ea]] := @run_ok max [::] (map (@Push C) xs) (acc_init C max nlin cap) (LInv_init max) erefl F.
rewrite map_rcons -cats1 (run_cat _ E) /= /acc_push (stuck x Hm Sx (shift31 _)) //.
by rewrite D in I.
Qed.

(** ---- archives ---- *)
Definition strip (s : lin C) : lin C := Lin (l_max s) (l_cap s) (l_last s) (l_bins s) 0.

Lemma strip_compress f s : strip (compress moved f s) = compress moved f (strip s).
Proof. by rewrite /compress /=; case: ifP. Qed.
Lemma strip_push s t x : strip s = strip t -> strip (lin_push moved s x) = strip (lin_push moved t x).
Proof.
have H (u : lin C) : strip (lin_push moved u x) = strip (lin_push moved (strip u) x).
  have P (w : lin C) : strip (put w x) = strip (put (strip w) x) by rewrite /put /=; case: ifP.
  case E: (l_max u == 0); first by rewrite /lin_push /= E.
  rewrite !push_putE ?E //= P; symmetry; rewrite P; congr (strip (put _ _)).
  by case: ifP => // _; rewrite !strip_compress.
by move=> E; rewrite H E -H.
Qed.

Lemma continue_proof h a b a' b' : a_log a = a_log b -> a_count a = a_count b -> strip (a_lin a) = strip (a_lin b) ->
  run moved h a = Ok a' -> run moved h b = Ok b' -> [/\ a_log a' = a_log b', a_count a' = a_count b' & strip (a_lin a') = strip (a_lin b')].
Proof.
elim: h a b => [|[x|f] h IH] a b El Ec Es /=.
- by case=> <- [<-].
- by rewrite /acc_push El; case: log_push => // g; apply: IH => /=; rewrite ?Ec //; apply: strip_push.
- by apply: IH => //=; rewrite !strip_compress Es.
Qed.
Lemma continue_ub h a b : a_log a = a_log b -> (forall e, run moved h a = Ok e -> exists e', run moved h b = Ok e').
Proof.
elim: h a b => [|[x|f] h IH] a b El e /=; first by exists b.
- rewrite /acc_push -El; case: log_push => // g; exact: IH.
- exact: IH.
Qed.
End Acc.
