From mathcomp Require Import all_ssreflect all_algebra.
From Verif Require Import Base FieldTac Stat Stat_proofs.
Set Implicit Arguments.
Unset Strict Implicit.
Unset Printing Implicit Defensive.
Import GRing.Theory Num.Theory.
Local Open Scope ring_scope.

Section Jk.
Variable C : numClosedFieldType.
Variable V : lmodType C.
Add Field Cfield2 : (Fft C).
Implicit Types (s a : seq V) (aa : seq (seq V)) (f : seq V -> C).

Lemma avg_rcons (xs : seq C) x : avg (rcons xs x) = avg xs + (x - avg xs) / (size xs).+1%:R.
Proof. by have := mean_state (rcons xs x); rewrite foldl_rcons mean_state => -[_ <-]. Qed.

Lemma jk_meanE (g : nat -> C) N : (0 < N)%N -> jk_mean g N = avg [seq g i | i <- iota 0 N].
Proof.
case: N => // k _; rewrite /jk_mean subn1 [k.+1.-1]/=.
elim: k => [|k IH]; first by rewrite /= /avg big_seq1 divr1.
have R m n : iota m n.+1 = rcons (iota m n) (m + n)%N by rewrite -addn1 iotaD cats1.
rewrite (R 1%N k) foldl_rcons {}IH (R 0%N k.+1) map_rcons avg_rcons size_map size_iota.
by rewrite add0n add1n.
Qed.
Lemma jk_QE (g : nat -> C) M N : jk_Q g M N = \sum_(x <- [seq g i | i <- iota 0 N]) `|x - M| ^+ 2.
Proof. by rewrite /jk_Q foldl_sum add0r big_map. Qed.

Lemma foldl_addr s z : foldl +%R z s = z + \sum_(x <- s) x :> V.
Proof. by elim: s z => [|x s IH] z /=; rewrite ?big_nil ?addr0 // IH big_cons addrA. Qed.
Lemma jk_sumE s : jk_sum s = \sum_(x <- s) x.
Proof. by case: s => [|x s]; rewrite /jk_sum /= ?big_nil // foldl_addr big_cons. Qed.

Lemma leaveE i s : (i < size s)%N -> vmean (leave_out i s) = (size s - 1)%:R^-1 *: (\sum_(x <- s) x - nth 0 s i).
Proof.
move=> H; rewrite /vmean /leave_out size_cat size_take H size_drop.
have -> : (i + (size s - i.+1) = size s - 1)%N by rewrite subnS addnC -subn1 addnBAC ?subn_gt0 // subnK // ltnW.
congr (_ *: _); rewrite -[in X in _ = X - _](cat_take_drop i s) !big_cat /= (drop_nth 0 H) big_cons.
by rewrite addrCA [RHS]addrC addKr.
Qed.

Definition loo (n : nat) (sums r : seq V) : seq V := [seq (n - 1)%:R^-1 *: (p.1 - p.2) | p <- zip sums r].

Definition sums aa : seq V := [seq \sum_(x <- a) x | a <- aa].
Lemma resampledE f aa : (forall a, a \in aa -> size a = size (head [::] aa)) ->
  resampled f aa = [seq f (loo (size (head [::] aa)) (sums aa) r) | r <- rows aa].
Proof.
move=> H; rewrite /resampled /rows -map_comp; apply/eq_in_map => i; rewrite mem_iota add0n => /andP[_ L] /=; congr (f _).
rewrite /loo /sums /row zip_map -map_comp; apply/eq_in_map => a Ia /=.
by rewrite leaveE H.
Qed.

Lemma regular_nil aa : regular aa -> nilp aa || has (@nilp _) aa = false.
Proof.
move=> /and3P[/negPf -> L /allP A] /=; apply/negbTE/hasPn => a /A /eqP E.
by rewrite /nilp E -lt0n ltnW.
Qed.

Lemma jackknifeE f aa : regular aa -> jackknife f aa = Ok (jk_spec f aa).
Proof.
move=> R; rewrite /jackknife (regular_nil R); case/and3P: R => Hn L A; rewrite A /= gtn_eqF //.
have S a : a \in aa -> size a = size (head [::] aa) by move/(allP A)/eqP.
set N := size (head [::] aa) in L S *; congr (Ok _); rewrite /jk_spec -/N.
have E : [seq f [seq jk_at (jk_sum a) (size a) a i | a <- aa] | i <- iota 0 N] = resampled f aa.
  apply/eq_in_map => i; rewrite mem_iota add0n => /andP[_ Li]; congr (f _); apply/eq_in_map => a Ia.
  by rewrite /jk_at jk_sumE leaveE // S.
have Ea : [seq jk_average (jk_sum a) (size a) | a <- aa] = [seq vmean a | a <- aa].
  by apply/eq_in_map => a Ia; rewrite /jk_average jk_sumE.
rewrite jk_meanE ?(ltnW L) // jk_QE E Ea; set M := avg _; set fa := f _.
have N0 : N%:R != 0 :> C by rewrite nat_neq0 // ltnW.
have P : 0 <= \sum_(x <- resampled f aa) `|x - M| ^+ 2 by rewrite sumr_ge0 // => x _; rewrite exprn_ge0.
congr Jk; first by move: N%:R N0 => n _; fring C.
rewrite -sqrtCM ?qualifE ?divr_ge0 ?ler0n // -/(sqdev _) natrB ?(ltnW L) // mulrAC -mulrA; congr (sqrtC _).
Qed.

(** ---- linear f ---- *)
Definition comb aa (w : nat -> C) (l : seq nat) : seq V := [seq \sum_(i <- l) w i *: nth 0 a i | a <- aa].

Lemma lin_comb f aa w l : lin (size aa) f -> f (comb aa w l) = \sum_(i <- l) w i * f (row aa i).
Proof.
move=> L; elim: l => [|i l IH].
  rewrite big_nil; have := L (-1) (row aa 0) (row aa 0) (size_map _ _) (size_map _ _).
  rewrite mulN1r addNr => <-; congr (f _); rewrite /comb /row zip_map -map_comp; apply/eq_map => a /=.
  by rewrite big_nil scaleN1r addNr.
rewrite big_cons -IH -L ?size_map //; congr (f _); rewrite /comb /row zip_map -map_comp; apply/eq_map => a /=.
by rewrite big_cons.
Qed.

Lemma vmean_comb aa : (forall a, a \in aa -> size a = size (head [::] aa)) ->
  [seq vmean a | a <- aa] = comb aa (fun=> (size (head [::] aa))%:R^-1) (iota 0 (size (head [::] aa))).
Proof.
move=> S; apply/eq_in_map => a Ia; rewrite /vmean S // scaler_sumr -(S a Ia).
by rewrite -[X in \sum_(i <- X) _](mkseq_nth 0 a) /mkseq big_map.
Qed.
Lemma vsum_nth a : \sum_(x <- a) x = \sum_(i <- iota 0 (size a)) nth 0 a i.
Proof. by rewrite -[X in \sum_(i <- X) _](mkseq_nth 0 a) /mkseq big_map. Qed.
Lemma loo_comb aa i : (forall a, a \in aa -> size a = size (head [::] aa)) -> (i < size (head [::] aa))%N ->
  [seq vmean (leave_out i a) | a <- aa] =
  comb aa (fun j => (j != i)%:R / (size (head [::] aa) - 1)%:R) (iota 0 (size (head [::] aa))).
Proof.
move=> S L; apply/eq_in_map => a Ia; rewrite leaveE S // vsum_nth S //.
set N := size _ in L *; rewrite (bigD1_seq i) ?iota_uniq ?mem_iota //= addrC addKr scaler_sumr.
rewrite [RHS](bigD1_seq i) ?iota_uniq ?mem_iota //= eqxx mul0r scale0r add0r; apply: eq_bigr => j ->.
by rewrite mul1r.
Qed.
Lemma loo_sum (u : nat -> C) N i : (i < N)%N ->
  \sum_(j <- iota 0 N) (j != i)%:R / (N - 1)%:R * u j = (\sum_(j <- iota 0 N) u j - u i) / (N - 1)%:R.
Proof.
move=> L; rewrite [in RHS](bigD1_seq i) ?iota_uniq ?mem_iota //= addrC addKr mulr_suml.
rewrite [LHS](bigD1_seq i) ?iota_uniq ?mem_iota //= eqxx !mul0r add0r; apply: eq_bigr => j ->.
by rewrite mul1r mulrC.
Qed.

Lemma jk_linear f aa : regular aa -> lin (size aa) f ->
  let ys := [seq f r | r <- rows aa] in
  jackknife f aa = Ok (Jk (avg ys) (std_err ys) (avg ys) (avg ys)).
Proof.
move=> R L ys; rewrite jackknifeE //; case/and3P: R => Hn L1 /allP A.
have S a : a \in aa -> size a = size (head [::] aa) by move/A/eqP.
set N := size (head [::] aa) in L1 S *; congr (Ok _); rewrite /jk_spec -/N.
have sy : size ys = N by rewrite !size_map size_iota.
have sumy : \sum_(y <- ys) y = \sum_(i <- iota 0 N) f (row aa i) by rewrite 2!big_map.
have N0 : N%:R != 0 :> C by rewrite nat_neq0 // ltnW.
have N1 : N%:R - 1 != 0 :> C by rewrite -[X in _ - X]/(1%:R) -natrB ?(ltnW L1) // nat_neq0 // subn_gt0.
have Ed : f [seq vmean a | a <- aa] = avg ys.
  by rewrite vmean_comb // lin_comb // /avg sy sumy mulrC mulr_sumr.
have Er : resampled f aa = [seq (N%:R * avg ys - y) / (N%:R - 1) | y <- ys].
  have -> : N%:R * avg ys = \sum_(j <- iota 0 N) f (row aa j) by rewrite mulrC -sumy -avg_scale sy.
  rewrite /ys /rows -2!map_comp /resampled; apply/eq_in_map => i; rewrite mem_iota add0n => /andP[_ Li] /=.
  by rewrite loo_comb // lin_comb // loo_sum // natrB ?(ltnW L1).
have EM : avg (resampled f aa) = avg ys.
  rewrite Er {1}/avg size_map sy big_map -mulr_suml sumrB big_const_seq count_predT iter_addr_0 sy.
  rewrite -[in X in (_ - X)]avg_scale sy -mulr_natr; move: (avg ys) => m; move: N0 N1; move: (N%:R : C) => n N0 N1; ffield C.
have EQ : sqdev (resampled f aa) = sqdev ys / (N%:R - 1) ^+ 2.
  rewrite /sqdev EM Er big_map mulr_suml; apply: eq_bigr => y _.
  have -> : (N%:R * avg ys - y) / (N%:R - 1) - avg ys = (avg ys - y) / (N%:R - 1).
    by move: (avg ys) => m; move: N1; move: (N%:R : C) => n N1; ffield C.
  rewrite normrM exprMn distrC normfV exprVn [`|N%:R - 1| ^+ 2]real_normK //.
  by rewrite realB ?realn ?real1.
rewrite Ed EM EQ; congr Jk; first by move: (avg ys) (N%:R : C) => m n; fring C.
rewrite /std_err sy; congr (sqrtC _); move: (sqdev ys) => q; rewrite expr2.
by move: N0 N1; move: (N%:R : C) => n N0 N1; ffield C.
Qed.

(** ---- f of degree at most two ---- *)
Lemma size_comb aa w l : size (comb aa w l) = size aa.
Proof. by rewrite size_map. Qed.

Lemma jk_quadratic c L B f aa : regular aa -> quad (size aa) c L B f ->
  let N := size (head [::] aa) in
  exists r, jackknife f aa = Ok r /\
  jk_avg r = c + avg [seq L u | u <- rows aa]
    + (\sum_(i <- iota 0 N) \sum_(j <- iota 0 N | j != i) B (row aa i) (row aa j)) / (N%:R * (N%:R - 1)).
Proof.
move=> R [HL HB1 HB2 Hf] N; exists (jk_spec f aa); split; first exact: jackknifeE.
case/and3P: R => Hn L1 /allP A; rewrite -/N in L1.
have S a : a \in aa -> size a = size (head [::] aa) by move/A/eqP.
have N0 : N%:R != 0 :> C by rewrite nat_neq0 // ltnW.
have N1 : N%:R - 1 != 0 :> C by rewrite -[X in _ - X]/(1%:R) -natrB ?(ltnW L1) // nat_neq0 // subn_gt0.
set l := iota 0 N; set b := fun i j => B (row aa i) (row aa j).
have BC w w' : B (comb aa w l) (comb aa w' l) = \sum_(i <- l) \sum_(j <- l) w i * (w' j * b i j).
  rewrite (lin_comb _ _ (HB1 _ (size_comb _ _ _))) exchange_big /=.
  apply: eq_bigr => j _; rewrite (@lin_comb (B ^~ (row aa j))); last by apply: HB2; rewrite size_map.
  by rewrite mulr_sumr; apply: eq_bigr => i _; rewrite mulrCA.
pose T := \sum_(i <- l) \sum_(j <- l) b i j.
pose D := \sum_(i <- l) b i i.
pose SL := \sum_(i <- l) L (row aa i).
have ET : \sum_(i <- l) \sum_(j <- l | j != i) B (row aa i) (row aa j) = T - D.
  rewrite -sumrB big_seq [RHS]big_seq; apply: eq_bigr => i Hi.
  by rewrite [in RHS](bigD1_seq i) ?iota_uniq //= addrC addKr.
have fd : f [seq vmean a | a <- aa] = c + SL / N%:R + T / N%:R ^+ 2.
  rewrite Hf ?size_map // vmean_comb // -/N (lin_comb _ _ HL) BC; congr (_ + _ + _).
    by rewrite mulr_suml; apply: eq_bigr => i _; rewrite mulrC.
  rewrite expr2 invfM mulrC mulr_sumr; apply: eq_bigr => i _; rewrite mulr_sumr; apply: eq_bigr => j _.
  by rewrite mulrA.
have fr i : (i < N)%N -> f [seq vmean (leave_out i a) | a <- aa] =
    c + (SL - L (row aa i)) / (N%:R - 1) +
    (T - \sum_(j <- l) b i j - (\sum_(j <- l) b j i - b i i)) / (N%:R - 1) ^+ 2.
  move=> Hi; rewrite Hf ?size_map // loo_comb // -/N (lin_comb _ _ HL) BC loo_sum // -/SL.
  have EN : (N - 1)%:R = N%:R - 1 :> C by rewrite natrB // ltnW.
  rewrite EN; congr (_ + _ + _).
  have E1 k : \sum_(j <- l) (k != i)%:R / (N%:R - 1) * ((j != i)%:R / (N%:R - 1) * b k j) =
              (k != i)%:R / (N%:R - 1) * ((\sum_(j <- l) b k j - b k i) / (N%:R - 1)).
    by rewrite -mulr_sumr -EN loo_sum.
  rewrite (eq_bigr _ (fun k _ => E1 k)).
  rewrite -{1}EN loo_sum // EN expr2 -mulr_suml sumrB -/T.
  by move: (\sum_(i0 <- _) b i0 i) (\sum_(j <- _) b i j) (b i i) => u v w; move: (T) N1; move: (N%:R : C) => n t N1; ffield C.
rewrite /jk_spec /= -/N fd.
have EM : avg (resampled f aa) = c + SL / N%:R + (N%:R * T - T - T + D) / (N%:R - 1) ^+ 2 / N%:R.
  rewrite /avg size_map size_iota big_map -/N -/l.
  have -> : \sum_(i <- l) f [seq vmean (leave_out i a) | a <- aa] =
     \sum_(i <- l) (c + (SL - L (row aa i)) / (N%:R - 1) +
       (T - \sum_(j <- l) b i j - (\sum_(j <- l) b j i - b i i)) / (N%:R - 1) ^+ 2).
    by rewrite big_seq [RHS]big_seq; apply: eq_bigr => i; rewrite mem_iota add0n => /andP[_ Hi]; exact: fr.
  rewrite 2!big_split /= -2!mulr_suml !sumrB -/T -/D -/SL.
  have -> : \sum_(i <- l) \sum_(j <- l) b j i = T by rewrite exchange_big.
  rewrite !big_const_seq !count_predT !iter_addr_0 size_iota -[c *+ N]mulr_natl -[SL *+ N]mulr_natl -[T *+ N]mulr_natl.
  move: (T) (D) (SL) => t d sl; rewrite expr2; move: N0 N1; move: (N%:R : C) => n N0 N1; ffield C.
rewrite EM ET; have -> : avg [seq L u | u <- rows aa] = SL / N%:R.
  by rewrite /avg !size_map size_iota 2!big_map.
move: (T) (D) (SL) => t d sl; rewrite !expr2; move: N0 N1; move: (N%:R : C) => n N0 N1; ffield C.
Qed.
End Jk.
