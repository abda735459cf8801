From mathcomp Require Import all_ssreflect all_algebra.
From Verif Require Import Base FieldTac Stat.
Set Implicit Arguments.
Unset Strict Implicit.
Unset Printing Implicit Defensive.
Import GRing.Theory Num.Theory.
Local Open Scope ring_scope.

Section Proofs.
Variable C : numClosedFieldType.
Implicit Types xs : seq C.
Add Field Cfield : (Fft C).

Lemma nat_neq0 n : (0 < n)%N -> n%:R != 0 :> C.
Proof. by move=> H; rewrite pnatr_eq0 -lt0n. Qed.

Lemma mean_state xs : foldl (@mean_step C) (0%N, 0) xs = (size xs, avg xs).
Proof.
elim/last_ind: xs => [|xs x IH]; first by rewrite /avg big_nil mul0r.
rewrite foldl_rcons IH /mean_step /= size_rcons /avg -cats1 big_cat big_seq1 size_cat addn1 /=; congr (_, _).
case: (posnP (size xs)) => [E|P].
  by move/size0nil: E => ->; rewrite /= big_nil !mul0r subr0 !add0r.
have H1 := nat_neq0 P. have H2 := @nat_neq0 (size xs).+1 isT.
set S := \sum_(j <- xs) j. rewrite -[(size xs).+1]addn1 natrD mulr1n in H2 *. move: H1 H2; move: (size xs)%:R => n H1 H2.
ffield C.
Qed.
Lemma mean_loopE xs : mean_loop xs = avg xs.
Proof. by rewrite /mean_loop mean_state. Qed.

Lemma sqn (z : C) : 'Re (z^* * z) = `|z| ^+ 2.
Proof. by rewrite mulrC -normCK; apply/Creal_ReP; rewrite rpredX ?normr_real. Qed.

Lemma foldl_sum (A : Type) (g : A -> C) l z : foldl (fun e x => e + g x) z l = z + \sum_(x <- l) g x.
Proof. by elim: l z => [|a l IH] z /=; rewrite ?big_nil ?addr0 // IH big_cons addrA. Qed.

Lemma err_loopE m n xs : err_loop m n xs = (\sum_(x <- xs) `|x - m| ^+ 2) / (n * (n - 1))%:R.
Proof.
rewrite /err_loop foldl_sum add0r mulr_suml; apply: eq_bigr => x _.
rewrite [_^* * _]mulrC -normCK; apply/Creal_ReP.
by rewrite rpredM ?rpredV ?realn // rpredX ?normr_real.
Qed.

Lemma natC n : (0 < n)%N -> (n * (n - 1))%:R = n%:R * (n%:R - 1) :> C.
Proof. by move=> H; rewrite natrM natrB. Qed.

Lemma avg_scale xs : avg xs * (size xs)%:R = \sum_(x <- xs) x.
Proof.
case: (posnP (size xs)) => [/size0nil ->|P]; first by rewrite big_nil mulr0.
by rewrite /avg mulfVK // nat_neq0.
Qed.

Lemma size_flat (A : Type) (ds : seq (seq A)) : size (flatten ds) = sumn (map size ds).
Proof. by rewrite size_flatten /shape. Qed.

Lemma wmean (ds : seq (seq C)) N : N = sumn (map size ds) ->
  \sum_(d <- ds) avg d * ((size d)%:R / N%:R) = avg (flatten ds).
Proof.
move=> ->; rewrite [RHS]/avg size_flat big_flatten /= mulr_suml; apply: eq_bigr => d _.
by rewrite mulrA avg_scale.
Qed.

Lemma mean_mpiE (ds : seq (seq C)) : ~~ has (@nilp _) ds -> mean_mpi ds = Ok [seq avg (flatten ds) | d <- ds].
Proof.
move=> /negPf H; rewrite /mean_mpi H; congr (Ok _); apply: eq_map => d.
rewrite /all_reduce big_map -(wmean (erefl _)); apply: eq_bigr => d' _; by rewrite mean_loopE.
Qed.

Lemma sqdev_shift xs m : \sum_(x <- xs) `|x - m| ^+ 2 = sqdev xs + (size xs)%:R * `|avg xs - m| ^+ 2.
Proof.
rewrite /sqdev; set a := avg xs.
have Z : \sum_(x <- xs) (x - a) = 0.
  by rewrite big_split /= sumrN big_const_seq count_predT iter_addr_0 -mulr_natr avg_scale subrr.
have E x : `|x - m| ^+ 2 = `|x - a| ^+ 2 + ((x - a) * (a - m)^* + (a - m) * (x - a)^*) + `|a - m| ^+ 2.
  rewrite !normCK -[x - m](subrKA a) rmorphD /=; move: (x - a) (a - m) => u v.
  by rewrite mulrDl !mulrDr -!addrA; congr (_ + _); rewrite [u * _ + (_ + _)]addrCA !addrA.
rewrite (eq_bigr _ (fun x _ => E x)) 2!big_split /= big_const_seq count_predT iter_addr_0 mulr_natl; congr (_ + _).
rewrite [X in _ + X = _](_ : _ = 0) ?addr0 // big_split /= -mulr_suml -mulr_sumr Z mul0r add0r.
by rewrite -rmorph_sum Z rmorph0 mulr0.
Qed.

Lemma sqdev_flat (ds : seq (seq C)) m : \sum_(x <- flatten ds) `|x - m| ^+ 2 = \sum_(d <- ds) (sqdev d + (size d)%:R * `|avg d - m| ^+ 2).
Proof. by rewrite big_flatten /=; apply: eq_bigr => d _; rewrite sqdev_shift. Qed.

Lemma mqE (ds : seq (seq C)) :
  mpi_reduce_MQ [seq (avg d, sqdev d, size d) | d <- ds] = (avg (flatten ds), sqdev (flatten ds), size (flatten ds)).
Proof.
rewrite /mpi_reduce_MQ -map_comp /comp /= size_flat.
have E : all_reduce [seq p.1.1 * (p.2%:R / (sumn [seq size d | d <- ds])%:R) | p <- [seq (avg d, sqdev d, size d) | d <- ds]] = avg (flatten ds).
  by rewrite /all_reduce 2!big_map /= wmean.
rewrite E; congr (_, _, _); rewrite /all_reduce 2!big_map /= [RHS]sqdev_flat.
by apply: eq_bigr => d _; rewrite sqn.
Qed.
End Proofs.
