From mathcomp Require Import all_ssreflect all_algebra.
From Verif Require Import Base FieldTac Stat Stat_proofs Stat_jk.
Set Implicit Arguments.
Unset Strict Implicit.
Unset Printing Implicit Defensive.
Import GRing.Theory Num.Theory.
Local Open Scope ring_scope.

Section Mpi.
Variable C : numClosedFieldType.
Variable V : lmodType C.
Add Field Cfield3 : (Fft C).
Implicit Types (s a : seq V) (aa : seq (seq V)) (f : seq V -> C) (ranks : seq (seq (seq V))).

Definition joinK K ranks : seq (seq V) := [seq flatten [seq nth [::] aa k | aa <- ranks] | k <- iota 0 K].
Lemma uniform_size K ranks aa k : uniform K ranks -> aa \in ranks -> (k < K)%N -> size (nth [::] aa k) = size (head [::] aa).
Proof. by move=> /allP U /U /andP[/eqP E /allP A] L; apply/eqP/A/mem_nth; rewrite E. Qed.

Lemma size_joinK K ranks k : uniform K ranks -> (k < K)%N -> size (nth [::] (joinK K ranks) k) = total ranks.
Proof.
move=> U L; rewrite (nth_map 0%N) ?size_iota // nth_iota // add0n size_flatten /shape -map_comp.
by congr sumn; apply/eq_in_map => aa I /=; rewrite (uniform_size U I L).
Qed.
Lemma head_joinK K ranks : (0 < K)%N -> head [::] (joinK K ranks) = nth [::] (joinK K ranks) 0.
Proof. by rewrite nth0. Qed.
Lemma all_joinK K ranks a : uniform K ranks -> a \in joinK K ranks -> size a = total ranks.
Proof. by move=> U /(nthP [::]) [k L <-]; rewrite size_joinK // -(size_iota 0 K) -(size_map (fun k => flatten [seq nth [::] aa k | aa <- ranks]) (iota 0 K)). Qed.

Lemma rowE K aa i : size aa = K -> row aa i = [seq nth 0 (nth [::] aa k) i | k <- iota 0 K].
Proof. by move=> E; rewrite /row -{1}(mkseq_nth [::] aa) /mkseq E -map_comp. Qed.

Lemma rows_joinK K ranks : (0 < K)%N -> uniform K ranks -> rows (joinK K ranks) = flatten [seq rows aa | aa <- ranks].
Proof.
move=> K0; rewrite {1}/rows; elim: ranks => [|aa ranks IH] U.
  by rewrite head_joinK // size_joinK.
rewrite head_joinK // size_joinK // [total _]/= iotaD map_cat /= add0n.
have U' : uniform K ranks by move: U => /= /andP[].
have [/eqP Ea /allP Aa] : size aa == K /\ all (fun a => size a == size (head [::] aa)) aa by move: U => /= /andP[/andP[]].
rewrite -IH // head_joinK // size_joinK //; congr (_ ++ _).
  apply/eq_in_map => i; rewrite mem_iota add0n => /andP[_ L].
  rewrite (rowE _ Ea) (@rowE K) ?size_map ?size_iota //; apply/eq_in_map => k; rewrite mem_iota add0n => /andP[_ Lk].
  by rewrite (nth_map 0%N) ?size_iota // nth_iota // add0n /= nth_cat (eqP (Aa _ _)) ?L // mem_nth ?Ea.
rewrite -[X in iota X _]addn0 iotaDl -map_comp; apply/eq_in_map => i _ /=.
rewrite !(@rowE K) ?size_map ?size_iota //; apply/eq_in_map => k; rewrite mem_iota add0n => /andP[_ Lk].
rewrite !(nth_map 0%N) ?size_iota // nth_iota // add0n /= nth_cat (eqP (Aa _ _)) ?mem_nth ?Ea //.
by rewrite ltnNge leq_addr /= addKn.
Qed.

Lemma mpi_ok_joined ranks : mpi_ok ranks -> regular (joined ranks).
Proof.
case/and5P => n0 K0 U P T1; set K := size (head [::] ranks) in K0 U *.
rewrite /regular -[joined ranks]/(joinK K ranks) head_joinK // size_joinK // T1 /nilp size_map size_iota -lt0n K0 /=.
by apply/allP => a /(all_joinK U) ->.
Qed.

(** the values of f on the leave-one-out averages, rank by rank *)
Definition local_values f ranks aa : seq C :=
  [seq f (loo (total ranks) (sums (joined ranks)) r) | r <- rows aa].

Lemma resampled_joined f ranks : mpi_ok ranks -> resampled f (joined ranks) = flatten [seq local_values f ranks aa | aa <- ranks].
Proof.
move=> H; have := mpi_ok_joined H; case/and3P => _ _ /allP A; rewrite resampledE; last by move=> a /A /eqP.
case/and5P: H => n0 K0 U P T1; set K := size (head [::] ranks) in K0 U *.
rewrite -[joined ranks]/(joinK K ranks) head_joinK // size_joinK // rows_joinK // map_flatten -map_comp.
by [].
Qed.

Lemma sum_iota (A : Type) (a0 : A) (l : seq A) (h : A -> C) : \sum_(x <- l) h x = \sum_(r <- iota 0 (size l)) h (nth a0 l r).
Proof. by rewrite -[in LHS](mkseq_nth a0 l) /mkseq big_map. Qed.

Lemma mpiE junk f ranks : mpi_ok ranks ->
  let T r : C := if r == 0%N then (total ranks)%:R else junk r in
  let G r := local_values f ranks (nth [::] ranks r) in
  let M := \sum_(r <- iota 0 (size ranks)) avg (G r) * ((size (G r))%:R / T r) in
  let Q := \sum_(x <- resampled f (joined ranks)) `|x - M| ^+ 2 in
  let fd := f [seq vmean a | a <- joined ranks] in
  jackknife_mpi junk f ranks =
  Ok [seq Jk ((size (G r))%:R * (fd - M) + M) (sqrtC ((T r - 1) / T r) * sqrtC Q) M fd | r <- iota 0 (size ranks)].
Proof.
move=> H T G M Q fd; rewrite /jackknife_mpi.
have RJ := resampled_joined f H.
case/and5P: (H) => n0 K0 U P T1; set K := size (head [::] ranks) in K0 U *.
rewrite (_ : has _ _ = false); last first.
  apply/negbTE/hasPn => aa I; have := allP U _ I => /andP[/eqP E /allP A]; rewrite negb_or /nilp E -lt0n K0 /=.
  by apply/hasPn => a /A /eqP ->; rewrite -lt0n (allP P).
rewrite (_ : all _ _ = true) /=; last by apply/allP => aa I; have := allP U _ I => /andP[].
have NT k : (k < K)%N -> sumn [seq size (nth [::] aa k) | aa <- ranks] = total ranks.
  by move=> L; congr sumn; apply/eq_in_map => aa I; rewrite (uniform_size U I L).
rewrite NT // gtn_eqF //.
set N := fun r => size (head [::] (nth [::] ranks r)).
have SG r : size (G r) = N r by rewrite !size_map size_iota.
have ES : [seq N r | r <- iota 0 (size ranks)] = [seq size (head [::] aa) | aa <- ranks].
  by rewrite -[in RHS](mkseq_nth [::] ranks) /mkseq -map_comp.
pose g := fun r i => f [seq jk_at (\sum_(aa <- ranks) jk_sum (nth [::] aa k)) (sumn [seq size (nth [::] aa k) | aa <- ranks]) (nth [::] (nth [::] ranks r) k) i | k <- iota 0 K].
have Eg r : (r < size ranks)%N -> [seq g r i | i <- iota 0 (N r)] = G r.
  move=> L; have Iaa := mem_nth [::] L; have := allP U _ Iaa => /andP[/eqP E _].
  rewrite /G /local_values /rows -map_comp; apply/eq_in_map => i _ /=; rewrite /g /loo (rowE _ E); congr (f _).
  rewrite /sums /joined -/K -map_comp zip_map -map_comp; apply/eq_in_map => k; rewrite mem_iota add0n => /andP[_ Lk] /=.
  rewrite /jk_at NT //; congr (_ *: (_ - _)); rewrite big_flatten /= big_map; apply: eq_bigr => aa _; exact: jk_sumE.
have NP r : (r < size ranks)%N -> (0 < N r)%N by move=> L; apply: (allP P); exact: mem_nth.
have EM : all_reduce [seq jk_mean (g r) (N r) * ((N r)%:R / (if r == 0%N then (sumn [seq N r | r <- iota 0 (size ranks)])%:R else junk r)) | r <- iota 0 (size ranks)] = M.
  rewrite /all_reduce big_map /M big_seq [RHS]big_seq; apply: eq_bigr => r; rewrite mem_iota add0n => /andP[_ L].
  by rewrite jk_meanE ?NP // Eg // SG /T ES.
rewrite EM.
have EQ : all_reduce [seq jk_Q (g r) M (N r) | r <- iota 0 (size ranks)] = Q.
  rewrite /all_reduce big_map /Q RJ big_flatten /= big_map [RHS](sum_iota [::]).
  rewrite big_seq [RHS]big_seq; apply: eq_bigr => r; rewrite mem_iota add0n => /andP[_ L]; by rewrite jk_QE Eg.
rewrite EQ; congr (Ok _); apply/eq_in_map => r; rewrite mem_iota add0n => /andP[_ L].
rewrite SG ES -/(total ranks).
have -> : f [seq jk_average (\sum_(aa <- ranks) jk_sum (nth [::] aa k)) (sumn [seq size (nth [::] aa k) | aa <- ranks]) | k <- iota 0 K] = fd.
  rewrite /fd /joined -/K -map_comp; congr (f _); apply/eq_in_map => k; rewrite mem_iota add0n => /andP[_ Lk] /=.
  rewrite /jk_average /vmean size_flatten /shape -map_comp; congr (_^-1 *: _).
  by rewrite big_flatten /= big_map; apply: eq_bigr => aa _; exact: jk_sumE.
by [].
Qed.
End Mpi.
