From mathcomp Require Import all_ssreflect all_algebra.
From Verif Require Import Base FieldTac Stat Stat_proofs Stat_jk Stat_mpi.
Set Implicit Arguments.
Unset Strict Implicit.
Unset Printing Implicit Defensive.
Import GRing.Theory Num.Theory.
Local Open Scope ring_scope.

Section Final.
Variable C : numClosedFieldType.
Implicit Types xs ys : seq C.
Add Field Cfield4 : (Fft C).

Lemma mean_proof xs : xs != [::] -> mean xs = Ok (avg xs).
Proof. by case: xs => // x xs _; rewrite /mean mean_loopE. Qed.
Lemma errE xs : (1 < size xs)%N -> sqrtC (err_loop (avg xs) (size xs) xs) = std_err xs.
Proof. by move=> H; rewrite err_loopE natC // ltnW. Qed.
Lemma mean_and_err_proof xs : (1 < size xs)%N -> mean_and_err xs = Ok (avg xs, Some (std_err xs)).
Proof. by case: xs => // x xs H; rewrite /mean_and_err gtn_eqF // mean_loopE errE. Qed.
Lemma mean_and_err_single (x : C) : mean_and_err [:: x] = Ok (x, None).
Proof. by rewrite /mean_and_err /= mean_loopE /avg big_seq1 divr1. Qed.
Lemma avg_perm xs ys : perm_eq xs ys -> avg xs = avg ys.
Proof. by move=> H; rewrite /avg (perm_size H) (perm_big _ H). Qed.
Lemma order_proof xs ys : perm_eq xs ys -> mean xs = mean ys /\ mean_and_err xs = mean_and_err ys.
Proof.
move=> H; have S := perm_size H; have A := avg_perm H.
case: xs ys H S A => [|x xs] [|y ys] // H S A; split; first by rewrite /mean !mean_loopE A.
rewrite /mean_and_err S !mean_loopE A; case: eqP => // _; congr (Ok (_, Some (sqrtC _))).
by rewrite !err_loopE (perm_big _ H).
Qed.
Lemma zip_const (A B : Type) (c : A) (l : seq B) : zip [seq c | _ <- l] l = [seq (c, x) | x <- l].
Proof. by elim: l => //= x l ->. Qed.
Lemma mpi_proof (ds : seq (seq C)) : ~~ has (@nilp _) ds -> (1 < size (flatten ds))%N ->
  mean_mpi ds = Ok [seq avg (flatten ds) | _ <- ds] /\
  mean_and_err_mpi ds = Ok [seq (avg (flatten ds), Some (std_err (flatten ds))) | _ <- ds].
Proof.
move=> H L; rewrite /mean_and_err_mpi mean_mpiE //; split=> //.
rewrite size_flat in L; rewrite gtn_eqF // -map_comp; congr (Ok _); apply: eq_map => d /=; congr (_, Some (sqrtC _)).
rewrite /all_reduce zip_const 2!big_map /=.
have -> : \sum_(d <- ds) err_loop (avg (flatten ds)) (sumn [seq size i | i <- ds]) d =
  (\sum_(x <- flatten ds) `|x - avg (flatten ds)| ^+ 2) / (size (flatten ds) * (size (flatten ds) - 1))%:R.
  by rewrite big_flatten /= mulr_suml; apply: eq_bigr => d' _; rewrite err_loopE size_flat.
by rewrite natC // size_flat ltnW.
Qed.

Variable V : lmodType C.
Implicit Types (f : seq V -> C) (ranks : seq (seq (seq V))).

Lemma direct_proof junk f ranks rs : mpi_ok ranks -> jackknife_mpi junk f ranks = Ok rs ->
  size rs = size ranks /\ forall r d, (r < size rs)%N -> jk_direct (nth d rs r) = jk_direct (jk_spec f (joined ranks)).
Proof.
move=> H; rewrite mpiE // => -[<-]; rewrite size_map size_iota; split=> // r d L.
by rewrite (nth_map 0%N) ?size_iota.
Qed.

Lemma map_nth_iota (A B : Type) (a0 : A) (h : A -> B) (l : seq A) : [seq h x | x <- l] = [seq h (nth a0 l r) | r <- iota 0 (size l)].
Proof. by rewrite -[in LHS](mkseq_nth a0 l) /mkseq -map_comp. Qed.

Lemma delivered_proof junk f ranks : mpi_ok ranks -> (forall r, junk r = (total ranks)%:R) ->
  let S := jk_spec f (joined ranks) in
  jackknife_mpi junk f ranks =
  Ok [seq Jk ((size (head [::] aa))%:R * (jk_direct S - jk_M S) + jk_M S) (jk_err S) (jk_M S) (jk_direct S) | aa <- ranks].
Proof.
move=> H J S; rewrite mpiE //; have RJ := resampled_joined f H; have R := mpi_ok_joined H.
have ST : size (head [::] (joined ranks)) = total ranks.
  case/and5P: H => n0 K0 U P T1; rewrite -[joined ranks]/(joinK (size (head [::] ranks)) ranks) head_joinK //; exact: size_joinK.
pose G aa := local_values f ranks aa.
have SG aa : size (G aa) = size (head [::] aa) by rewrite !size_map size_iota.
have EM : \sum_(r <- iota 0 (size ranks)) avg (G (nth [::] ranks r)) * ((size (G (nth [::] ranks r)))%:R /
   (if r == 0%N then (total ranks)%:R else junk r)) = jk_M S.
  rewrite /S /jk_spec /= RJ -(wmean (erefl _)) big_map (sum_iota [::]); apply: eq_bigr => r _.
  rewrite J if_same -!/(G _); congr (_ * (_ / _%:R)); rewrite /total -map_comp.
  by congr sumn; apply: eq_map => aa /=; rewrite SG.
rewrite /= EM; congr (Ok _); rewrite [RHS](map_nth_iota [::]); apply/eq_in_map => r _ /=.
rewrite J if_same -/(G _) SG; congr Jk.
case/and3P: (R) => _ L1 _; rewrite ST in L1.
have E1 : (total ranks)%:R - 1 = (total ranks - 1)%:R :> C by rewrite natrB // ltnW.
have P : 0 <= sqdev (resampled f (joined ranks)) by rewrite sumr_ge0 // => x _; rewrite exprn_ge0.
rewrite /S /jk_spec ST [LHS]/= [RHS]/= -/(sqdev _) E1.
by rewrite -sqrtCM ?qualifE ?divr_ge0 ?ler0n // [in RHS]mulrCA [in RHS]mulrC.
Qed.

Lemma single_rank_proof junk f aa : regular aa -> jackknife_mpi junk f [:: aa] = Ok [:: jk_spec f aa].
Proof.
move=> R; have H : mpi_ok [:: aa].
  case/and3P: R => Hn L A; rewrite /mpi_ok /= eqxx A lt0n Hn /total /= addn0 L andbT /=.
  by rewrite ltnW.
have J : joined [:: aa] = aa.
  rewrite /joined /= -[RHS](mkseq_nth [::] aa) /mkseq; apply: eq_map => k; by rewrite cats0.
have := @delivered_proof (fun=> (total [:: aa])%:R) f [:: aa] H (fun=> erefl).
rewrite !mpiE // J /= !big_seq1 /= => ->; congr (Ok [:: _]); rewrite /jk_spec; congr Jk.
by move: (f _) (avg _) ((size _)%:R : C) => a b n; fring C.
Qed.
End Final.

Section Cex.
Variable C : numClosedFieldType.
Definition square (u : seq C^o) : C := (head 0 u : C) ^+ 2.
Definition two_ranks : seq (seq (seq C^o)) := [:: [:: [:: 1]]; [:: [:: -1]]].
Lemma two_ranks_ok : mpi_ok two_ranks.
Proof. by []. Qed.
Lemma two_joined : joined two_ranks = [:: [:: 1; -1]].
Proof. by []. Qed.
Lemma two_spec : jk_M (jk_spec square (joined two_ranks)) = 1 /\ jk_direct (jk_spec square (joined two_ranks)) = 0.
Proof.
rewrite two_joined /jk_spec /resampled /avg /leave_out /vmean /square /=; split.
  rewrite !big_cons !big_nil /= !addr0 invr1 !scale1r sqrrN expr1n -(natrD _ 1 1) divff //.
  by rewrite pnatr_eq0.
by rewrite !big_cons big_nil addr0 subrr scaler0 expr0n.
Qed.
Lemma average_wrong : let S := jk_spec square (joined two_ranks) in
  exists rs, jackknife_mpi (fun=> (total two_ranks)%:R) square two_ranks = Ok rs /\
    forall r d, (r < 2)%N -> jk_avg (nth d rs r) = 0 /\ jk_avg S = -1.
Proof.
move=> S; have [EM ED] := two_spec; rewrite -/S in EM ED.
have T1 : 2%:R - 1 = 1 :> C by rewrite -[2%:R]/(1 + 1) addrK.
have A : jk_avg S = -1 by rewrite -[jk_avg S]/(2%:R * jk_direct S - (2%:R - 1) * jk_M S) ED EM mulr0 add0r mulr1 T1.
rewrite delivered_proof // ?two_ranks_ok // -/S; eexists; split; first reflexivity.
clearbody S; case=> [|[|r]] d // _; by rewrite /= ED EM sub0r mul1r addNr A.
Qed.
(** with a buffer that holds 1 on rank 1 instead of the number of data *)
Lemma mean_wrong : let S := jk_spec square (joined two_ranks) in
  exists rs, jackknife_mpi (fun=> 1) square two_ranks = Ok rs /\ forall r d, (r < 2)%N -> jk_M (nth d rs r) = 1 + 2%:R^-1 /\ jk_M S = 1.
Proof.
move=> S; have [EM ED] := two_spec; rewrite -/S in EM ED.
rewrite mpiE ?two_ranks_ok //; eexists; split; first reflexivity.
have LV (x : C^o) : (x : C) ^+ 2 = 1 -> avg (local_values square two_ranks [:: [:: x]]) = 1 /\ size (local_values square two_ranks [:: [:: x]]) = 1%N.
  move=> Hx; split=> //; rewrite /local_values /loo /sums two_joined /rows /row /square /avg /= big_seq1 divr1.
  by rewrite !big_cons big_nil addr0 subrr sub0r invr1 scale1r sqrrN.
have [L1 S1] := LV 1 (expr1n _ _); have [L2 S2] : avg (local_values square two_ranks [:: [:: -1]]) = 1 /\ size (local_values square two_ranks [:: [:: -1]]) = 1%N by apply: LV; rewrite sqrrN expr1n.
have EMw : \sum_(r <- iota 0 2) avg (local_values square two_ranks (nth [::] two_ranks r)) *
  ((size (local_values square two_ranks (nth [::] two_ranks r)))%:R / (if r == 0%N then (total two_ranks)%:R else 1)) = 1 + 2%:R^-1.
  by rewrite !big_cons big_nil [nth [::] _ 0]/= [nth [::] _ 1]/= L1 L2 S1 S2 [_ == _]/= [1%N == 0%N]/= [total _]/= divr1 !mul1r addr0 addrC.
clearbody S; by case=> [|[|r]] d // _; rewrite [jk_M (nth _ _ _)]EMw.
Qed.
End Cex.
