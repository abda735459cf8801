(** Property theorems for accumulator.hpp (C41, C42, C62).

    [acc_init nlog nlin cap] : a fresh accumulator; [run h] : it receives the data and the calls of
    compress_linear_bins of the history h in order; [data h] : the data of h in order;
    [block c i xs] : the i-th block of c consecutive data; [full_means c xs] : the means of the
    complete blocks (last section of Acc.v).  [moved] is whatever std::move leaves behind. *)
From mathcomp Require Import all_ssreflect all_algebra all_field.
From Verif Require Import Base Stat Stat_proofs Acc AccLin_proofs AccLog_proofs Acc_proofs.
Set Implicit Arguments.
Unset Strict Implicit.
Unset Printing Implicit Defensive.
Import Order.TTheory GRing.Theory Num.Theory.
Local Open Scope ring_scope.

Section Props.
Variable C : numClosedFieldType.
Variable moved : C.
Implicit Types (h : seq (op C)) (xs : seq C) (a : accumulator C).

(** ---- C41 : linear bins ---- *)
Theorem C41_bins_are_block_means nlog nlin cap h a : (0 < cap)%N -> nlin != 0 -> nlin != 1 ->
  run moved h (acc_init C nlog nlin cap) = Ok a ->
  let c := l_cap (a_lin a) in
  (0 < c)%N /\ l_bins (a_lin a) = [seq avg (block c i (data h)) | i <- iota 0 (n_blocks c (size (data h)))].
Proof. by move=> c0 m0 m1 /run_lin->; have [E P _] := blocks_proof moved h m0 m1 c0. Qed.
Theorem C41_single_bin nlog cap h a : (0 < cap)%N -> run moved h (acc_init C nlog 1 cap) = Ok a -> l_bins (a_lin a) = [:: avg (data h)].
Proof. by move=> c0 /run_lin->; have [] := single_proof moved h c0. Qed.
Theorem C41_switched_off nlog cap h a : run moved h (acc_init C nlog 0 cap) = Ok a -> l_bins (a_lin a) = [::].
Proof. by move=> /run_lin->; apply: off_proof. Qed.
Theorem C41_at_most_max_bins nlog nlin cap h a : (0 < cap)%N -> 1 < nlin ->
  run moved h (acc_init C nlog nlin cap) = Ok a -> (size (l_bins (a_lin a)))%:Z <= nlin.
Proof.
move=> c0 m2 /run_lin->; have m0 : nlin != 0 by rewrite gt_eqF // (lt_trans _ m2).
have m1 : nlin != 1 by rewrite gt_eqF.
by have [_ _ ->] := blocks_proof moved h m0 m1 c0.
Qed.
(** compressing multiplies the capacity (the bins are then those of C41_bins_are_block_means) *)
Theorem C41_compress_capacity nlog nlin cap h f a a' : (1 < f)%N -> nlin != 0 ->
  run moved h (acc_init C nlog nlin cap) = Ok a -> run moved (rcons h (Compress C f)) (acc_init C nlog nlin cap) = Ok a' ->
  l_cap (a_lin a') = (l_cap (a_lin a) * f)%N.
Proof. by move=> f1 m0 /run_lin-> /run_lin->; apply: compress_cap. Qed.
(** without manual compression the capacity is the first of cap, 2 cap, 4 cap, ... for which the data fit *)
Theorem C41_automatic_capacity nlog (nlin cap : nat) xs a : (0 < cap)%N -> (1 < nlin)%N ->
  run moved (map (@Push C) xs) (acc_init C nlog nlin cap) = Ok a ->
  exists k, [/\ l_cap (a_lin a) = (cap * 2 ^ k)%N, (size xs <= nlin * (cap * 2 ^ k))%N &
                forall j, (j < k)%N -> (nlin * (cap * 2 ^ j) < size xs)%N].
Proof.
move=> c0 m1 /run_lin->; have [k [E L H]] := capacity_proof moved xs m1 c0; rewrite E in L; exists k; split=> // j jk.
case: H => [k0|]; first by rewrite k0 in jk.
by apply: leq_ltn_trans; rewrite !leq_mul2l leq_exp2l // -ltnS (ltn_predK jk) jk !orbT.
Qed.

(** ---- C42 : logarithmic bins ---- *)
(** the int expression 1 << n of the code is good for fewer than 2^31 data, or at most 31 levels *)
Theorem C42_levels nlog nlin cap h : (size (data h) < 2 ^ 31)%N \/ (0 < nlog) && (nlog <= 31) ->
  exists a, run moved h (acc_init C nlog nlin cap) = Ok a /\ a_count a = size (data h) /\
  let L := n_levels nlog (size (data h)) in
  g_M (a_log a) = [seq avg (full_means (2 ^ n) (data h)) | n <- iota 0 L] /\
  g_Q (a_log a) = [seq sqdev (full_means (2 ^ n) (data h)) | n <- iota 0 L].
Proof. by move=> F; have [a [E [_ EM EQ _] Ec]] := run_log moved nlin cap F; exists a. Qed.
(** error at level n: the standard error of the means of the complete blocks of 2^n data *)
Theorem C42_errors nlog nlin cap h a : (size (data h) < 2 ^ 31)%N \/ (0 < nlog) && (nlog <= 31) ->
  run moved h (acc_init C nlog nlin cap) = Ok a ->
  let L := n_levels nlog (size (data h)) in
  log_bin_errors a =
  ([seq let b := full_means (2 ^ n) (data h) in if (size b <= 1)%N then 0 else std_err b | n <- iota 0 L],
   [seq (size (data h) %/ 2 ^ n)%N | n <- iota 0 L]).
Proof.
move=> F E; have [/errors_proof-> _] := run_log' F E; congr (_, _).
by apply: eq_map => n; rewrite size_means.
Qed.
(** over MPI: level n pools the block means of all ranks that have this level *)
Theorem C42_errors_mpi nlog (ranks : seq (int * nat * seq (op C))) (accs : seq (accumulator C)) :
  List.Forall2 (fun r a => ((size (data r.2) < 2 ^ 31)%N \/ (0 < nlog) && (nlog <= 31)) /\ run moved r.2 (acc_init C nlog r.1.1 r.1.2) = Ok a) ranks accs ->
  let levels (r : int * nat * seq (op C)) := n_levels nlog (size (data r.2)) in
  let L := foldr maxn 0%N (map levels ranks) in
  let pooled n := flatten [seq full_means (2 ^ n) (data r.2) | r <- ranks & (n < levels r)%N] in
  log_bin_errors_all_reduce accs =
  ([seq if (size (pooled n) <= 1)%N then 0 else std_err (pooled n) | n <- iota 0 L], [seq size (pooled n) | n <- iota 0 L]).
Proof.
move=> H levels L pooled.
have [ps [E1 E2 F]] : exists ps : seq (accumulator C * seq C),
  [/\ accs = [seq p.1 | p <- ps], [seq data r.2 | r <- ranks] = [seq p.2 | p <- ps] & List.Forall (fun p => log_ok nlog p.2 (a_log p.1)) ps].
  elim: H => [|r a rs aa [F E] _ [ps [-> E2 Fp]]]; first by exists [::].
  exists ((a, data r.2) :: ps); split; rewrite /= ?E2 //; constructor=> //.
  by have [] := run_log' F E.
have := all_reduce_proof F; cbv zeta; rewrite -E1 => ->.
have -> : [seq n_levels nlog (size p.2) | p <- ps] = map levels ranks.
  by rewrite (map_comp (fun ys => n_levels nlog (size ys)) snd ps) -E2 -map_comp.
have P n : flatten [seq level n p.2 | p <- ps & (n < n_levels nlog (size p.2))%N] = pooled n.
  rewrite /pooled /levels; congr flatten; elim: ps (ranks) E2 {H L pooled E1 F} => [|p ps IH] [|r rs] //= [Er /IH E'].
  by rewrite Er; case: ifP => _; rewrite /= ?Er E'.
by congr (_, _); apply: eq_map => n; rewrite P.
Qed.
End Props.

(** With an unbounded number of levels, or more than 31, the datum number 2^31 makes the code index
    past the end of its arrays: 1 << 31 is a negative int, so the level 31 is not created. *)
Theorem C42_level_31_refuted (C : numClosedFieldType) moved nlog nlin cap (xs : seq C) : nlog < 0 \/ 31 < nlog ->
  size xs = (2 ^ 31)%N -> run moved (map (@Push C) xs) (acc_init C nlog nlin cap) = UB.
Proof. exact: overflow_proof. Qed.

(** ---- C62 : archives ---- *)
(** reading gives back the bins, the errors and the counts, whatever the accumulator read into was *)
Theorem C62_reads_back (C : numClosedFieldType) (t a : accumulator C) :
  let r := h5_roundtrip t a in
  [/\ l_bins (a_lin r) = l_bins (a_lin a), log_bin_errors r = log_bin_errors a, a_count r = a_count a & l_cap (a_lin r) = l_cap (a_lin a)].
Proof. by []. Qed.
(** and it can go on as the original if it was constructed with the same number of logarithmic levels *)
Theorem C62_continues (C : numClosedFieldType) moved (t a a' : accumulator C) h : g_max (a_log t) = g_max (a_log a) ->
  run moved h a = Ok a' ->
  exists r', [/\ run moved h (h5_roundtrip t a) = Ok r', l_bins (a_lin r') = l_bins (a_lin a'), log_bin_errors r' = log_bin_errors a',
    a_count r' = a_count a' & l_cap (a_lin r') = l_cap (a_lin a')].
Proof.
move=> Em E; have El : a_log a = a_log (h5_roundtrip t a) by rewrite /= Em; case: (a_log a).
have [r' E'] := continue_ub El E; exists r'.
have [EL Ec Es] := @continue_proof C moved h a (h5_roundtrip t a) a' r' El erefl erefl E E'.
by split=> //; [case: Es | rewrite /log_bin_errors EL | case: Es].
Qed.
(** read into a default-constructed accumulator, it silently ignores further data in the logarithmic part *)
Theorem C62_continues_refuted (C : numClosedFieldType) moved (a : accumulator C) h r' :
  run moved h (h5_roundtrip (acc_default C) a) = Ok r' -> log_bin_errors r' = log_bin_errors a.
Proof.
have H g x : g_max g = 0 -> log_push g x = Ok g by move=> E; rewrite /log_push E eqxx.
suff G b : g_max (a_log b) = 0 -> run moved h b = Ok r' -> log_bin_errors r' = log_bin_errors b by apply: G.
elim: h b => [|[x|f] h IH] b Eb /=; first by case=> ->.
  by rewrite /acc_push H // => /IH->.
by move=> /IH->.
Qed.

Print Assumptions C41_bins_are_block_means. Print Assumptions C41_single_bin. Print Assumptions C41_switched_off.
Print Assumptions C41_at_most_max_bins. Print Assumptions C41_compress_capacity. Print Assumptions C41_automatic_capacity.
Print Assumptions C42_levels. Print Assumptions C42_errors. Print Assumptions C42_errors_mpi. Print Assumptions C42_level_31_refuted.
Print Assumptions C62_reads_back. Print Assumptions C62_continues. Print Assumptions C62_continues_refuted.

(** a history that meets the hypotheses: five data, a manual compression in between *)
Definition ex_h : seq (op [numClosedFieldType of algC]) := [:: Push 1; Push 2%:R; Compress _ 3; Push 0; Push 1; Push 5%:R].
Example ex_h_data : data ex_h = [:: 1; 2%:R; 0; 1; 5%:R]. Proof. by []. Qed.
Example ex_h_small : (size (data ex_h) < 2 ^ 31)%N.
Proof.
have H : (2 ^ 3 <= 2 ^ 31)%N by rewrite leq_exp2l.
exact: leq_trans (isT : (6 <= 2 ^ 3)%N) H.
Qed.
Example ex_h_runs : exists a, run 0 ex_h (acc_init [numClosedFieldType of algC] (-1) 2 1) = Ok a /\ a_count a = 5%N.
Proof. have [a [E [Ec _]]] := @C42_levels [numClosedFieldType of algC] 0 (-1) 2 1 ex_h (or_introl ex_h_small); exists a; split; [exact E|exact Ec]. Qed.
