(** Property theorems for mean_error.hpp and jackknife.hpp (C43, C44, C45).

    [avg], [sqdev], [std_err] : mean, sum of squared deviations and standard error of a list;
    [jk_spec] : the four estimators of the documentation, with explicit leave-one-out means;
    [joined ranks] : the series of all ranks concatenated (all in the last section of Stat.v). *)
From mathcomp Require Import all_ssreflect all_algebra all_field.
From Verif Require Import Base Stat Stat_proofs Stat_jk Stat_mpi Stat_final.
Set Implicit Arguments.
Unset Strict Implicit.
Unset Printing Implicit Defensive.
Import GRing.Theory Num.Theory.
Local Open Scope ring_scope.

Section Props.
Variable C : numClosedFieldType.

Theorem C45_mean (xs : seq C) : xs != [::] -> mean xs = Ok (avg xs).
Proof. exact: mean_proof. Qed.
Theorem C45_mean_and_err (xs : seq C) : (1 < size xs)%N -> mean_and_err xs = Ok (avg xs, Some (std_err xs)).
Proof. exact: mean_and_err_proof. Qed.
(** a single datum has no standard error: NaN *)
Theorem C45_single_datum (x : C) : mean_and_err [:: x] = Ok (x, None).
Proof. exact: mean_and_err_single. Qed.
Theorem C45_order_independent (xs ys : seq C) : perm_eq xs ys -> mean xs = mean ys /\ mean_and_err xs = mean_and_err ys.
Proof. exact: order_proof. Qed.
(** every rank gets the mean and error of the data of all ranks *)
Theorem C45_mpi (ds : seq (seq C)) : ~~ has (@nilp _) ds -> (1 < size (flatten ds))%N ->
  mean_mpi ds = Ok [seq avg (flatten ds) | _ <- ds] /\
  mean_and_err_mpi ds = Ok [seq (avg (flatten ds), Some (std_err (flatten ds))) | _ <- ds].
Proof. exact: mpi_proof. Qed.
(** merging means and squared deviations gives those of the joined data; empty parts are allowed *)
Theorem C45_merge (ds : seq (seq C)) :
  mpi_reduce_MQ [seq (avg d, sqdev d, size d) | d <- ds] = (avg (flatten ds), sqdev (flatten ds), size (flatten ds)).
Proof. exact: mqE. Qed.

Variable V : lmodType C.
Implicit Types (f : seq V -> C) (aa : seq (seq V)) (ranks : seq (seq (seq V))).

Theorem C43_documented_estimators f aa : regular aa -> jackknife f aa = Ok (jk_spec f aa).
Proof. exact: jackknifeE. Qed.
Theorem C43_linear f aa : regular aa -> lin (size aa) f ->
  let ys := [seq f r | r <- rows aa] in
  jackknife f aa = Ok (Jk (avg ys) (std_err ys) (avg ys) (avg ys)).
Proof. exact: jk_linear. Qed.
(** for f of degree two the bias-corrected estimator is the unbiased one: pairs of distinct data *)
Theorem C43_quadratic c L B f aa : regular aa -> quad (size aa) c L B f ->
  let N := size (head [::] aa) in
  exists r, jackknife f aa = Ok r /\
  jk_avg r = c + avg [seq L u | u <- rows aa]
    + (\sum_(i <- iota 0 N) \sum_(j <- iota 0 N | j != i) B (row aa i) (row aa j)) / (N%:R * (N%:R - 1)).
Proof. exact: jk_quadratic. Qed.

Theorem C44_single_rank junk f aa : regular aa -> jackknife_mpi junk f [:: aa] = Ok [:: jk_spec f aa].
Proof. exact: single_rank_proof. Qed.
(** f of the averages is right on every rank *)
Theorem C44_f_of_averages junk f ranks rs : mpi_ok ranks -> jackknife_mpi junk f ranks = Ok rs ->
  size rs = size ranks /\ forall r d, (r < size rs)%N -> jk_direct (nth d rs r) = jk_direct (jk_spec f (joined ranks)).
Proof. exact: direct_proof. Qed.
(** If the buffers of the ranks other than the root happened to hold the total number of data, the
    estimate f_J and the error would be those of the joined series; the bias-corrected estimator is
    computed with the local number of data.  Missing: the bias correction, and the reduction of the
    number of data to all the ranks. *)
Theorem C44_as_if_delivered_partial junk f ranks : mpi_ok ranks -> (forall r, junk r = (total ranks)%:R) ->
  let S := jk_spec f (joined ranks) in
  jackknife_mpi junk f ranks =
  Ok [seq Jk ((size (head [::] aa))%:R * (jk_direct S - jk_M S) + jk_M S) (jk_err S) (jk_M S) (jk_direct S) | aa <- ranks].
Proof. exact: delivered_proof. Qed.
End Props.

(** Two ranks with one datum each, 1 and -1, and f(x) = x^2: the joined jackknife gives -1, both
    ranks return 0, even when the total number of data reaches every rank. *)
Theorem C44_average_refuted (C : numClosedFieldType) : let S := jk_spec (@square C) (joined (two_ranks C)) in
  exists rs, jackknife_mpi (fun=> (total (two_ranks C))%:R) (@square C) (two_ranks C) = Ok rs /\
    forall r d, (r < 2)%N -> jk_avg (nth d rs r) = 0 /\ jk_avg S = -1.
Proof. exact: average_wrong. Qed.
(** the same data when the receive buffer of rank 1 holds 1: even the plain estimate f_J is wrong, on all ranks *)
Theorem C44_estimate_refuted (C : numClosedFieldType) : let S := jk_spec (@square C) (joined (two_ranks C)) in
  exists rs, jackknife_mpi (fun=> 1) (@square C) (two_ranks C) = Ok rs /\
    forall r d, (r < 2)%N -> jk_M (nth d rs r) = 1 + 2%:R^-1 /\ jk_M S = 1.
Proof. exact: mean_wrong. Qed.

Print Assumptions C45_mean. Print Assumptions C45_mean_and_err. Print Assumptions C45_single_datum. Print Assumptions C45_order_independent.
Print Assumptions C45_mpi. Print Assumptions C45_merge. Print Assumptions C43_documented_estimators. Print Assumptions C43_linear.
Print Assumptions C43_quadratic. Print Assumptions C44_single_rank. Print Assumptions C44_f_of_averages.
Print Assumptions C44_as_if_delivered_partial. Print Assumptions C44_average_refuted. Print Assumptions C44_estimate_refuted.

(** the hypotheses can be met *)
Definition ex_xs : seq algC := [:: 1; 2%:R; 4%:R].
Definition ex_ds : seq (seq algC) := [:: ex_xs; [:: 0]].
Example stat_series_ok : (1 < size ex_xs)%N /\ perm_eq ex_xs [:: 2%:R; 4%:R; 1].
Proof. split=> //; rewrite /ex_xs -[X in perm_eq X]/([:: 1] ++ [:: 2%:R; 4%:R]) perm_catC; exact: perm_refl. Qed.
Example stat_mpi_ok : ~~ has (@nilp _) ex_ds /\ (1 < size (flatten ex_ds))%N.
Proof. by []. Qed.
(** two series of three data, and f(x, y) = 1 + 2 x + x y *)
Definition ex_series : seq (seq algC^o) := [:: [:: 1; 2%:R; 0]; [:: 1; 1; 3%:R]].
Definition ex_L (u : seq algC^o) : algC := 2%:R * nth 0 u 0.
Definition ex_B (u v : seq algC^o) : algC := nth 0 u 0 * nth 0 v 1.
Definition ex_f (u : seq algC^o) : algC := 1 + 2%:R * nth 0 u 0 + nth 0 u 0 * nth 0 u 1.
Example ex_regular : regular ex_series. Proof. by []. Qed.
Lemma ex_zip c (u v : seq algC^o) k : size u = 2%N -> size v = 2%N -> (k < 2)%N ->
  nth 0 [seq c *: p.1 + p.2 | p <- zip u v] k = c * nth 0 u k + nth 0 v k :> algC.
Proof.
by case: u => [|u0 [|u1 [|? ?]]] //; case: v => [|v0 [|v1 [|? ?]]] //; case: k => [|[|k]].
Qed.
Example ex_lin : lin 2 ex_L.
Proof. by move=> c u v Su Sv; rewrite /ex_L ex_zip // mulrDr mulrCA. Qed.
Example ex_quad : quad 2 1 ex_L ex_B ex_f.
Proof.
split=> //; first exact: ex_lin.
  by move=> u Su c v w Sv Sw; rewrite /ex_B ex_zip // mulrDr mulrCA.
by move=> v Sv c u w Su Sw; rewrite /ex_B ex_zip // mulrDl mulrA.
Qed.
Example ex_ranks : mpi_ok [:: ex_series; [:: [:: 1]; [:: 0]]]. Proof. by []. Qed.
