(** Property theorems for det_manip (C01-C06).

    [make_from xs ys] is the constructor (empty lists give the empty matrix), [run h s] performs
    a history h of operations, [spec_run h (xs, ys)] performs the same list edits on two plain
    lists (DetSpec.v).  [cur s] is the matrix f(get_x(i), get_y(j)) the object stands for.
    [hist_regular] : every matrix the history goes through is invertible.
    The function f, the field F, the singularity test [sing], the accuracy test [deviates] and the
    check period [max_ops] are arbitrary. *)
From mathcomp Require Import all_ssreflect all_algebra.
From Verif Require Import Base DetManip DetSpec DetLemmas DetStruct DetNum DetHist DetManip_proofs.
Set Implicit Arguments.
Unset Strict Implicit.
Unset Printing Implicit Defensive.
Import GRing.Theory.
Local Open Scope ring_scope.

Section Props.
Variables (F : fieldType) (X Y : Type) (x0 : X) (y0 : Y) (f : X -> Y -> F).
Variable sing : F -> bool.
Variable deviates : nat -> (nat -> nat -> F) -> (nat -> nat -> F) -> bool.
Variable max_ops : nat.
Notation run := (@run F X Y x0 y0 f sing deviates max_ops).
Notation determinant := (@determinant F X Y x0 y0 f sing deviates).
Notation complete_operation := (@complete_operation F X Y x0 y0 f sing deviates max_ops).
Notation make_from := (@make_from F X Y x0 y0 f).
Notation do_try := (@do_try F X Y x0 y0 f).
Notation get_x := (@get_x F X Y x0).
Notation get_y := (@get_y F X Y y0).
Notation hist_regular := (@hist_regular F X Y x0 y0 f).
Notation Det := (@Det F X Y x0 y0 f).

Notation cur := (@cur F X Y x0 y0 f).
Notation same_observations := (@same_observations F X Y x0 y0 f sing deviates).

Theorem C01_contents h xs ys s0 rs s : make_from xs ys = Ok s0 -> run h s0 = Ok (rs, s) ->
  let l := spec_run x0 y0 h (xs, ys) in
  [/\ size_of s = size l.1, size l.2 = size l.1, (forall i, (i < size_of s)%N -> get_x s i = nth x0 l.1 i) &
      (forall j, (j < size_of s)%N -> get_y s j = nth y0 l.2 j)].
Proof. exact: C01_contents_proof. Qed.
Theorem C01_total h xs ys : size xs = size ys ->
  (forall d, d != 0 -> sing d = false) ->
  (forall n g g', (forall i j, (i < n)%N -> (j < n)%N -> g i j = g' i j) -> deviates n g g' = false) ->
  hist_ok x0 y0 h (xs, ys) -> hist_regular h (xs, ys) ->
  exists s0 rs s, make_from xs ys = Ok s0 /\ run h s0 = Ok (rs, s).
Proof. exact: C01_total_proof. Qed.
Theorem C02_determinant h xs ys s0 rs s d s' : make_from xs ys = Ok s0 -> hist_regular h (xs, ys) -> run h s0 = Ok (rs, s) ->
  determinant s = Ok (d, s') -> d = \det (cur s) /\ d = Det (spec_run x0 y0 h (xs, ys)).
Proof. exact: C02_determinant_proof. Qed.
Theorem C02_determinant_defined h xs ys s0 rs s : make_from xs ys = Ok s0 -> hist_regular h (xs, ys) -> run h s0 = Ok (rs, s) ->
  (forall d, d != 0 -> sing d = false) -> exists d s', determinant s = Ok (d, s').
Proof. exact: C02_determinant_defined_proof. Qed.
Theorem C03_inverse h xs ys s0 rs s : make_from xs ys = Ok s0 -> hist_regular h (xs, ys) -> run h s0 = Ok (rs, s) ->
  (\matrix_(i < size_of s, j < size_of s) inverse_matrix s i j) = invmx (cur s) /\ cur s \in unitmx /\
  (forall i j, matrix x0 y0 f s i j = f (get_x s i) (get_y s j)).
Proof. exact: C03_inverse_proof. Qed.
Theorem C04_ratio h xs ys s0 rs s t r s1 : make_from xs ys = Ok s0 -> hist_regular h (xs, ys) -> run h s0 = Ok (rs, s) ->
  do_try t s = Ok (r, s1) ->
  \det (cur s) != 0 /\ r = Det (spec_trial x0 y0 t (spec_run x0 y0 h (xs, ys))) / \det (cur s) /\
  (forall s2, complete_operation s1 = Ok s2 -> r = \det (cur s2) / \det (cur s)).
Proof. exact: C04_ratio_proof. Qed.
Theorem C04_all_ratios h xs ys s0 rs s : make_from xs ys = Ok s0 -> hist_regular h (xs, ys) -> run h s0 = Ok (rs, s) ->
  rs = spec_results x0 y0 f h (xs, ys).
Proof. exact: C04_all_ratios_proof. Qed.
Theorem C05_reject t s r s1 : do_try t s = Ok (r, s1) ->
  same_observations s (reject_last_try s1) /\
  (forall h rs s2, run h s = Ok (rs, s2) -> exists s2', run h (reject_last_try s1) = Ok (rs, s2') /\ same_observations s2 s2').
Proof. exact: C05_reject_proof. Qed.
Theorem C06_insert_k h xs ys s0 rs s i j x y r s1 s2 : make_from xs ys = Ok s0 -> run h s0 = Ok (rs, s) ->
  do_try (TInsertK i j x y) s = Ok (r, s1) -> complete_operation s1 = Ok s2 ->
  [/\ size_of s2 = (size_of s + size i)%N,
      (forall a, (a < size i)%N -> get_x s2 (nth 0%N i a) = nth x0 x a /\ get_y s2 (nth 0%N j a) = nth y0 y a),
      [seq get_x s2 p | p <- iota 0 (size_of s2) & p \notin i] = [seq get_x s p | p <- iota 0 (size_of s)] &
      [seq get_y s2 p | p <- iota 0 (size_of s2) & p \notin j] = [seq get_y s p | p <- iota 0 (size_of s)]].
Proof. exact: C06_insert_k_proof. Qed.
Theorem C06_insert_order h xs ys s0 rs s i j x y r s1 idx idy r' s1' : make_from xs ys = Ok s0 -> hist_regular h (xs, ys) ->
  run h s0 = Ok (rs, s) -> do_try (TInsertK i j x y) s = Ok (r, s1) ->
  perm_eq idx (iota 0 (size i)) -> perm_eq idy (iota 0 (size i)) ->
  do_try (TInsertK [seq nth 0%N i a | a <- idx] [seq nth 0%N j a | a <- idy] [seq nth x0 x a | a <- idx] [seq nth y0 y a | a <- idy]) s = Ok (r', s1') ->
  r' = r.
Proof. exact: C06_insert_order_proof. Qed.
Theorem C06_remove_k h xs ys s0 rs s i j r s1 s2 : make_from xs ys = Ok s0 -> run h s0 = Ok (rs, s) ->
  do_try (TRemoveK X Y i j) s = Ok (r, s1) -> complete_operation s1 = Ok s2 ->
  [/\ [seq get_x s2 p | p <- iota 0 (size_of s2)] = [seq get_x s p | p <- iota 0 (size_of s) & p \notin i] &
      [seq get_y s2 p | p <- iota 0 (size_of s2)] = [seq get_y s p | p <- iota 0 (size_of s) & p \notin j]].
Proof. exact: C06_remove_k_proof. Qed.
End Props.
Print Assumptions C01_contents.
Print Assumptions C01_total.
Print Assumptions C02_determinant.
Print Assumptions C02_determinant_defined.
Print Assumptions C03_inverse.
Print Assumptions C04_ratio.
Print Assumptions C04_all_ratios.
Print Assumptions C05_reject.
Print Assumptions C06_insert_k.
Print Assumptions C06_insert_order.
Print Assumptions C06_remove_k.

(** ---- the hypotheses are met by a concrete history ----
    f(x, y) = x y + 1 over the rationals.  Two rows are inserted (positions given in decreasing
    order), rows are exchanged, columns rolled, a row and a column removed, a column changed, an
    insertion rejected. *)
Definition ef (x y : nat) : rat := (x * y + 1)%:R.
Definition ehist : seq (op nat nat) :=
  [:: OTry (TInsertK [:: 1; 0] [:: 0; 1] [:: 5; 3] [:: 2; 7])%N true; OSwapRow _ _ 0 1; ORoll _ _ RLeft;
      OTry (TInsert 1 0 4 4)%N false; ODeterminant _ _; OTry (TChangeCol _ 1 9)%N true;
      OTry (TRemove _ _ 0 1)%N true; OTry (TChangeRow _ 0 6)%N true; ORegenerate _ _].
Definition esing (d : rat) : bool := d == 0.
Definition edev (n : nat) (g h : nat -> nat -> rat) : bool := ~~ [forall i : 'I_n, forall j : 'I_n, g i j == h i j].

Lemma eDet0 : Det 0%N 0%N ef ([::], [::]) = 1.
Proof. exact: det_mx00. Qed.
Lemma eDet1 a b : Det 0%N 0%N ef ([:: a], [:: b]) = ef a b.
Proof. by rewrite DetE /Dn /nda_det det_mx11 mxE. Qed.
Lemma eDet2 a b c d : Det 0%N 0%N ef ([:: a; b], [:: c; d]) = ef a c * ef b d - ef b c * ef a d.
Proof. by rewrite DetE /Dn -det_ksiE. Qed.
Example ehist_regular : hist_regular 0%N 0%N ef ehist ([::], [::]).
Proof.
rewrite /ehist /=.
change (insert_many 0%N [:: 1; 0] [:: 5; 3] [::])%N with [:: 3; 5]%N.
change (insert_many 0%N [:: 0; 1] [:: 2; 7] [::])%N with [:: 2; 7]%N.
change (exchange 0%N 0 1 [:: 3; 5])%N with [:: 5; 3]%N.
by rewrite /= eDet0 /delete_at /replace_at /rot /= !eDet2 !eDet1.
Qed.
Example ehist_ok : hist_ok 0%N 0%N ehist ([::], [::]).
Proof. by []. Qed.
Example ehist_runs : exists s0 rs s, make_from 0%N 0%N ef [::] [::] = Ok s0 /\
  run 0%N 0%N ef esing edev 2 ehist s0 = Ok (rs, s).
Proof.
apply: C01_total => //; last exact: ehist_regular.
- by move=> d /negbTE.
- move=> n g g' E; apply/negbTE; rewrite negbK; apply/forallP => i; apply/forallP => j; by rewrite E.
Qed.
(** the lists this history leads to *)
Example ehist_lists : spec_run 0%N 0%N ehist ([::], [::]) = ([:: 6], [:: 7])%N.
Proof. by []. Qed.
