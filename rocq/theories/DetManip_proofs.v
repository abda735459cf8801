(** Proofs of the property theorems of det_manip (C01-C06).

    [make_from xs ys] is the constructor (empty lists give the empty matrix), [run h s] performs
    a history h of operations, [spec_run h (xs, ys)] performs the same list edits on two plain
    lists (DetSpec.v).  [cur s] is the matrix f(get_x(i), get_y(j)) the object stands for.
    [hist_regular] : every matrix the history goes through is invertible.
    The function f, the field F, the singularity test [sing], the accuracy test [deviates] and the
    check period [max_ops] are arbitrary. *)
From mathcomp Require Import all_ssreflect all_algebra.
From Verif Require Import Base DetManip DetSpec DetLemmas DetStruct DetNum DetInv DetTry DetHist.
Set Implicit Arguments.
Unset Strict Implicit.
Unset Printing Implicit Defensive.
Import GRing.Theory.
Local Open Scope ring_scope.

Section Props.
Variables (F : fieldType) (X Y : Type) (x0 : X) (y0 : Y) (f : X -> Y -> F).
Variable sing : F -> bool.
Variable deviates : nat -> (nat -> nat -> F) -> (nat -> nat -> F) -> bool.
Variable max_ops : nat.
Notation run := (@run F X Y x0 y0 f sing deviates max_ops).
Notation determinant := (@determinant F X Y x0 y0 f sing deviates).
Notation complete_operation := (@complete_operation F X Y x0 y0 f sing deviates max_ops).
Notation make_from := (@make_from F X Y x0 y0 f).
Notation do_try := (@do_try F X Y x0 y0 f).
Notation get_x := (@get_x F X Y x0).
Notation get_y := (@get_y F X Y y0).
Notation hist_regular := (@hist_regular F X Y x0 y0 f).
Notation Det := (@Det F X Y x0 y0 f).

Notation cur := (@cur F X Y x0 y0 f).
Notation same_observations := (@same_observations F X Y x0 y0 f sing deviates).

Lemma cur_Det s l : Rep x0 y0 s l -> \det (cur s) = Det l.
Proof.
move=> HR; have Su := Rep_fst HR; case: HR => _ [Hx Hy].
case: l Hx Hy Su => u v /= Hx Hy Su; rewrite DetE Su; congr (\det _); apply/matrixP => i j.
by rewrite !mxE /fA (half_nth Hx) // (half_nth Hy).
Qed.
Lemma get_Rep s l : Rep x0 y0 s l ->
  [/\ size_of s = size l.1, size l.2 = size l.1, (forall i, (i < size_of s)%N -> get_x s i = nth x0 l.1 i) &
      (forall j, (j < size_of s)%N -> get_y s j = nth y0 l.2 j)].
Proof.
move=> HR; have Su := Rep_fst HR; have Sv := Rep_snd HR; case: HR => _ [Hx Hy]; split=> //; first by rewrite Sv Su.
- by move=> i Hi; rewrite (half_nth Hx).
- by move=> i Hi; rewrite (half_nth Hy).
Qed.
Lemma start h xs ys s0 rs s : make_from xs ys = Ok s0 -> run h s0 = Ok (rs, s) -> Rep x0 y0 s (spec_run x0 y0 h (xs, ys)).
Proof. by move=> H0 Hr; have [HR _] := Rep_make H0; apply: run_rep HR Hr. Qed.
Lemma regular0 h l : hist_regular h l -> Det l != 0.
Proof. by case: h => [|o h] /= /andP []. Qed.
Lemma startN h xs ys s0 rs s : make_from xs ys = Ok s0 -> hist_regular h (xs, ys) -> run h s0 = Ok (rs, s) ->
  let l := spec_run x0 y0 h (xs, ys) in
  [/\ Rep x0 y0 s l, NRep x0 y0 f s l & rs = spec_results x0 y0 f h (xs, ys)].
Proof.
move=> H0 Hreg Hr; have [HR HN] := Rep_make H0; have [E HN'] := run_num HR (HN (regular0 Hreg)) Hreg Hr.
split=> //; exact: run_rep HR Hr.
Qed.

(** C01 *)
Lemma C01_contents_proof h xs ys s0 rs s : make_from xs ys = Ok s0 -> run h s0 = Ok (rs, s) ->
  let l := spec_run x0 y0 h (xs, ys) in
  [/\ size_of s = size l.1, size l.2 = size l.1, (forall i, (i < size_of s)%N -> get_x s i = nth x0 l.1 i) &
      (forall j, (j < size_of s)%N -> get_y s j = nth y0 l.2 j)].
Proof. by move=> H1 H2 l; apply: get_Rep; apply: start H1 H2. Qed.
Lemma C01_total_proof h xs ys : size xs = size ys ->
  (forall d, d != 0 -> sing d = false) ->
  (forall n g g', (forall i j, (i < n)%N -> (j < n)%N -> g i j = g' i j) -> deviates n g g' = false) ->
  hist_ok x0 y0 h (xs, ys) -> hist_regular h (xs, ys) ->
  exists s0 rs s, make_from xs ys = Ok s0 /\ run h s0 = Ok (rs, s).
Proof.
move=> Sxy Hs Hd Hok Hreg.
have [s0 E0] : exists s0, make_from xs ys = Ok s0 by rewrite /DetManip.make_from Sxy eqxx; eexists.
have [HR HN] := Rep_make E0.
by have [rs [s E]] := run_total max_ops Hs Hd HR (HN (regular0 Hreg)) Hok Hreg; exists s0, rs, s.
Qed.
(** C02 *)
Lemma C02_determinant_proof h xs ys s0 rs s d s' : make_from xs ys = Ok s0 -> hist_regular h (xs, ys) -> run h s0 = Ok (rs, s) ->
  determinant s = Ok (d, s') -> d = \det (cur s) /\ d = Det (spec_run x0 y0 h (xs, ys)).
Proof.
move=> H0 Hreg Hr Hd; have [HR HN _] := startN H0 Hreg Hr.
rewrite (cur_Det HR).
have E : step x0 y0 f sing deviates max_ops (ODeterminant _ _) s = Ok (Some d, s') by rewrite /= Hd.
by have [[->] _] := step_num HR HN E.
Qed.
Lemma C02_determinant_defined_proof h xs ys s0 rs s : make_from xs ys = Ok s0 -> hist_regular h (xs, ys) -> run h s0 = Ok (rs, s) ->
  (forall d, d != 0 -> sing d = false) -> exists d s', determinant s = Ok (d, s').
Proof.
move=> H0 Hreg Hr Hs; have [HR [HM HD] _] := startN H0 Hreg Hr.
rewrite /DetManip.determinant; case: ifP => Esing; last by do 2 eexists.
have Hn0 := NRep_neq0 HR (conj HM HD).
suff : c_det (s_c s) != 0 by move=> /Hs; rewrite Esing.
move: HD; rewrite /NId (Rep_Det f HR) => HD; apply/eqP => E0; move: Hn0; rewrite -HD E0 mulr0 eqxx //.
Qed.
(** C03 *)
Lemma C03_inverse_proof h xs ys s0 rs s : make_from xs ys = Ok s0 -> hist_regular h (xs, ys) -> run h s0 = Ok (rs, s) ->
  (\matrix_(i < size_of s, j < size_of s) inverse_matrix s i j) = invmx (cur s) /\ cur s \in unitmx /\
  (forall i j, matrix x0 y0 f s i j = f (get_x s i) (get_y s j)).
Proof.
move=> H0 Hreg Hr; have [HR [HM HD] _] := startN H0 Hreg Hr.
have Hn0 := NRep_neq0 HR (conj HM HD); rewrite -(cur_Det HR) in Hn0.
have U : cur s \in unitmx by rewrite unitmxE unitfE.
split; last by split.
have [_ [Hx Hy]] := HR; have E := half_inv Hx Hy HM.
rewrite -[LHS]mul1mx -(mulVmx U) -mulmxA -[RHS]mulmx1; congr (_ *m _); rewrite -E; congr (_ *m _).
by apply/matrixP => i j; rewrite !mxE /fA (half_nth Hx) // (half_nth Hy).
Qed.
(** C04 *)
Lemma C04_ratio_proof h xs ys s0 rs s t r s1 : make_from xs ys = Ok s0 -> hist_regular h (xs, ys) -> run h s0 = Ok (rs, s) ->
  do_try t s = Ok (r, s1) ->
  \det (cur s) != 0 /\ r = Det (spec_trial x0 y0 t (spec_run x0 y0 h (xs, ys))) / \det (cur s) /\
  (forall s2, complete_operation s1 = Ok s2 -> r = \det (cur s2) / \det (cur s)).
Proof.
move=> H0 Hreg Hr Ht; have [HR HN _] := startN H0 Hreg Hr.
have Hn0 := NRep_neq0 HR HN; rewrite (cur_Det HR); split=> //.
have E : step x0 y0 f sing deviates max_ops (OTry t false) s = Ok (Some r, reject_last_try s1) by rewrite /= Ht.
have [[Er] _] := step_num HR HN E; split=> // s2 Hc.
have E2 : step x0 y0 f sing deviates max_ops (OTry t true) s = Ok (Some r, s2) by rewrite /= Ht Hc.
by rewrite (cur_Det (step_rep HR E2)).
Qed.
Lemma C04_all_ratios_proof h xs ys s0 rs s : make_from xs ys = Ok s0 -> hist_regular h (xs, ys) -> run h s0 = Ok (rs, s) ->
  rs = spec_results x0 y0 f h (xs, ys).
Proof. by move=> H0 Hreg Hr; have [] := startN H0 Hreg Hr. Qed.
(** C05 *)
Lemma eqs_obs s s' : eqs s s' -> same_observations s s'.
Proof.
move=> Hs; have [_ _ [k [_ Ec]]] := Hs; split.
- by rewrite /size_of Ec.
- by move=> i; rewrite /DetManip.get_x Ec.
- by move=> i; rewrite /DetManip.get_y Ec.
- by move=> i j; rewrite /inverse_matrix Ec.
- move=> d t Hd; have E : step x0 y0 f sing deviates max_ops (ODeterminant _ _) s = Ok (Some d, t) by rewrite /= Hd.
  have [t' E' _] := step_eqs Hs E; exists t'; move: E'; rewrite /=.
  by case: (determinant s') => [[d' u']| |] // [-> ->].
Qed.
Lemma C05_reject_proof t s r s1 : do_try t s = Ok (r, s1) ->
  same_observations s (reject_last_try s1) /\
  (forall h rs s2, run h s = Ok (rs, s2) -> exists s2', run h (reject_last_try s1) = Ok (rs, s2') /\ same_observations s2 s2').
Proof.
move=> Ht; have Hs := reject_eqs Ht; split; first exact: eqs_obs.
move=> h rs s2 Hr; have [s2' E Hs2] := run_eqs Hs Hr; exists s2'; split=> //; exact: eqs_obs.
Qed.
(** C06 *)
Lemma insert_many_at (T : Type) (t0 : T) (ps : seq nat) (xs l : seq T) a : uniq ps -> (a < size ps)%N ->
  all (fun p => p < size l + size ps)%N ps -> nth t0 (insert_many t0 ps xs l) (nth 0%N ps a) = nth t0 xs a.
Proof.
move=> U Ha A; rewrite /insert_many nth_mkseq; last by apply: (allP A); rewrite mem_nth.
by rewrite mem_nth // index_uniq.
Qed.
Lemma insert_many_rest (T : Type) (t0 : T) (ps : seq nat) (xs l : seq T) : uniq ps ->
  all (fun p => p < size l + size ps)%N ps ->
  [seq nth t0 (insert_many t0 ps xs l) p | p <- iota 0 (size l + size ps) & p \notin ps] = l.
Proof.
move=> U A; set n := (size l + size ps)%N; set K := filter _ _.
have SK : size K = size l by rewrite /K size_kept // addnK.
have UK : uniq K by rewrite filter_uniq // iota_uniq.
have EI q : q \in K -> (q - count (fun p => p < q) ps)%N = index q K.
  rewrite mem_filter mem_iota /= add0n => /andP [Hn Hq].
  have E : iota 0 n = iota 0 q ++ q :: iota q.+1 (n - q.+1) by rewrite -{1}(subnKC (ltnW Hq)) iotaD -(subnSK Hq).
  rewrite /K E filter_cat /= Hn index_cat mem_filter mem_iota /= add0n ltnn andbF eqxx addn0.
  by rewrite size_filter count_notin.
apply: (@eq_from_nth _ t0) => [|a]; rewrite size_map SK // => Ha.
rewrite (nth_map 0%N) ?SK //; set q := nth _ K a.
have HqK : q \in K by rewrite mem_nth // SK.
have : (q \in K) by []; rewrite {1}/K mem_filter mem_iota /= add0n => /andP [Hn Hq].
by rewrite /insert_many nth_mkseq // (negbTE Hn) EI // index_uniq // SK.
Qed.
Lemma C06_insert_k_proof h xs ys s0 rs s i j x y r s1 s2 : make_from xs ys = Ok s0 -> run h s0 = Ok (rs, s) ->
  do_try (TInsertK i j x y) s = Ok (r, s1) -> complete_operation s1 = Ok s2 ->
  [/\ size_of s2 = (size_of s + size i)%N,
      (forall a, (a < size i)%N -> get_x s2 (nth 0%N i a) = nth x0 x a /\ get_y s2 (nth 0%N j a) = nth y0 y a),
      [seq get_x s2 p | p <- iota 0 (size_of s2) & p \notin i] = [seq get_x s p | p <- iota 0 (size_of s)] &
      [seq get_y s2 p | p <- iota 0 (size_of s2) & p \notin j] = [seq get_y s p | p <- iota 0 (size_of s)]].
Proof.
move=> H0 Hr Ht Hc; have HR := start H0 Hr.
have E2 : step x0 y0 f sing deviates max_ops (OTry (TInsertK i j x y) true) s = Ok (Some r, s2) by rewrite /= -/(do_try (TInsertK i j x y)) Ht Hc.
have HR2 := step_rep HR E2.
have [L1 L2 L3 L4] := get_Rep HR; have [M1 M2 M3 M4] := get_Rep HR2.
move: Ht; rewrite /= /try_insert_k; case: (s_last s) => //.
case: ifP => // /negbFE /andP [/andP [/eqP Sij /eqP Sjx] /eqP Sxy].
case: ifP => // _; case: ifP => // /negbFE /andP [Ci Cj]; case: ifP => // /negbFE /andP [Li Lj] _.
have [[Oi Ai Si_] Ei] := argsort_spec x0 x Ci Li.
have [[Oj Aj Sj_] Ej] := argsort_spec y0 y Cj Lj.
have Ui : uniq i by rewrite -(perm_uniq (argsort_map_perm i)); apply: sorted_uniq Oi; [exact: ltn_trans|exact: ltnn].
have Uj : uniq j by rewrite -(perm_uniq (argsort_map_perm j)); apply: sorted_uniq Oj; [exact: ltn_trans|exact: ltnn].
rewrite (perm_all _ (argsort_map_perm i)) -/(size_of s) L1 in Ai.
rewrite (perm_all _ (argsort_map_perm j)) -/(size_of s) L1 -L2 Sij in Aj.
move: M1 M2 M3 M4; case: (spec_run x0 y0 h (xs, ys)) L1 L2 L3 L4 Ai Aj => u v /= L1 L2 L3 L4 Ai Aj.
rewrite !size_mkseq => M1 M2 M3 M4.
have Ai' : forall p, p \in i -> (p < size_of s2)%N by move=> p /(allP Ai); rewrite M1.
have Aj' : forall p, p \in j -> (p < size_of s2)%N by move=> p /(allP Aj); rewrite M1 -M2.
split.
- by rewrite M1 L1.
- move=> a Ha; rewrite M3 ?Ai' ?mem_nth // M4 ?Aj' ?mem_nth -?Sij //; split; first exact: insert_many_at.
  by apply: insert_many_at; rewrite // -?Sij.
- rewrite -[RHS](_ : u = _).
    rewrite -[RHS](@insert_many_rest _ x0 i x u) // M1; apply/eq_in_map => p; rewrite mem_filter mem_iota /= add0n => /andP [_ Hp].
    by rewrite M3 // M1.
  rewrite L1 -[LHS](mkseq_nth x0); apply/eq_in_map => p; rewrite mem_iota /= add0n => Hp.
  by rewrite L3 // L1.
- rewrite -[RHS](_ : v = _).
    rewrite -[RHS](@insert_many_rest _ y0 j y v) // M1 -M2; apply/eq_in_map => p; rewrite mem_filter mem_iota /= add0n => /andP [_ Hp].
    by rewrite M4 // M1 -M2.
  rewrite L1 -L2 -[LHS](mkseq_nth y0); apply/eq_in_map => p; rewrite mem_iota /= add0n => Hp.
  by rewrite L4 // L1 -L2.
Qed.
Lemma C06_insert_order_proof h xs ys s0 rs s i j x y r s1 idx idy r' s1' : make_from xs ys = Ok s0 -> hist_regular h (xs, ys) ->
  run h s0 = Ok (rs, s) -> do_try (TInsertK i j x y) s = Ok (r, s1) ->
  perm_eq idx (iota 0 (size i)) -> perm_eq idy (iota 0 (size i)) ->
  do_try (TInsertK [seq nth 0%N i a | a <- idx] [seq nth 0%N j a | a <- idy] [seq nth x0 x a | a <- idx] [seq nth y0 y a | a <- idy]) s = Ok (r', s1') ->
  r' = r.
Proof.
move=> H0 Hreg Hr Ht P1 P2 Ht'.
have [_ [-> _]] := C04_ratio_proof H0 Hreg Hr Ht; have [_ [-> _]] := C04_ratio_proof H0 Hreg Hr Ht'.
move: Ht; rewrite /= /try_insert_k; case: (s_last s) => //.
case: ifP => // /negbFE /andP [/andP [/eqP Sij /eqP Sjx] /eqP Sxy].
case: ifP => // _; case: ifP => // /negbFE /andP [Ci Cj]; case: ifP => // /negbFE /andP [Li Lj] _.
have [[Oi _ _] _] := argsort_spec x0 x Ci Li; have [[Oj _ _] _] := argsort_spec y0 y Cj Lj.
have Ui : uniq i by rewrite -(perm_uniq (argsort_map_perm i)); apply: sorted_uniq Oi; [exact: ltn_trans|exact: ltnn].
have Uj : uniq j by rewrite -(perm_uniq (argsort_map_perm j)); apply: sorted_uniq Oj; [exact: ltn_trans|exact: ltnn].
by case: (spec_run _ _ _ _) => u v; rewrite /spec_trial !insert_many_perm // -Sij.
Qed.
Lemma C06_remove_k_proof h xs ys s0 rs s i j r s1 s2 : make_from xs ys = Ok s0 -> run h s0 = Ok (rs, s) ->
  do_try (TRemoveK X Y i j) s = Ok (r, s1) -> complete_operation s1 = Ok s2 ->
  [/\ [seq get_x s2 p | p <- iota 0 (size_of s2)] = [seq get_x s p | p <- iota 0 (size_of s) & p \notin i] &
      [seq get_y s2 p | p <- iota 0 (size_of s2)] = [seq get_y s p | p <- iota 0 (size_of s) & p \notin j]].
Proof.
move=> H0 Hr Ht Hc; have HR := start H0 Hr.
have E2 : step x0 y0 f sing deviates max_ops (OTry (TRemoveK X Y i j) true) s = Ok (Some r, s2) by rewrite /= -/(do_try (TRemoveK X Y i j)) Ht Hc.
have HR2 := step_rep HR E2.
have [L1 L2 L3 L4] := get_Rep HR; have [_ G1 G2] := obs_xs HR2.
split.
- rewrite -[LHS]/(get_xs x0 s2) G1; case: (spec_run x0 y0 h (xs, ys)) L1 L2 L3 L4 {G1 G2 HR2} => u v /= L1 L2 L3 L4.
  rewrite /delete_many -L1; apply/eq_in_map => p; rewrite mem_filter mem_iota /= add0n => /andP [_ Hp]; by rewrite L3.
- rewrite -[LHS]/(get_ys y0 s2) G2; case: (spec_run x0 y0 h (xs, ys)) L1 L2 L3 L4 {G1 G2 HR2} => u v /= L1 L2 L3 L4.
  rewrite /delete_many L2 -L1; apply/eq_in_map => p; rewrite mem_filter mem_iota /= add0n => /andP [_ Hp]; by rewrite L4.
Qed.
End Props.
