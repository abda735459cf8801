(** Histories of det_manip: invariants, results, totality, rejected tries. *)
From mathcomp Require Import all_ssreflect all_algebra fingroup perm.
From Verif Require Import Base FieldTac DetManip DetSpec DetLemmas DetStruct DetMove DetNum DetChange DetInv DetTry.
Set Implicit Arguments.
Unset Strict Implicit.
Unset Printing Implicit Defensive.
Import GRing.Theory.
Local Open Scope ring_scope.

Section ListDet.
Variables (F : fieldType) (T : Type) (t0 : T).
Notation DR := (@DR F T t0).
Lemma DR_exchange n g i j (l : seq T) : size l = n -> (i < n)%N -> (j < n)%N -> i != j ->
  DR n g (exchange t0 i j l) = - DR n g l.
Proof.
move=> Sl Hi Hj Nij; pose i1 := Ordinal Hi; pose j1 := Ordinal Hj.
have N1 : i1 != j1 by apply: contra Nij => /eqP [->].
rewrite /DetLemmas.DR /nda_det.
have -> : fmx n n (fun a b => g (nth t0 (exchange t0 i j l) a) b) = xrow i1 j1 (fmx n n (fun a b => g (nth t0 l a) b)).
  apply/matrixP => a b; rewrite !mxE /exchange nth_mkseq ?Sl ?ltn_ord //; congr (g (nth t0 l _) b).
  case: tpermP => [->|->|/eqP Ni /eqP Nj]; rewrite /= ?eqxx //.
    by case: eqP => // ->.
  have -> : (a == i :> nat) = false by apply/negbTE; apply: contra Ni => /eqP E; apply/eqP/val_inj.
  by have -> : (a == j :> nat) = false by apply/negbTE; apply: contra Nj => /eqP E; apply/eqP/val_inj.
by rewrite /xrow row_permE det_mulmx det_perm odd_tperm N1 expr1 mulN1r.
Qed.
Lemma DR_rot n g (l : seq T) : size l = n -> (0 < n)%N -> DR n g (rot 1 l) = (-1) ^+ (n - 1) * DR n g l.
Proof.
case: l => [|x l] /= Sl Hn; first by rewrite -Sl in Hn.
have E := @DR_move F T t0 n g [::] x l [::]; rewrite /= !cats0 in E.
rewrite E ?add0n -?Sl // subn1 /= mulrA -exprD addnn -mul2n exprM sqrrN !expr1n mul1r.
by rewrite rot1_cons cats1.
Qed.
Lemma DR_rotr n g (l : seq T) : size l = n -> (0 < n)%N -> DR n g (rotr 1 l) = (-1) ^+ (n - 1) * DR n g l.
Proof.
move=> Sl Hn; have := @DR_rot n g (rotr 1 l); rewrite size_rotr rotrK => ->//.
by rewrite mulrA -exprD addnn -mul2n exprM sqrrN !expr1n mul1r.
Qed.
End ListDet.

Section Hist.
Variables (F : fieldType) (X Y : Type) (x0 : X) (y0 : Y) (f : X -> Y -> F).
Variable sing : F -> bool.
Variable deviates : nat -> (nat -> nat -> F) -> (nat -> nat -> F) -> bool.
Variable max_ops : nat.
Add Field Ff : (Fft F).
Notation core := (core F X Y).
Notation state := (state F X Y).
Notation fA := (fA x0 y0 f).
Notation Dn := (Dn x0 y0 f).
Notation SI := (@SI F X Y x0 y0).
Notation NIi := (@NIi F X Y x0 y0 f).
Notation NId := (@NId F X Y x0 y0 f).
Notation regenerate := (@regenerate F X Y x0 y0 f sing deviates).
Notation step := (@step F X Y x0 y0 f sing deviates max_ops).
Notation run := (@run F X Y x0 y0 f sing deviates max_ops).
Notation Det := (@Det F X Y x0 y0 f).
Notation lists := (seq X * seq Y)%type.

Lemma Dn_DR_row n u v : Dn n u v = DR x0 n (fun x j => f x (nth y0 v j)) u.
Proof. by []. Qed.
Lemma Dn_DR_col n u v : Dn n u v = DR y0 n (fun y i => f (nth x0 u i) y) v.
Proof. by rewrite /DR -nda_det_tr. Qed.

(** regenerate *)
Lemma regenerateP b c c' u v : SI c u v -> regenerate b c = Ok c' ->
  [/\ [/\ c_N c' = c_N c, c_row c' = c_row c, c_col c' = c_col c, c_xs c' = c_xs c & c_ys c' = c_ys c], NId c' u v &
      (Dn (c_N c) u v != 0 -> NIi c')].
Proof.
move=> [Hx Hy]; rewrite /DetManip.regenerate; case: ifP => [/eqP N0 [<-]|N0].
  rewrite /DetInv.NId /DetInv.NIi /= Dn0 N0 /sg expr0 mulr1; split=> // _; exact: fmx0.
case: ifP => // _; case: ifP => // _ [<-].
rewrite /DetInv.NId /DetInv.NIi /=.
have E := half_det f Hx Hy; have [Pr _ _] := Hx; have [Pc _ _] := Hy.
split=> //; last first.
  by rewrite E mulf_eq0 negb_or => /andP [_ H]; exact: nda_invP.
rewrite E; congr (_ * _).
have : (perm_det F (c_N c) (c_row c) * perm_det F (c_N c) (c_col c)) ^+ 2 == 1.
  by rewrite exprMn !expr2 !perm_det_sq ?mulr1.
rewrite sqrf_eq1; case: eqP => [-> _|_ /eqP ->]; by rewrite /sg /= ?expr0 ?expr1.
Qed.
Lemma Hrow c u v u' : SI c u v -> half x0 (c_N c) (c_row c) (c_xs c) u' -> SI c u' v.
Proof. by case. Qed.

(** what the object stands for *)
Definition Rep (s : state) (l : lists) : Prop := s_last s = NoTry /\ SI (s_c s) l.1 l.2.
Definition NRep (s : state) (l : lists) : Prop := NIi (s_c s) /\ NId (s_c s) l.1 l.2.

Lemma Rep_Det s l : Rep s l -> Dn (c_N (s_c s)) l.1 l.2 = Det l.
Proof. by case=> _ [Hx _]; rewrite -(half_size Hx); case: l Hx. Qed.
Lemma complete_cases s (t1 : state) : complete_operation x0 y0 f sing deviates max_ops s = Ok t1 -> s_last s <> NoTry ->
  s_last t1 = NoTry /\ (s_c t1 = completed x0 y0 s \/ regenerate true (completed x0 y0 s) = Ok (s_c t1)).
Proof.
rewrite /complete_operation /completed; case: (s_last s) => //; try (case: (complete_refill s) => [[c0 nd0] ns0]);
 rewrite /fin_core; case: ifP => _; try (by move=> [<-] _; split=> //; left);
 case E: (regenerate true _) => [c'| |] //= [<-] _; by split=> //; right.
Qed.
Lemma try_last t s r s1 : do_try x0 y0 f t s = Ok (r, s1) -> s_last s1 <> NoTry /\ s_last s = NoTry.
Proof.
case: s => c w wk wr nd ns lt.
case: t => [i j x y|i j x y|i j|i j|j y|i x|i j x y|x y] /=;
 rewrite ?/try_insert ?/try_insert_k ?/try_remove ?/try_remove_k ?/try_change_col ?/try_change_row ?/try_change_col_row ?/try_refill /=;
 case: lt => //; repeat (case: ifP => // _); by move=> [_ <-].
Qed.
(** the core is left as it is by a try, except for kmax *)
Definition same_core (c c' : core) : Prop := exists k, (c_kmax c <= k)%N /\
  c' = Core (c_N c) (c_det c) (c_sign c) (c_row c) (c_col c) (c_xs c) (c_ys c) (c_inv c) (c_nopts c) k.
Lemma same_core_refl c : same_core c c.
Proof. by exists (c_kmax c); case: c. Qed.
Lemma try_core t s r s1 : do_try x0 y0 f t s = Ok (r, s1) -> same_core (s_c s) (s_c s1).
Proof.
case: s => c w wk wr nd ns lt.
case: t => [i j x y|i j x y|i j|i j|j y|i x|i j x y|x y] /=;
 rewrite ?/try_insert ?/try_insert_k ?/try_remove ?/try_remove_k ?/try_change_col ?/try_change_row ?/try_change_col_row ?/try_refill /=;
 case: lt => //; repeat (case: ifP => // _); move=> [_ <-] /=; try exact: same_core_refl; by exists (maxn (c_kmax c) (size i)); rewrite leq_maxl ?size_sort; split; rewrite ?leq_maxl.
Qed.
Lemma same_core_SI c c' u v : same_core c c' -> SI c u v -> SI c' u v.
Proof. by case=> k [_ ->]. Qed.
Lemma same_core_NI c c' u v : same_core c c' -> NIi c /\ NId c u v -> NIi c' /\ NId c' u v.
Proof. by case=> k [_ ->]. Qed.

Notation spec_result := (@spec_result F X Y x0 y0 f).
Notation spec_results := (@spec_results F X Y x0 y0 f).

Lemma step_rep o s r s' l : Rep s l -> step o s = Ok (r, s') -> Rep s' (spec_op x0 y0 o l).
Proof.
case: l => u v [HL HS].
case: o => [t acc|i j|i j|ro| | |] /=.
- case E: (do_try _ _ _ t s) => [[r1 s1]| |] //; have [HL1 _] := try_last E.
  have [G1 _] := good_try HS E.
  case: acc => [|[_ <-]]; last first.
    by split=> //=; apply: same_core_SI (try_core E) HS.
  case E2: (complete_operation _ _ _ _ _ _ s1) => [s2| |] // [_ <-].
  have [HL2 [Ec|Ec]] := complete_cases E2 HL1; split=> //; rewrite ?Ec //.
  have [[E3 E4 E5 E6 E7] _ _] := regenerateP G1 Ec.
  by rewrite /DetInv.SI E3 E4 E5 E6 E7.
- rewrite /swap_row; case: eqP => [<- [_ <-]|_]; first by rewrite exchange_same.
  case: ifP => // /negbFE /andP [Hi Hj] [_ <-]; split=> //=; case: HS => Hx Hy; split=> //=.
  exact: swap_at_exchange.
- rewrite /swap_col; case: eqP => [<- [_ <-]|_]; first by rewrite exchange_same.
  case: ifP => // /negbFE /andP [Hi Hj] [_ <-]; split=> //=; case: HS => Hx Hy; split=> //=.
  exact: swap_at_exchange.
- have [Hx Hy] := HS; have [Pr _ _] := Hx; have [Pc _ _] := Hy.
  rewrite /roll_matrix; case En: (c_N (s_c s) == 0)%N.
    by case: ro => //= -[_ <-].
  move/negbT: En; rewrite -lt0n => Hn.
  case: ro => /= -[_ <-] //; split=> //=; split=> //=.
  + by rewrite -(perm_iota_size Pr) roll_upE ?(perm_iota_size Pr) //; exact: half_rot.
  + by rewrite -(perm_iota_size Pr) roll_downE ?(perm_iota_size Pr) //; exact: half_rotr.
  + by rewrite -(perm_iota_size Pc) roll_upE ?(perm_iota_size Pc) //; exact: half_rot.
  + by rewrite -(perm_iota_size Pc) roll_downE ?(perm_iota_size Pc) //; exact: half_rotr.
- by move=> [_ <-]; split=> //=; split; split.
- rewrite /determinant; case: ifP => _; last by move=> [_ <-].
  case E: (regenerate false _) => [c'| |] // [_ <-]; split=> //=.
  by have [[E3 E4 E5 E6 E7] _ _] := regenerateP HS E; rewrite /DetInv.SI E3 E4 E5 E6 E7.
- case E: (regenerate false _) => [c'| |] // [_ <-]; split=> //=.
  by have [[E3 E4 E5 E6 E7] _ _] := regenerateP HS E; rewrite /DetInv.SI E3 E4 E5 E6 E7.
Qed.
Lemma Rep_fst s l : Rep s l -> size l.1 = c_N (s_c s).
Proof. by case=> _ [Hx _]; rewrite (half_size Hx). Qed.
Lemma Rep_snd s l : Rep s l -> size l.2 = c_N (s_c s).
Proof. by case=> _ [_ Hy]; rewrite (half_size Hy). Qed.
Lemma NRep_neq0 s l : Rep s l -> NRep s l -> Det l != 0.
Proof.
move=> HR [HM _]; rewrite -(Rep_Det HR); case: HR => _ [Hx Hy].
rewrite (half_det f Hx Hy) mulf_neq0 ?(inv_det_neq0 HM) // mulf_neq0 // perm_detE ?signr_eq0 //; [by case: Hx | by case: Hy].
Qed.
Lemma step_num o s r s' l : Rep s l -> NRep s l -> step o s = Ok (r, s') -> 
  r = spec_result o l /\ (Det (spec_op x0 y0 o l) != 0 -> NRep s' (spec_op x0 y0 o l)).
Proof.
move=> HR HN Hst; have HR' := step_rep HR Hst; have Hn0 := NRep_neq0 HR HN.
have ED := Rep_Det HR; move: Hst HR'.
case: l HR HN Hn0 ED => u v HR HN Hn0 ED.
have Su := Rep_fst HR; have Sv := Rep_snd HR; rewrite /= in Su Sv ED.
have [HL HS] := HR; have [HM HD] := HN; rewrite /= in HS HD.
case: o => [t acc|i j|i j|ro| | |] /=.
- case E: (do_try _ _ _ t s) => [[r1 s1]| |] //; have [HL1 _] := try_last E.
  have [G1 G2] := good_try HS E; have {G2} [G2 G3 G4] := G2 HM HD.
  have EDt : Dn (c_N (completed x0 y0 s1)) (spec_trial x0 y0 t (u, v)).1 (spec_trial x0 y0 t (u, v)).2 = Det (spec_trial x0 y0 t (u, v)).
    by case: G1 => Hx _; rewrite -(half_size Hx); case: (spec_trial _ _ _ _) Hx.
  have Er : r1 = Det (spec_trial x0 y0 t (u, v)) / Det (u, v) by rewrite -EDt -G2 ED mulfK.
  case: acc => [|[<- <-] _]; last first.
    split; first by rewrite Er.
    by move=> _; apply: same_core_NI (try_core E) HN.
  case E2: (complete_operation _ _ _ _ _ _ s1) => [s2| |] // [<- <-] _.
  split; first by rewrite Er.
  move=> Hd; have [HL2 [Ec|Ec]] := complete_cases E2 HL1; rewrite /NRep ?Ec; first by split=> //; apply: G4; rewrite EDt.
  have [_ R1 R2] := regenerateP G1 Ec; split=> //; apply: R2; by rewrite EDt.
- rewrite /swap_row; case: eqP => [<- [<- <-]|/eqP Nij]; first by rewrite exchange_same.
  case: ifP => // /negbFE /andP [Hi Hj] [<- <-] _; split=> // _; split=> //=.
  by rewrite /DetInv.NId /= sgN mulNr HD !Dn_DR_row (DR_exchange x0 _ Su Hi Hj Nij).
- rewrite /swap_col; case: eqP => [<- [<- <-]|/eqP Nij]; first by rewrite exchange_same.
  case: ifP => // /negbFE /andP [Hi Hj] [<- <-] _; split=> // _; split=> //=.
  by rewrite /DetInv.NId /= sgN mulNr HD !Dn_DR_col (DR_exchange y0 _ Sv Hi Hj Nij).
- rewrite /roll_matrix; case En: (c_N (s_c s) == 0)%N.
    by case: ro => //= -[<- <-] _; rewrite divff.
  move/negbT: En; rewrite -lt0n => Hn.
  have R1 : Dn (c_N (s_c s)) (rot 1 u) v = (-1) ^+ (c_N (s_c s) - 1) * Dn (c_N (s_c s)) u v by rewrite !Dn_DR_row DR_rot.
  have R2 : Dn (c_N (s_c s)) (rotr 1 u) v = (-1) ^+ (c_N (s_c s) - 1) * Dn (c_N (s_c s)) u v by rewrite !Dn_DR_row DR_rotr.
  have R3 : Dn (c_N (s_c s)) u (rot 1 v) = (-1) ^+ (c_N (s_c s) - 1) * Dn (c_N (s_c s)) u v by rewrite !Dn_DR_col DR_rot.
  have R4 : Dn (c_N (s_c s)) u (rotr 1 v) = (-1) ^+ (c_N (s_c s) - 1) * Dn (c_N (s_c s)) u v by rewrite !Dn_DR_col DR_rotr.
  case: ro => /= -[<- <-] HR'; rewrite ?divff //; rewrite -(Rep_Det HR') /= -ED ?R1 ?R2 ?R3 ?R4 mulfK ?ED // sg_odd; split=> // _; split=> //=; rewrite /DetInv.NId /= sg_addb sg_odd mulrAC HD ?R1 ?R2 ?R3 ?R4 mulrC //.
- move=> [<- <-] _; split=> // _; split; first exact: fmx0.
  by rewrite /DetInv.NId /= Dn0 /sg expr0 mulr1.
- rewrite /determinant; case: ifP => _; last by move=> [<- <-] _; rewrite HD ED.
  case E: (regenerate false _) => [c'| |] // [<- <-] _.
  have [[E1 _ _ _ _] R1 R2] := regenerateP HS E; split; first by rewrite R1 E1 ED.
  by move=> Hd; split=> //=; apply: R2; rewrite ED.
- case E: (regenerate false _) => [c'| |] // [<- <-] _; split=> // Hd.
  have [[E1 _ _ _ _] R1 R2] := regenerateP HS E.
  by split=> //=; apply: R2; rewrite ED.
Qed.

Lemma run_rep h s rs s' l : Rep s l -> run h s = Ok (rs, s') -> Rep s' (spec_run x0 y0 h l).
Proof.
elim: h s rs s' l => [|o h IH] s rs s' l HR /=; first by move=> [_ <-].
case E: (step o s) => [[r s1]| |] //; case E2: (run h s1) => [[rs2 s2]| |] // [_ <-].
exact: IH (step_rep HR E) E2.
Qed.
Lemma run_num h s rs s' l : Rep s l -> NRep s l -> hist_regular x0 y0 f h l -> run h s = Ok (rs, s') ->
  rs = spec_results h l /\ NRep s' (spec_run x0 y0 h l).
Proof.
elim: h s rs s' l => [|o h IH] s rs s' l HR HN /=; first by move=> _ [<- <-].
move=> /andP [_ Hreg].
case E: (step o s) => [[r s1]| |] //; case E2: (run h s1) => [[rs2 s2]| |] // [<- <-].
have [-> H1] := step_num HR HN E.
have Hd : Det (spec_op x0 y0 o l) != 0 by case: h Hreg {IH E2} => [|o' h'] /= /andP [].
have [-> H2] := IH _ _ _ _ (step_rep HR E) (H1 Hd) Hreg E2; by [].
Qed.
Lemma Rep_empty : Rep (make_empty F x0 y0) ([::], [::]) /\ NRep (make_empty F x0 y0) ([::], [::]).
Proof.
split; first by split=> //; split; split.
split; first exact: fmx0.
by rewrite /DetInv.NId /= Dn0 /sg expr0 mulr1.
Qed.
Lemma Rep_make xs ys s : make_from x0 y0 f xs ys = Ok s ->
  Rep s (xs, ys) /\ (Det (xs, ys) != 0 -> NRep s (xs, ys)).
Proof.
rewrite /make_from; case: eqP => // Sxy /= [<-].
case: ifP => [/eqP S0|S0].
  have := size0nil S0; have : ys = [::] by apply: size0nil; rewrite -Sxy.
  by move=> -> ->; have [H1 H2] := Rep_empty.
have Em (T : Type) (t0 : T) (ws : seq T) : size ws = size xs -> ws = [seq nth t0 ws a | a <- iota 0 (size xs)].
  by move=> <-; rewrite -/(mkseq _ _) mkseq_nth.
split; first by split=> //; split; split=> //; exact: Em.
move=> Hd; split; first exact: nda_invP.
by rewrite /DetInv.NId /= /sg expr0 mul1r.
Qed.

(** ---- observations ---- *)
Lemma obs_xs s l : Rep s l -> [/\ size_of s = size l.1, get_xs x0 s = l.1 & get_ys y0 s = l.2].
Proof.
move=> HR; have Su := Rep_fst HR; have Sv := Rep_snd HR; case: HR => _ [Hx Hy]; split=> //.
- apply: (@eq_from_nth _ x0) => [|i]; rewrite size_map size_iota /size_of ?Su // => Hi.
  by rewrite (nth_map 0%N) ?size_iota // nth_iota // add0n (half_nth Hx).
- apply: (@eq_from_nth _ y0) => [|i]; rewrite size_map size_iota /size_of ?Sv // => Hi.
  by rewrite (nth_map 0%N) ?size_iota // nth_iota // add0n (half_nth Hy).
Qed.
Lemma obs_inv s l : Rep s l -> NRep s l ->
  mat x0 y0 f l *m (\matrix_(i, j) inverse_matrix s i j) = 1%:M.
Proof.
move=> HR [HM _]; have Su := Rep_fst HR; case: HR => _ [Hx Hy].
have := half_inv Hx Hy HM; rewrite -Su => E; rewrite -E; congr (_ *m _).
Qed.

(** ---- totality ---- *)
Section Total.
Hypothesis Hsing : forall d, d != 0 -> sing d = false.
Hypothesis Hdev : forall n g h, (forall i j, (i < n)%N -> (j < n)%N -> g i j = h i j) -> deviates n g h = false.
Lemma regenerate_total b c u v : SI c u v -> Dn (c_N c) u v != 0 -> NIi c -> exists c', regenerate b c = Ok c'.
Proof.
move=> [Hx Hy] HD HM; rewrite /DetManip.regenerate; case: ifP => [_|N0]; first by eexists.
have Hd : nda_det (c_N c) (fA (c_xs c) (c_ys c)) != 0.
  by move: HD; rewrite (half_det f Hx Hy) mulf_eq0 negb_or => /andP [].
rewrite Hsing //.
have -> : deviates (c_N c) (nda_inv (c_N c) (fun i j => f (nth x0 (c_xs c) i) (nth y0 (c_ys c) j))) (c_inv c) = false.
  apply: Hdev; apply: fmx_inj; rewrite nda_inv_fmx.
  have U : fmx (c_N c) (c_N c) (fA (c_xs c) (c_ys c)) \in unitmx by rewrite unitmxE unitfE.
  by rewrite -[LHS]mulmx1 -HM mulmxA mulVmx // mul1mx.
by rewrite andbF; eexists.
Qed.
Lemma positions_sorted bound ps : positions_ok bound ps ->
  sorted ltn (sort leq ps) /\ all (fun p => p < bound)%N (sort leq ps).
Proof.
move=> /andP [U A]; split; first by apply: sorted_leq_uniq; rewrite ?sort_uniq // sort_sorted //; exact: leq_total.
by rewrite all_sort.
Qed.
Lemma argsort_ok bound ps : positions_ok bound ps ->
  let w := [seq nth 0%N ps a | a <- argsort ps] in sorted ltn w /\ all (fun p => p < bound)%N w.
Proof.
move=> /andP [U A] w; split.
  apply: sorted_leq_uniq; first exact: argsort_sorted.
  by rewrite (perm_uniq (argsort_map_perm ps)).
by rewrite (perm_all _ (argsort_map_perm ps)).
Qed.
Lemma last_lt bound (w : seq nat) : (0 < size w)%N -> all (fun p => p < bound)%N w -> (last 0 w < bound)%N.
Proof. by case: w => // a w _ /allP A; apply: A; exact: mem_last. Qed.
Lemma try_total t s l : Rep s l -> trial_ok t l -> exists r s1, do_try x0 y0 f t s = Ok (r, s1).
Proof.
case: l => u v HR; have Su := Rep_fst HR; have [HL _] := HR; rewrite /= in Su.
case: t => [i j x y|i j x y|i j|i j|j y|i x|i j x y|x y] /=;
  rewrite ?/try_insert ?/try_insert_k ?/try_remove ?/try_remove_k ?/try_change_col ?/try_change_row ?/try_change_col_row ?/try_refill ?HL /= ?Su.
- move=> -> /=; case: ifP => _; by do 2 eexists.
- case/and5P => H2 /eqP Sj /eqP Sx /eqP Sy /andP [Hi Hj]; rewrite Sj Sx Sy !eqxx /=.
  have -> : ((size i == 0) || (maxn (c_kmax (s_c s)) (size i) < 2))%N = false.
    by apply/negbTE; rewrite negb_or -lt0n -leqNgt (leq_trans _ H2) //= (leq_trans H2) // leq_maxr.
  have [Oi Ai] := argsort_ok Hi; have [Oj Aj] := argsort_ok Hj.
  rewrite !sorted_checked // !last_lt //= ?size_map ?argsort_size ?Sj ?(leq_trans _ H2) //.
  case: ifP => _; by do 2 eexists.
- move=> -> /=; by do 2 eexists.
- case/and4P => H2 /eqP Sj Hi Hj.
  have [Oi Ai] := positions_sorted Hi; have [Oj Aj] := positions_sorted Hj.
  have Hle : (size i <= c_N (s_c s))%N.
    have /andP [U A] := Hi; have := uniq_leq_size U (s2 := iota 0 (c_N (s_c s))); rewrite size_iota; apply.
    by move=> p /(allP A); rewrite mem_iota.
  rewrite !size_sort Sj eqxx (leq_trans H2 Hle) /=.
  have -> : ((size i == 0) || (maxn (c_kmax (s_c s)) (size i) < 2))%N = false.
    by apply/negbTE; rewrite negb_or -lt0n -leqNgt (leq_trans _ H2) //= (leq_trans H2) // leq_maxr.
  rewrite !sorted_checked // !last_lt //= ?size_sort ?Sj ?(leq_trans _ H2) //; by do 2 eexists.
- move=> -> /=; by do 2 eexists.
- move=> -> /=; by do 2 eexists.
- move=> -> /=; by do 2 eexists.
- move=> -> /=; case: ifP => _; by do 2 eexists.
Qed.
Lemma step_total o s l : Rep s l -> NRep s l -> op_ok o l -> Det (spec_op x0 y0 o l) != 0 -> exists r s', step o s = Ok (r, s').
Proof.
move=> HR HN Hok Hd.
have ED := Rep_Det HR; have Hn0 := NRep_neq0 HR HN; have Su := Rep_fst HR.
have [HL HS] := HR; have [HM HD] := HN.
have Rt : exists c', regenerate false (s_c s) = Ok c' by apply: regenerate_total HS _ HM; rewrite ED.
case: o Hok Hd => [t acc|i j|i j|ro| | |] /=.
- move=> Hok Hd; have [r [s1 E]] := try_total HR Hok; rewrite E.
  case: acc Hd => Hd; last by do 2 eexists.
  have [HL1 _] := try_last E.
  case: l HR HN Hok Hd ED Hn0 Su HS HD => u v HR HN Hok Hd ED Hn0 Su HS HD.
  have [G1 G2] := good_try HS E; have {G2} [_ _ G4] := G2 HM HD.
  have EDt : Dn (c_N (completed x0 y0 s1)) (spec_trial x0 y0 t (u, v)).1 (spec_trial x0 y0 t (u, v)).2 = Det (spec_trial x0 y0 t (u, v)).
    by case: G1 => Hx _; rewrite -(half_size Hx); case: (spec_trial _ _ _ _) Hx.
  rewrite EDt in G4; have {G4} G4 := G4 Hd; rewrite -EDt in Hd.
  have [c' Ec] := regenerate_total true G1 Hd G4.
  suff [s2 ->] : exists s2, complete_operation x0 y0 f sing deviates max_ops s1 = Ok s2 by do 2 eexists.
  move: Ec; rewrite /complete_operation /completed; case: (s_last s1) HL1 => //; try (case: (complete_refill s1) => [[c0 nd0] ns0]);
    rewrite /fin_core => _ Ec; case: ifP => _; rewrite ?Ec; by eexists.
- rewrite Su /swap_row => -> _; case: eqP => _ /=; by do 2 eexists.
- rewrite Su /swap_col => -> _; case: eqP => _ /=; by do 2 eexists.
- rewrite Su /roll_matrix => Hn _; case: ro Hn => [_|Hn|Hn|Hn|Hn]; try (rewrite (_ : (c_N (s_c s) == 0)%N = false) /=; last by apply/negbTE; rewrite -lt0n).
  by do 2 eexists.
  by do 2 eexists.
  by do 2 eexists.
  by do 2 eexists.
  by do 2 eexists.
- move=> _ _; by do 2 eexists.
- move=> _ _; rewrite /determinant; case: ifP => _; last by do 2 eexists.
  by case: Rt => c' ->; do 2 eexists.
- move=> _ _; by case: Rt => c' ->; do 2 eexists.
Qed.
Lemma run_total h s l : Rep s l -> NRep s l -> hist_ok x0 y0 h l -> hist_regular x0 y0 f h l -> exists rs s', run h s = Ok (rs, s').
Proof.
elim: h s l => [|o h IH] s l HR HN /=; first by do 2 eexists.
move=> /andP [Hok Hh] /andP [_ Hreg].
have Hd : Det (spec_op x0 y0 o l) != 0 by case: h Hreg {IH Hh} => [|o' h'] /= /andP [].
have [r [s1 E]] := step_total HR HN Hok Hd; rewrite E.
have [_ H1] := step_num HR HN E.
have [rs [s' ->]] := IH _ _ (step_rep HR E) (H1 Hd) Hh Hreg; by do 2 eexists.
Qed.
End Total.

(** ---- rejected tries ---- *)
Definition eqs (s s' : state) : Prop := [/\ s_last s = NoTry, s_last s' = NoTry & same_core (s_c s) (s_c s')].
Lemma regenerate_eqs b c c' c2 : same_core c c' -> regenerate b c = Ok c2 -> exists2 c2', regenerate b c' = Ok c2' & same_core c2 c2'.
Proof.
case=> k [Hk ->]; rewrite /DetManip.regenerate /=; case: ifP => _; first by move=> [<-]; eexists; [reflexivity|exists k].
by case: ifP => // _; case: ifP => // _ [<-]; eexists; [reflexivity|exists k].
Qed.
Lemma completeE s : s_last s <> NoTry -> exists nd ns, 
  let done c := St c (s_w1 s) (s_wk s) (s_wr s) nd ns NoTry in
  complete_operation x0 y0 f sing deviates max_ops s =
  (if (max_ops < c_nopts (completed x0 y0 s))%N then
      match regenerate true (completed x0 y0 s) with Ok c => Ok (done c) | Throw => Throw | UB => UB end
   else Ok (done (completed x0 y0 s))).
Proof.
rewrite /complete_operation /completed; case: (s_last s) => // _.
8: case: (complete_refill s) => [[c0 nd0] ns0].
all: by eexists; eexists; reflexivity.
Qed.
Lemma complete_eqs s s' t : s_last s <> NoTry -> s_last s' <> NoTry -> same_core (completed x0 y0 s) (completed x0 y0 s') ->
  complete_operation x0 y0 f sing deviates max_ops s = Ok t ->
  exists2 t', complete_operation x0 y0 f sing deviates max_ops s' = Ok t' & eqs t t'.
Proof.
move=> /completeE [nd [ns ->]] /completeE [nd' [ns' ->]] Hc.
have En : c_nopts (completed x0 y0 s') = c_nopts (completed x0 y0 s) by case: Hc => k [_ ->].
rewrite En; case: ifP => _; last by move=> [<-]; eexists; [reflexivity|].
case E2: (regenerate true _) => [c2| |] // [<-].
by have [c2' -> Hs] := regenerate_eqs Hc E2; eexists; [reflexivity|].
Qed.
Definition sk k (c : core) : core := Core (c_N c) (c_det c) (c_sign c) (c_row c) (c_col c) (c_xs c) (c_ys c) (c_inv c) (c_nopts c) k.
Lemma move_row_sk k c a b : move_row x0 a b (sk k c) = sk k (move_row x0 a b c).
Proof. by rewrite /move_row; case: ifP. Qed.
Lemma move_col_sk k c a b : move_col y0 a b (sk k c) = sk k (move_col y0 a b c).
Proof. by rewrite /move_col; case: ifP. Qed.
Lemma kmax_move_row (c : core) a b : c_kmax (move_row x0 a b c) = c_kmax c.
Proof. by rewrite /move_row; case: ifP. Qed.
Lemma kmax_move_col (c : core) a b : c_kmax (move_col y0 a b c) = c_kmax c.
Proof. by rewrite /move_col; case: ifP. Qed.
Lemma move_all_sk k c ir jr : move_all x0 y0 ir jr (sk k c) = sk k (move_all x0 y0 ir jr c).
Proof.
rewrite /move_all; elim: (rev _) c => [|m l IH] c //=.
by rewrite -/(sk k c) move_row_sk move_col_sk IH.
Qed.
Lemma kmax_move_all (c : core) ir jr : c_kmax (move_all x0 y0 ir jr c) = c_kmax c.
Proof.
rewrite /move_all; elim: (rev _) c => [|m l IH] c //=.
by rewrite IH kmax_move_col kmax_move_row.
Qed.
Lemma try_eqs t s s' r s1 : eqs s s' -> do_try x0 y0 f t s = Ok (r, s1) ->
  exists2 s1', do_try x0 y0 f t s' = Ok (r, s1') & same_core (s_c s1) (s_c s1') /\ same_core (completed x0 y0 s1) (completed x0 y0 s1').
Proof.
case: s s' => c w wk wr nd ns lt [c' w' wk' wr' nd' ns' lt'] [/= -> -> [k [Hk ->]]].
case: t => [i j x y|i j x y|i j|i j|j y|i x|i j x y|x y] /=;
  rewrite ?/try_insert ?/try_insert_k ?/try_remove ?/try_remove_k ?/try_change_col ?/try_change_row ?/try_change_col_row ?/try_refill /=.
- case: ifP => // _; case: ifP => E [<- <-]; (eexists; [reflexivity|]); (split; first by exists k); exists k; rewrite /completed /= /complete_insert /= E //=.
- case: ifP => // _; case: ifP => // /negbT; rewrite negb_or -leqNgt => /andP [E1 E2].
  have -> : ((size i == 0) || (maxn k (size i) < 2))%N = false.
    by apply/negbTE; rewrite negb_or E1 -leqNgt /=; apply: leq_trans E2 _; rewrite geq_max leq_maxr leq_max Hk.
  case: ifP => // _; case: ifP => // _; case: ifP => E [<- <-]; (eexists; [reflexivity|]); (split; first by exists (maxn k (size i)); rewrite geq_max leq_maxr leq_max Hk); exists (maxn k (size i)); rewrite /completed /= /complete_insert_k /= E //=;
   by rewrite geq_max leq_maxr leq_max Hk.
- case: ifP => // _ [<- <-]; (eexists; [reflexivity|]); (split; first by exists k); rewrite /completed /= /complete_remove /=; case: ifP => _; exists k; split=> //=.
  + by rewrite kmax_move_col kmax_move_row.
  + by rewrite -/(sk k c) move_row_sk move_col_sk.
- case: ifP => // _; case: ifP => // /negbT; rewrite negb_or -leqNgt => /andP [E1 E2].
  have -> : ((size (sort leq i) == 0) || (maxn k (size (sort leq i)) < 2))%N = false.
    by apply/negbTE; rewrite negb_or E1 -leqNgt /=; apply: leq_trans E2 _; rewrite geq_max leq_maxr leq_max Hk.
  case: ifP => // _; case: ifP => // _ [<- <-]; (eexists; [reflexivity|]).
  split; first by exists (maxn k (size (sort leq i))); rewrite geq_max leq_maxr leq_max Hk.
  rewrite /completed /= /complete_remove_k /=; case: ifP => _; exists (maxn k (size (sort leq i))); split=> //=.
  + by rewrite geq_max leq_maxr leq_max Hk.
  + rewrite kmax_move_all /=; by rewrite geq_max leq_maxr leq_max Hk.
  + by rewrite -[Core (c_N c) _ _ _ _ _ _ _ _ (maxn k _)]/(sk (maxn k (size (sort leq i))) (Core (c_N c) (c_det c) (c_sign c) (c_row c) (c_col c) (c_xs c) (c_ys c) (c_inv c) (c_nopts c) (maxn (c_kmax c) (size (sort leq i))))) move_all_sk.
- case: ifP => // _ [<- <-]; (eexists; [reflexivity|]); split; by exists k.
- case: ifP => // _ [<- <-]; (eexists; [reflexivity|]); split; by exists k.
- case: ifP => // _ [<- <-]; (eexists; [reflexivity|]); split; by exists k.
- case: ifP => // _; case: ifP => E [<- <-]; (eexists; [reflexivity|]); (split; first by exists k); exists k; rewrite /completed /= /complete_refill /= ?E //=.
Qed.
Lemma step_eqs o s s' r s1 : eqs s s' -> step o s = Ok (r, s1) -> exists2 s1', step o s' = Ok (r, s1') & eqs s1 s1'.
Proof.
move=> Hs; have [HL HL' Hc] := Hs; have [k [Hk Ec]] := Hc.
case: o => [t acc|i j|i j|ro| | |] /=.
- case E: (do_try _ _ _ t s) => [[r1 t1]| |] //; have [t1' E' [Hcs Hcc]] := try_eqs Hs E; rewrite E'.
  case: acc; last by move=> [<- <-]; eexists; [reflexivity|split].
  have [N1 _] := try_last E; have [N1' _] := try_last E'.
  case E2: (complete_operation _ _ _ _ _ _ t1) => [t2| |] // [<- <-].
  by have [t2' -> Hf] := complete_eqs N1 N1' Hcc E2; eexists; [reflexivity|].
- rewrite /swap_row Ec /=; case: ifP => _; first by move=> [<- <-]; eexists; [reflexivity|].
  by case: ifP => // _ [<- <-]; eexists; [reflexivity|split=> //=; exists k].
- rewrite /swap_col Ec /=; case: ifP => _; first by move=> [<- <-]; eexists; [reflexivity|].
  by case: ifP => // _ [<- <-]; eexists; [reflexivity|split=> //=; exists k].
- rewrite /roll_matrix Ec /=; case: ro => /=; first by move=> [<- <-]; eexists; [reflexivity|].
  + by case: ifP => // _ [<- <-]; eexists; [reflexivity|split=> //=; exists k].
  + by case: ifP => // _ [<- <-]; eexists; [reflexivity|split=> //=; exists k].
  + by case: ifP => // _ [<- <-]; eexists; [reflexivity|split=> //=; exists k].
  + by case: ifP => // _ [<- <-]; eexists; [reflexivity|split=> //=; exists k].
- by move=> [<- <-]; eexists; [reflexivity|split=> //=; exists k; rewrite Ec].
- rewrite /determinant {1 3 4}Ec /=; case: ifP => _; last by move=> [<- <-]; eexists; [reflexivity|].
  case E: (regenerate false (s_c s)) => [c2| |] // [<- <-]; have [c2' -> [k2 [Hk2 Ek2]]] := regenerate_eqs Hc E.
  by rewrite Ek2 /=; eexists; [reflexivity|split=> //=; exists k2].
- case E: (regenerate false (s_c s)) => [c2| |] // [<- <-]; have [c2' -> Hf] := regenerate_eqs Hc E.
  by eexists; [reflexivity|].
Qed.
Lemma run_eqs h s s' rs s1 : eqs s s' -> run h s = Ok (rs, s1) -> exists2 s1', run h s' = Ok (rs, s1') & eqs s1 s1'.
Proof.
elim: h s s' rs s1 => [|o h IH] s s' rs s1 Hs /=; first by move=> [<- <-]; eexists; [reflexivity|].
case E: (step o s) => [[r t1]| |] //; have [t1' -> Hs1] := step_eqs Hs E.
case E2: (run h t1) => [[rs2 t2]| |] // [<- <-]; have [t2' -> Hs2] := IH _ _ _ _ Hs1 E2.
by eexists; [reflexivity|].
Qed.
Lemma reject_eqs t s r s1 : do_try x0 y0 f t s = Ok (r, s1) -> eqs s (reject_last_try s1).
Proof. by move=> E; have [_ HL] := try_last E; split=> //=; exact: try_core E. Qed.
End Hist.
