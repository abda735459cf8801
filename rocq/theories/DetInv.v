(** The invariant of det_manip and its preservation by each try/complete pair. *)
From mathcomp Require Import all_ssreflect all_algebra.
From Verif Require Import Base FieldTac DetManip DetSpec DetLemmas DetStruct DetMove DetNum DetChange.
Set Implicit Arguments.
Unset Strict Implicit.
Unset Printing Implicit Defensive.
Import GRing.Theory.
Local Open Scope ring_scope.

Section Inv.
Variables (F : fieldType) (X Y : Type) (x0 : X) (y0 : Y) (f : X -> Y -> F).
Add Field Ff : (Fft F).
Notation core := (core F X Y).
Notation state := (state F X Y).
Notation fA := (fA x0 y0 f).
Notation Dn := (Dn x0 y0 f).

Definition SI (c : core) u v : Prop := half x0 (c_N c) (c_row c) (c_xs c) u /\ half y0 (c_N c) (c_col c) (c_ys c) v.
Definition NIi (c : core) : Prop := fmx (c_N c) (c_N c) (fA (c_xs c) (c_ys c)) *m fmx (c_N c) (c_N c) (c_inv c) = 1%:M.
Definition NId (c : core) u v : Prop := sg F (c_sign c) * c_det c = Dn (c_N c) u v.

(** ---- moving rows and columns to the end ---- *)
Definition same_rest (c c' : core) : Prop :=
  [/\ c_N c' = c_N c, c_det c' = c_det c, c_sign c' = c_sign c, c_nopts c' = c_nopts c & c_kmax c' = c_kmax c].

Section Move.
Variables (c : core) (n k : nat) (ir jr : seq nat).
Hypotheses (HN : c_N c = (n + k)%N) (Sir : size ir = k) (Sjr : size jr = k).
Hypotheses (Oir : sorted ltn ir) (Ojr : sorted ltn jr).
Hypotheses (Lir : all (fun p => p < n + k)%N ir) (Ljr : all (fun p => p < n + k)%N jr).
Notation N := (n + k)%N.
Notation sideX := (side x0 N n k ir (c_row c) (c_xs c)).
Notation sideY := (side y0 N n k jr (c_col c) (c_ys c)).
Definition MInv m (c' : core) : Prop :=
  same_rest c c' /\ exists sr sc, [/\ sideX m (c_row c') (c_xs c') sr, sideY m (c_col c') (c_ys c') sc &
    forall a b, (a < N)%N -> (b < N)%N -> c_inv c' a b = c_inv c (nth 0%N sc a) (nth 0%N sr b)].
Lemma move_step m c' : (m < k)%N -> MInv m.+1 c' ->
  MInv m (move_col y0 (nth 0%N jr m) (c_N c' - k + m)%N (move_row x0 (nth 0%N ir m) (c_N c' - k + m)%N c')).
Proof.
move=> Hm [[E1 E2 E3 E4 E5] [sr [sc [HX HY HI]]]].
rewrite E1 HN addnK.
have SX := side_step (erefl N) Sir Oir Lir Hm HX; have SY := side_step (erefl N) Sjr Ojr Ljr Hm HY.
have Li := ir_lt Sir Lir Hm; have Lj := ir_lt Sjr Ljr Hm.
have Lt : (n + m < N)%N by rewrite ltn_add2l.
split.
  by rewrite /move_col /move_row; case: ifP => _; case: ifP => _; split.
exists (mv_s N (nth 0%N ir m) (n + m)%N sr), (mv_s N (nth 0%N jr m) (n + m)%N sc); split.
- by move: SX; rewrite /mv_row /mv_xs /move_col /move_row; case: ifP => _; case: ifP.
- by move: SY; rewrite /mv_row /mv_xs /move_col /move_row; case: ifP => _; case: ifP.
- move=> a b Ha Hb; rewrite !nth_mv_s //.
  rewrite -HI ?swp_lt // /move_col /move_row.
  by case: (eqVneq (nth 0%N jr m) (n + m)%N) => [->|Nj]; case: (eqVneq (nth 0%N ir m) (n + m)%N) => [->|Ni] /=; rewrite ?swp_same.
Qed.
Lemma move_allP : SI c (map (nth x0 (c_xs c)) (c_row c)) (map (nth y0 (c_ys c)) (c_col c)) -> MInv 0 (move_all x0 y0 ir jr c).
Proof.
case=> [[Pr Sx _] [Pc Sy _]]; rewrite HN in Pr Sx Pc Sy.
have H0 : MInv k c.
  split=> //; exists (iota 0 N), (iota 0 N); split.
  - exact: side_init (erefl _) Sir Lir _ _ (erefl _) (erefl _) Pr Sx.
  - exact: side_init (erefl _) Sjr Ljr _ _ (erefl _) (erefl _) Pc Sy.
  - by move=> a b Ha Hb; rewrite !nth_iota.
rewrite /move_all Sir.
have G : forall j c', (j <= k)%N -> MInv j c' -> MInv 0 (foldl (fun c m => let target := (c_N c - k + m)%N in
                    move_col y0 (nth 0%N jr m) target (move_row x0 (nth 0%N ir m) target c)) c' (rev (iota 0 j))).
  elim=> [|j IH] c' Hj HI //.
  rewrite -addn1 iotaD rev_cat /= add0n; apply: IH; first exact: ltnW.
  exact: move_step.
exact: G.
Qed.
End Move.

(** ---- removal ---- *)
Lemma delete_filter (T : Type) (t0 : T) n row xs u (ps : seq nat) :
  half t0 n row xs u -> all (fun p => p < n)%N ps ->
  delete_many t0 ps u = [seq nth t0 xs a | a <- row & a \notin [seq nth 0%N row p | p <- ps]].
Proof.
move=> Hh Lp; have [Pr Sx ->] := Hh; have Sr := perm_iota_size Pr.
rewrite /delete_many size_map Sr.
have E : row = [seq nth 0%N row p | p <- iota 0 n] by rewrite -{1}Sr -/(mkseq _ _) mkseq_nth.
rewrite {3}E filter_map -map_comp.
have Ef : [seq p <- iota 0 n | p \notin ps] = [seq p <- iota 0 n | preim (nth 0%N row) (fun a => a \notin [seq nth 0%N row p | p <- ps]) p].
  apply: eq_in_filter => p; rewrite mem_iota /= add0n => Hp; congr (~~ _).
  apply/idP/mapP => [Hm|[q Hq /eqP]]; first by exists p.
  by rewrite (perm_nth_inj Pr Hp (allP Lp _ Hq)) => /eqP ->.
rewrite -Ef; apply/eq_in_map => p; rewrite mem_filter mem_iota /= add0n => /andP [_ Hp].
by rewrite (nth_map 0%N) ?Sr.
Qed.
Lemma rows_sorted n (row ps : seq nat) k : perm_eq row (iota 0 n) -> uniq ps -> size ps = k -> all (fun p => p < n)%N ps ->
  let ir := sort leq [seq nth 0%N row p | p <- ps] in
  [/\ size ir = k, sorted ltn ir, all (fun p => p < n)%N ir & ir =i [seq nth 0%N row p | p <- ps]].
Proof.
move=> Pr U Sp Lp ir; split.
- by rewrite size_sort size_map.
- apply: sorted_leq_uniq; first by apply: sort_sorted; exact: leq_total.
  rewrite sort_uniq map_inj_in_uniq // => p q Hp Hq /eqP.
  by rewrite (perm_nth_inj Pr) ?(allP Lp) // => /eqP.
- apply/allP => a; rewrite mem_sort => /mapP [p Hp ->].
  exact: perm_nth_lt Pr (allP Lp _ Hp).
- by move=> a; rewrite mem_sort.
Qed.
Section RemoveMain.
Variables (c : core) (n k : nat) (ps qs : seq nat) (u : seq X) (v : seq Y).
Hypotheses (HN : c_N c = (n + k)%N) (HS : SI c u v).
Hypotheses (Sp : size ps = k) (Sq : size qs = k) (Up : uniq ps) (Uq : uniq qs).
Hypotheses (Lp : all (fun p => p < n + k)%N ps) (Lq : all (fun p => p < n + k)%N qs).
Notation N := (n + k)%N.
Let ir := sort leq [seq nth 0%N (c_row c) p | p <- ps].
Let jr := sort leq [seq nth 0%N (c_col c) p | p <- qs].
Let c1 := move_all x0 y0 ir jr c.
Lemma remove_main :
  [/\ same_rest c c1,
      half x0 n (take n (std_remove (leq n) (c_row c1))) (take n (c_xs c1)) (delete_many x0 ps u),
      half y0 n (take n (std_remove (leq n) (c_col c1))) (take n (c_ys c1)) (delete_many y0 qs v) &
      (NIi c -> exists g, fmx N N g *m fmx N N (c_inv c1) = 1%:M /\
                 (forall i j, (i < n)%N -> (j < n)%N -> g i j = fA (take n (c_xs c1)) (take n (c_ys c1)) i j))].
Proof.
have [Hx Hy] := HS; rewrite HN in Hx Hy.
have [Pr Sx Eu] := Hx; have [Pc Sy Ev] := Hy.
have [Sir Oir Lir Mir] := rows_sorted Pr Up Sp Lp.
have [Sjr Ojr Ljr Mjr] := rows_sorted Pc Uq Sq Lq.
have H0 : SI c (map (nth x0 (c_xs c)) (c_row c)) (map (nth y0 (c_ys c)) (c_col c)) by rewrite -Eu -Ev.
have [HR [sr [sc [HX HY HI]]]] := move_allP HN Sir Sjr Oir Ojr Lir Ljr H0.
have [Er Fr Sxs Ex] := side_final (erefl N) Sir HX.
have [Ec Fc Sys Ey] := side_final (erefl N) Sjr HY.
split=> //.
- split=> //; rewrite Ex (delete_filter Hx Lp).
  by congr (map _ _); apply: eq_filter => a; rewrite Mir.
- split=> //; rewrite Ey (delete_filter Hy Lq).
  by congr (map _ _); apply: eq_filter => a; rewrite Mjr.
- rewrite /NIi HN => HM.
  have [[_ Psr _ _] Ax _ _] := HX; have [[_ Psc _ _] Ay _ _] := HY.
  exists (fun i j => fA (c_xs c) (c_ys c) (nth 0%N sr i) (nth 0%N sc j)); split.
    rewrite -(reidx Psr Psc HM); congr (_ *m _); apply: eq_fmx => a b Ha Hb; exact: HI.
  move=> i j Hi Hj; rewrite /DetNum.fA !nth_take // Ax ?addn0 // Ay ?addn0 //.
Qed.
End RemoveMain.
End Inv.
