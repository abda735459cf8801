(** Each try/complete pair of det_manip keeps the invariant. *)
From mathcomp Require Import all_ssreflect all_algebra.
From Verif Require Import Base FieldTac DetManip DetSpec DetLemmas DetStruct DetMove DetNum DetChange DetInv.
Set Implicit Arguments.
Unset Strict Implicit.
Unset Printing Implicit Defensive.
Import GRing.Theory.
Local Open Scope ring_scope.

Section Try.
Variables (F : fieldType) (X Y : Type) (x0 : X) (y0 : Y) (f : X -> Y -> F).
Add Field Ff : (Fft F).
Notation core := (core F X Y).
Notation state := (state F X Y).
Notation fA := (fA x0 y0 f).
Notation Dn := (Dn x0 y0 f).
Notation SI := (@SI F X Y x0 y0).
Notation NIi := (@NIi F X Y x0 y0 f).
Notation NId := (@NId F X Y x0 y0 f).

Definition fin_core (c : core) nd ns : core :=
  Core (c_N c) nd ns (c_row c) (c_col c) (c_xs c) (c_ys c) (c_inv c) (c_nopts c).+1 (c_kmax c).
Definition completed (s : state) : core :=
  let std c := fin_core c (s_newdet s) (s_newsign s) in
  match s_last s with
  | NoTry => s_c s
  | Insert => std (complete_insert s)
  | Remove => std (complete_remove x0 y0 s)
  | ChangeCol => std (complete_change_col y0 s)
  | ChangeRow => std (complete_change_row x0 s)
  | ChangeRowCol => std (complete_change_col_row x0 y0 s)
  | InsertK => std (complete_insert_k s)
  | RemoveK => std (complete_remove_k x0 y0 s)
  | Refill => let '(c, nd, ns) := complete_refill s in fin_core c nd ns
  end.
(** s: before the try; s1: after it *)
Definition good (s s1 : state) (r : F) (u : seq X) (v : seq Y) (u' : seq X) (v' : seq Y) : Prop :=
  SI (completed s1) u' v' /\
  (NIi (s_c s) -> NId (s_c s) u v ->
    [/\ r * Dn (c_N (s_c s)) u v = Dn (c_N (completed s1)) u' v', NId (completed s1) u' v' &
        (Dn (c_N (completed s1)) u' v' != 0 -> NIi (completed s1))]).

Lemma sgnE b n : sg F (if odd n then ~~ b else b) = (-1) ^+ n * sg F b.
Proof. by rewrite -sg_odd -sg_addb; case: (odd n). Qed.
Lemma ratioE (d sb pn : F) : d * (pn * sb * sb) = pn * d * (sb * sb).
Proof. fring F. Qed.
Lemma sumn_split k (a b : seq nat) : size a = k -> size b = k -> (\sum_(l < k) (nth 0 a l + nth 0 b l) = sumn a + sumn b)%N.
Proof.
move=> Sa Sb; rewrite big_split /= !sumnE.
by rewrite (@big_nth _ _ _ _ 0%N a) (@big_nth _ _ _ _ 0%N b) Sa Sb !big_mkord.
Qed.

Lemma sumN_opp n (g : nat -> F) : sumN n (fun l => - g l) = - sumN n g.
Proof. by rewrite /sumN sumrN. Qed.
Lemma sumN_deltaL n a (g : nat -> F) : (a < n)%N -> sumN n (fun l => - (a == l)%:R * g l) = - g a.
Proof. by move=> Ha; rewrite -(sumN_delta g Ha) -sumN_opp; apply: eq_sumN => l _; rewrite mulNr eq_sym. Qed.
Lemma sumN_deltaR n a (g : nat -> F) : (a < n)%N -> sumN n (fun l => g l * - (l == a)%:R) = - g a.
Proof. by move=> Ha; rewrite -(sumN_delta g Ha) -sumN_opp; apply: eq_sumN => l _; rewrite mulrN mulrC. Qed.

Lemma insk_det n k row col xs ys u v M ps qs ws zs :
  half x0 n row xs u -> half y0 n col ys v -> fmx n n (fA xs ys) *m fmx n n M = 1%:M ->
  size ps = k -> size qs = k -> size ws = k -> size zs = k -> seq_ok n ps -> seq_ok n qs ->
  Dn (n + k) (insk ps ws u) (insk qs zs v) = (-1) ^+ (sumn ps + sumn qs) * nda_det k (iksi x0 y0 f n xs ys M ws zs) * Dn n u v.
Proof.
move=> Hx Hy HM Sp Sq Sw Sz Op Oq.
by rewrite Dn_insk ?(half_size Hx) ?(half_size Hy) // (insert_det k ws zs Hx Hy HM) mulrA.
Qed.
Lemma Dn0 u v : Dn 0 u v = 1.
Proof. by rewrite /DetNum.Dn /nda_det det_mx00. Qed.
Lemma nda_det1 (g : nat -> nat -> F) : nda_det 1 g = g 0%N 0%N.
Proof. by rewrite /nda_det det_mx11 mxE. Qed.
Lemma fmx0 (g h : nat -> nat -> F) : fmx 0 0 g *m fmx 0 0 h = 1%:M.
Proof. by apply/matrixP => -[]. Qed.
Lemma sumN1 (g : nat -> F) : sumN 1 g = g 0%N.
Proof. by rewrite /sumN big_ord1. Qed.
Lemma fmx1P (g h : nat -> nat -> F) : g 0%N 0%N * h 0%N 0%N = 1 -> fmx 1 1 g *m fmx 1 1 h = 1%:M.
Proof. by move=> H; apply/matrixP => a b; rewrite !ord1 !mxE big_ord1 !mxE /= H. Qed.

Lemma nda_inv1 (g : nat -> nat -> F) : nda_inv 1 g 0%N 0%N = (g 0%N 0%N)^-1.
Proof.
have E : nda_inv 1 g 0%N 0%N = (invmx (fmx 1 1 g)) ord0 ord0 by rewrite -nda_inv_fmx mxE.
rewrite E; case: (eqVneq (g 0%N 0%N) 0) => [g0|Hg].
  rewrite g0 invr0 invmx_out; first by rewrite mxE g0.
  have U : (fmx 1 1 g \in unitmx) = false by rewrite unitmxE det_mx11 mxE g0 unitr0.
  by rewrite inE /= U.
have /matrixP/(_ ord0 ord0) : fmx 1 1 g *m invmx (fmx 1 1 g) = 1%:M by rewrite mulmxV // unitmxE det_mx11 mxE unitfE.
by rewrite !mxE big_ord1 mxE /= => H; apply: (mulfI Hg); rewrite H mulfV.
Qed.

Lemma good_insert s i j x y r s1 u v : SI (s_c s) u v -> try_insert x0 y0 f i j x y s = Ok (r, s1) ->
  good s s1 r u v (insert_at i x u) (insert_at j y v).
Proof.
case: s => c w wk wr nd ns lt /= HS; rewrite /try_insert /=; case: lt => //.
case: ifP => // /negbFE /andP [Hi Hj].
have [Hx Hy] := HS; have [Pr Sx Eu] := Hx; have [Pc Sy Ev] := Hy.
case: ifP => [/eqP N0|N0].
  rewrite N0 in Hi Hj Hx Hy Pr Sx Pc Sy; move: Hi Hj; rewrite !leqn0 => /eqP -> /eqP -> [<- <-].
  have Er : c_row c = [::] by apply/size0nil; rewrite (perm_size Pr).
  have Ec : c_col c = [::] by apply/size0nil; rewrite (perm_size Pc).
  have Exs := size0nil Sx; have Eys := size0nil Sy.
  rewrite /good /completed /= /complete_insert /= N0 eqxx /= Er Ec Exs Eys /=.
  have Eu0 : u = [::] by rewrite Eu Er. have Ev0 : v = [::] by rewrite Ev Ec.
  rewrite Eu0 Ev0 /insert_at /=; split; first by split; split.
  move=> _ _; rewrite Dn0 mulr1 /DetInv.NId /DetInv.NIi /= /DetNum.Dn !nda_det1 /DetNum.fA /= /sg expr0 mul1r; split=> // Hf.
  by apply: fmx1P; rewrite /upd /= mul1r mulfV.
move=> [<- <-].
have N0' : (c_N c == 0)%N = false by [].
rewrite /good /completed /= /complete_insert /= N0 /= /DetInv.SI /DetInv.NId /DetInv.NIi /=.
have Op : seq_ok (c_N c) [:: i] by rewrite /= Hi.
have Oq : seq_ok (c_N c) [:: j] by rewrite /= Hj.
split.
  split.
  - have := @half_insk _ x0 _ _ _ _ [:: i] [:: x] Hx erefl Op.
    by rewrite /= addn1 !cats1.
  - have := @half_insk _ y0 _ _ _ _ [:: j] [:: y] Hy erefl Oq.
    by rewrite /= addn1 !cats1.
move=> HM HD.
have HDet := @insk_det _ 1 _ _ _ _ _ _ _ [:: i] [:: j] [:: x] [:: y] Hx Hy HM erefl erefl erefl erefl Op Oq.
have Ek : iksi x0 y0 f (c_N c) (c_xs c) (c_ys c) (c_inv c) [:: x] [:: y] 0%N 0%N =
   f x y - sumN (c_N c) (fun l => f x (nth y0 (c_ys c) l) * sumN (c_N c) (fun l0 => c_inv c l l0 * f (nth x0 (c_xs c) l0) y)) by [].
rewrite nda_det1 Ek addn1 /= !addn0 in HDet.
set ksi := _ - _ in HDet *; rewrite sgnE -/(insert_at i x u) -/(insert_at j y v) in HDet *.
rewrite /insert_at -/(ins i x u) -/(ins j y v) HDet.
split.
- by rewrite ratioE sg_sq mulr1.
- by rewrite -HD; set a := _ ^+ _; set b := sg _ _; fring F.
- rewrite mulf_eq0 negb_or mulf_eq0 negb_or => /andP [/andP [_ Hk] _].
  rewrite -!cats1 -addn1; apply: (@insert_inv _ _ _ x0 y0 f _ 1 _ _ _ _ _ _ _ [:: x] [:: y] Hx Hy HM (fun _ _ => 1 / ksi)).
  + by apply: fmx1P; rewrite mul1r mulfV.
  + move=> a b Ha Hb; rewrite /upd !ltn_eqF //= !sumN1 /iMB /iC /=.
    rewrite (@eq_sumN F _ (fun l => f x (nth y0 (c_ys c) l) * c_inv c l b) (fun l => c_inv c l b * f x (nth y0 (c_ys c) l))); last by move=> l _; rewrite mulrC.
    by rewrite /iB /= mulrA (mulrC (1 / ksi)) -!mulrA.
  + move=> a b Ha; rewrite ltnS leqn0 => /eqP ->; rewrite addn0 /upd eqxx ltn_eqF //= sumN1 /iMB /iB /=.
    by rewrite add0r mulrN1 (mulrC (1 / ksi)).
  + move=> a b; rewrite ltnS leqn0 => /eqP -> Hb; rewrite addn0 /upd eqxx ltn_eqF //= !sumN1 /iC /=.
    rewrite add0r mulrN1 mulNr; congr (- (_ * _)); apply: eq_sumN => l _; exact: mulrC.
  + move=> a b; rewrite !ltnS !leqn0 => /eqP -> /eqP ->; rewrite addn0 /upd eqxx /=.
    by rewrite add0r -mulrA mulN1r opprK mulr1.
Qed.

Lemma argsort_spec bound i (T : Type) (t0 : T) (xs : seq T) :
  let wi := [seq nth 0%N i a | a <- argsort i] in
  checked bound wi -> (last 0 wi < bound)%N ->
  [/\ sorted ltn wi, all (fun p => p < bound)%N wi & size wi = size i] /\
  (forall l, insert_many t0 wi [seq nth t0 xs a | a <- argsort i] l = insert_many t0 i xs l).
Proof.
move=> wi Hc Hl.
have [H1 H2] := checked_sorted (argsort_sorted i) Hc Hl.
split; first by split=> //; rewrite size_map argsort_size.
move=> l; apply: insert_many_perm; last exact: argsort_perm.
rewrite -(perm_uniq (argsort_map_perm i)).
by apply: sorted_uniq H1; [exact: ltn_trans | exact: ltnn].
Qed.
Lemma fill_iota k m (w l : seq nat) : size l = k -> (m <= k)%N -> w = iota 0 k ->
  foldl (fun l m => set_nth 0%N l (nth 0%N w m) m) l (iota 0 m) = iota 0 m ++ drop m l.
Proof.
move=> Sl Hm Ew; elim: m Hm => [|m IH] Hm; first by rewrite drop0.
rewrite -addn1 iotaD foldl_cat IH ?(ltnW Hm) //= add0n Ew nth_iota // add0n.
have Sd : size (iota 0 m ++ drop m l) = k by rewrite size_cat size_iota size_drop Sl subnKC // ltnW.
rewrite replace_set ?Sd // /replace_at take_size_cat ?size_iota //.
rewrite drop_cat size_iota ltnNge leqnSn /= subSnn drop_drop add1n -catA /= addn1 //.
Qed.
Lemma good_insertk s i j x y r s1 u v : SI (s_c s) u v -> try_insert_k x0 y0 f i j x y s = Ok (r, s1) ->
  good s s1 r u v (insert_many x0 i x u) (insert_many y0 j y v).
Proof.
case: s => c w wk wr nd ns lt /= HS; rewrite /try_insert_k /=; case: lt => //.
case: ifP => // /negbFE /andP [/andP [/eqP Sij /eqP Sjx] /eqP Sxy].
case: ifP => // _; case: ifP => // /negbFE /andP [Ci Cj]; case: ifP => // /negbFE /andP [Li Lj].
have [[Oi Ai Si_] Ei] := argsort_spec x0 x Ci Li.
have [[Oj Aj Sj_] Ej] := argsort_spec y0 y Cj Lj.
move: {Ei Ej} (Ei u) (Ej v) {Ci Cj Li Lj} Oi Ai Si_ Oj Aj Sj_.
set wi := map (nth 0%N i) _; set wj := map (nth 0%N j) _; set wx := map (nth x0 x) _; set wy := map (nth y0 y) _.
have Sx : size wx = size i by rewrite size_map argsort_size.
have Sy : size wy = size i by rewrite size_map argsort_size -Sij.
rewrite -Sij; move: (size i) Sx Sy => k Sx Sy {Sij Sjx Sxy}.
move: wi wj wx wy Sx Sy => wi wj wx wy Sx Sy Ei Ej Oi Ai Si_ Oj Aj Sj_.
rewrite -Ei -Ej {Ei Ej}.
have [Hx Hy] := HS; have [Pr Sxs Eu] := Hx; have [Pc Sys Ev] := Hy.
have Ski : seq_ok (c_N c) wi by apply: sorted_seq_ok; rewrite ?Si_.
have Skj : seq_ok (c_N c) wj by apply: sorted_seq_ok; rewrite ?Sj_.
rewrite -(@insk_many _ x0 wi wx) ?(half_size Hx) ?Sx // -(@insk_many _ y0 wj wy) ?(half_size Hy) ?Sy //.
have EiK := fun M => @insk_det _ k _ _ _ _ _ _ M wi wj wx wy Hx Hy.
case: ifP => [/eqP N0|N0] [<- <-].
  rewrite N0 in Hx Hy Pr Sxs Pc Sys Ski Skj Ai Aj EiK.
  have Er : c_row c = [::] by apply/size0nil; rewrite (perm_size Pr).
  have Ec : c_col c = [::] by apply/size0nil; rewrite (perm_size Pc).
  have Exs := size0nil Sxs; have Eys := size0nil Sys.
  have Ewi : wi = iota 0 k by rewrite -Si_; apply: sorted_full; rewrite // Si_.
  have Ewj : wj = iota 0 k by rewrite -Sj_; apply: sorted_full; rewrite // Sj_.
  have Eu0 : u = [::] by rewrite Eu Er. have Ev0 : v = [::] by rewrite Ev Ec.
  rewrite /good /completed /= /complete_insert_k /= N0 eqxx /= Er Ec Exs Eys /DetInv.SI /DetInv.NIi /DetInv.NId /= det_ksiE.
  rewrite !(@fill_iota k) ?size_nseq // drop_oversize ?size_nseq // cats0.
  have Lk (T : Type) (t0 : T) (ws : seq T) : size ws = k -> insk (iota 0 k) ws [::] = ws.
    move=> Sw; rewrite (insk_many t0) ?size_iota ?Sw //; last 2 first.
    - exact: iota_ltn_sorted.
    - by rewrite -Ewi.
    rewrite /insert_many size_iota -[RHS](mkseq_nth t0) Sw; apply/eq_in_map => p; rewrite mem_iota /= !add0n => Hp.
    rewrite Hp; congr (nth t0 ws _); have := @index_uniq _ 0%N p (iota 0 k); rewrite size_iota nth_iota // iota_uniq add0n; exact.
  rewrite Eu0 Ev0 Ewi Ewj (Lk _ x0) // (Lk _ y0) //.
  split.
    have Em (T : Type) (t0 : T) (ws : seq T) : size ws = k -> ws = [seq nth t0 ws a | a <- iota 0 k].
      by move=> <-; rewrite -/(mkseq _ _) mkseq_nth.
    by split; split=> //; exact: Em.
  move=> _ _; rewrite Dn0 mulr1 /sg expr0 mul1r; split=> // HD.
  exact: nda_invP.
rewrite /good /completed /= /complete_insert_k /= N0 /= /DetInv.SI /DetInv.NId /DetInv.NIi /= !det_ksiE.
split.
  split.
  - by have := half_insk Hx (etrans Si_ (esym Sx)) Ski; rewrite Si_.
  - by have := half_insk Hy (etrans Sj_ (esym Sy)) Skj; rewrite Sj_.
move=> HM HD; have {EiK} HDet := EiK _ HM Si_ Sj_ Sx Sy Ski Skj.
rewrite (sumn_split Si_ Sj_) sgnE HDet -/(iksi x0 y0 f (c_N c) (c_xs c) (c_ys c) (c_inv c) wx wy).
set K := iksi _ _ _ _ _ _ _ _ _ in HDet *.
split.
- by rewrite ratioE sg_sq mulr1.
- by rewrite -HD; set a := _ ^+ _; set b := sg _ _; set d := nda_det _ _; fring F.
- rewrite mulf_eq0 negb_or mulf_eq0 negb_or => /andP [/andP [_ Hk] _].
  apply: (@insert_inv _ _ _ x0 y0 f _ k _ _ _ _ _ _ _ wx wy Hx Hy HM (nda_inv k K)).
  + exact: nda_invP.
  + move=> a b Ha Hb; rewrite !(leqNgt (c_N c)) Ha Hb /=; congr (_ + _).
  + move=> a b Ha Hb; rewrite leq_addr orbT add0r -sumN_opp; apply: eq_sumN => p _.
    rewrite Ha ltnNge leq_addr addKn -mulrN; congr (_ * _); exact: sumN_deltaR.
  + move=> a b Ha Hb; rewrite leq_addr add0r; under eq_sumN => l Hl do rewrite ltnNge leq_addr addKn Hb.
    exact: (sumN_deltaL (fun l => sumN k (fun q => nda_inv k K l q * _))).
  + move=> a b Ha Hb; rewrite leq_addr add0r; under eq_sumN => l Hl do rewrite ltnNge leq_addr addKn ltnNge leq_addr addKn.
    rewrite (sumN_deltaL (fun l => sumN k (fun q => nda_inv k K l q * - (q == b)%:R))) // (sumN_deltaR (nda_inv k K a)) // opprK //.
Qed.

(** the core after removing k rows and columns, without the determinant *)
Definition cut_core (k : nat) (ir jr : seq nat) (c : core) : core :=
  let c := move_all x0 y0 ir jr c in
  let N := (c_N c - k)%N in
  let ksi := nda_inv k (fun a b => c_inv c (N + a)%N (N + b)%N) in
  Core N (c_det c) (c_sign c) (take N (std_remove (leq N) (c_row c))) (take N (std_remove (leq N) (c_col c)))
       (take N (c_xs c)) (take N (c_ys c))
       (fun a b => c_inv c a b - sumN k (fun l => c_inv c a (N + l)%N * sumN k (fun m => ksi l m * c_inv c (N + m)%N b)))
       (c_nopts c) (c_kmax c).
Lemma cutP c n k ps qs u v : c_N c = (n + k)%N -> SI c u v -> size ps = k -> size qs = k -> uniq ps -> uniq qs ->
  all (fun p => p < n + k)%N ps -> all (fun p => p < n + k)%N qs ->
  let c' := cut_core k (sort leq [seq nth 0%N (c_row c) p | p <- ps]) (sort leq [seq nth 0%N (c_col c) p | p <- qs]) c in
  [/\ c_N c' = n, SI c' (delete_many x0 ps u) (delete_many y0 qs v) &
      (NIi c -> Dn n (delete_many x0 ps u) (delete_many y0 qs v) != 0 -> NIi c')].
Proof.
move=> HN HS Sp Sq Up Uq Lp Lq c'.
have [[E1 _ _ _ _] Hx Hy HM] := remove_main f HN HS Sp Sq Up Uq Lp Lq.
have En : c_N c' = n by rewrite /c' /cut_core /= E1 HN addnK.
split=> //; first by rewrite /DetInv.SI En /c' /cut_core /= E1 HN addnK.
move=> HI HD; have {HM HI} [g [Hg Eg]] := HM HI.
rewrite /DetInv.NIi En /c' /cut_core /= E1 HN addnK.
move: Hx Hy Hg Eg; move: (move_all _ _ _ _ _) => c1 Hx Hy Hg Eg.
have Dg : nda_det n g != 0.
  rewrite (eq_nda_det Eg); move: HD; rewrite (half_det f Hx Hy) mulf_eq0 negb_or => /andP [_ H]; exact: H.
have Hs : nda_det k (fun a b => c_inv c1 (n + a)%N (n + b)%N) != 0.
  by move: Dg; rewrite (cut_det Hg) mulf_eq0 negb_or => /andP [].
rewrite -[RHS](@cut_inv F X Y n k [::] [::] _ _ _ Hg (nda_invP Hs)); congr (_ *m _).
by apply: eq_fmx => a b Ha Hb; rewrite Eg.
Qed.
Lemma delete_all (T : Type) (t0 : T) (ps : seq nat) (w : seq T) :
  uniq ps -> all (fun p => p < size ps)%N ps -> size w = size ps -> delete_many t0 ps w = [::].
Proof.
move=> U A S; rewrite /delete_many S.
have [] := uniq_min_size U (s2 := iota 0 (size ps)); rewrite ?size_iota //.
  by move=> p /(allP A); rewrite mem_iota.
move=> _ E; rewrite (eq_in_filter (a2 := pred0)) ?filter_pred0 // => p.
by rewrite -E => /= ->.
Qed.
Lemma good_removek s i j r s1 u v : SI (s_c s) u v -> try_remove_k i j s = Ok (r, s1) ->
  good s s1 r u v (delete_many x0 i u) (delete_many y0 j v).
Proof.
case: s => c w wk wr nd ns lt /= HS; rewrite /try_remove_k /=; case: lt => //.
case: ifP => // /negbFE /andP [_ /eqP Sij]; case: ifP => // _.
case: ifP => // /negbFE /andP [Ci Cj]; case: ifP => // /negbFE /andP [Li Lj].
have [Oi Ai] := checked_sorted (sort_sorted leq_total i) Ci Li.
have [Oj Aj] := checked_sorted (sort_sorted leq_total j) Cj Lj.
have -> : delete_many x0 i u = delete_many x0 (sort leq i) u by congr (map _ _); apply: eq_filter => p; rewrite mem_sort.
have -> : delete_many y0 j v = delete_many y0 (sort leq j) v by congr (map _ _); apply: eq_filter => p; rewrite mem_sort.
move: Oi Ai Oj Aj Sij {Ci Cj Li Lj}; rewrite !det_ksiE.
move: (sort leq i) (sort leq j) => ps qs Oi Ai Oj Aj Sij.
have [Hx Hy] := HS; have [Pr Sxs Eu] := Hx; have [Pc Sys Ev] := Hy.
have Up : uniq ps by apply: sorted_uniq Oi; [exact: ltn_trans | exact: ltnn].
have Uq : uniq qs by apply: sorted_uniq Oj; [exact: ltn_trans | exact: ltnn].
have Hle : (size ps <= c_N c)%N.
  have := uniq_leq_size Up (s2 := iota 0 (c_N c)); rewrite size_iota; apply.
  by move=> p /(allP Ai); rewrite mem_iota.
pose n := (c_N c - size ps)%N; have HN : c_N c = (n + size ps)%N by rewrite /n subnK.
move: Sij; move Ek : (size ps) => k Sij; move: Hle HN; rewrite Ek => Hle HN [<- <-].
set c2 := Core (c_N c) (c_det c) (c_sign c) (c_row c) (c_col c) (c_xs c) (c_ys c) (c_inv c) (c_nopts c) (maxn _ _).
rewrite HN in Hx Hy Ai Aj.
have EDet : NIi c -> Dn n (delete_many x0 ps u) (delete_many y0 qs v) =
   (-1) ^+ (sumn ps + sumn qs) * nda_det k (rksi (c_row c) (c_col c) (c_inv c) ps qs) * Dn (n + k) u v.
  by rewrite /DetInv.NIi HN => HM; apply: (remove_det Hx Hy HM).
have EK : nda_det k (fun a b => c_inv c (nth 0%N [seq nth 0%N (c_col c) a | a <- qs] a) (nth 0%N [seq nth 0%N (c_row c) a | a <- ps] b)) =
   nda_det k (rksi (c_row c) (c_col c) (c_inv c) ps qs).
  by apply: eq_nda_det => a b Ha Hb; rewrite /rksi !(nth_map 0%N) ?Ek -?Sij.
have [E1 E2 E3] := @cutP c2 n k ps qs u v HN HS Ek (esym Sij) Up Uq Ai Aj.
set c3 := cut_core _ _ _ _ in E1 E2 E3.
pose sf := if odd (sumn ps + sumn qs) then ~~ c_sign c else c_sign c.
pose d := nda_det k (rksi (c_row c) (c_col c) (c_inv c) ps qs).
have Ecomp : completed (St c2 w (WK k (k_x wk) (k_y wk) ps qs [seq nth 0%N (c_row c) a | a <- ps] [seq nth 0%N (c_col c) a | a <- qs]
     (k_MB wk) (k_MC wk) (k_B wk) (k_C wk) (fun a b => c_inv c (nth 0%N [seq nth 0%N (c_col c) a | a <- qs] a) (nth 0%N [seq nth 0%N (c_row c) a | a <- ps] b)))
     wr (c_det c * d) sf RemoveK) =
   fin_core (if c_N c == k then clear_core c2 else c3) (c_det c * d) sf by [].
rewrite (sumn_split Ek (esym Sij)) EK -/sf -/d /good Ecomp {Ecomp} /=.
have Sd : c_N (if c_N c == k then clear_core c2 else c3) = n by case: eqP => [E|//]; rewrite /= /n E Ek subnn.
have Hsi : SI (if c_N c == k then clear_core c2 else c3) (delete_many x0 ps u) (delete_many y0 qs v).
  case: eqP => [E|_ //].
  have n0 : n = 0%N by rewrite /n E Ek subnn.
  rewrite n0 add0n in Ai Aj Hx Hy.
  rewrite !delete_all // ?(half_size Hx) ?(half_size Hy) ?Ek -?Sij //; split; split=> //.
split.
  by move: Hsi; rewrite /DetInv.SI /fin_core.
move=> HM HD; rewrite /DetInv.NId /DetInv.NIi /fin_core /= Sd; move: (HM) => /EDet ->.
rewrite -HN in HD *; split.
- by rewrite /sf sgnE -/d ratioE sg_sq mulr1.
- by rewrite /sf sgnE -HD -/d; set a := _ ^+ _; set b := sg _ _; fring F.
- move=> HD2; case: eqP => [E|_].
    have -> : n = 0%N by rewrite /n E Ek subnn.
    exact: fmx0.
  have {E3} := E3 HM; rewrite (EDet HM) -HN => /(_ HD2); rewrite /DetInv.NIi E1; exact.
Qed.
Lemma std_remove1 n (row : seq nat) : all (fun a => a <= n)%N row -> std_remove (pred1 n) row = std_remove (leq n) row.
Proof.
move=> /allP A; rewrite /std_remove; have -> // : filter (predC (pred1 n)) row = filter (predC (leq n)) row.
apply: eq_in_filter => a /A Ha; rewrite /= -ltnNge ltn_neqAle Ha andbT //.
Qed.
Lemma good_remove s i j r s1 u v : SI (s_c s) u v -> try_remove i j s = Ok (r, s1) ->
  good s s1 r u v (delete_at i u) (delete_at j v).
Proof.
case: s => c w wk wr nd ns lt /= HS; rewrite /try_remove /=; case: lt => //.
case: ifP => // /negbFE /andP [Hi Hj] [<- <-].
have [Hx Hy] := HS; have [Pr Sxs Eu] := Hx; have [Pc Sys Ev] := Hy.
rewrite (delete_at_many x0) ?(half_size Hx) // (delete_at_many y0) ?(half_size Hy) //.
have HN : c_N c = ((c_N c).-1 + 1)%N by rewrite addn1 (ltn_predK Hi).
move En : (c_N c).-1 => n; rewrite En in HN.
have Ai : all (fun p => p < n + 1)%N [:: i] by rewrite /= -HN Hi.
have Aj : all (fun p => p < n + 1)%N [:: j] by rewrite /= -HN Hj.
rewrite HN in Hx Hy.
have EDet : NIi c -> Dn n (delete_many x0 [:: i] u) (delete_many y0 [:: j] v) =
   (-1) ^+ (i + j) * c_inv c (nth 0%N (c_col c) j) (nth 0%N (c_row c) i) * Dn (n + 1) u v.
  rewrite /DetInv.NIi HN => HM; have := @remove_det _ _ _ x0 y0 f n 1 _ _ _ _ _ _ _ [:: i] [:: j] Hx Hy HM.
  by rewrite nda_det1 /= !addn0; apply.
have [E1 E2 E3] := @cutP c n 1 [:: i] [:: j] u v HN HS erefl erefl erefl erefl Ai Aj.
rewrite /= in E1 E2 E3; set c3 := cut_core _ _ _ _ in E1 E2 E3.
set sf := if _ then _ else _; set d := c_inv _ _ _ in EDet *.
set t1 := St _ (W1 _ _ _ _ _ _ _ _ _ _ _) _ _ _ _ _.
have Hfin : SI (complete_remove x0 y0 t1) (delete_many x0 [:: i] u) (delete_many y0 [:: j] v) /\ c_N (complete_remove x0 y0 t1) = n /\
  (NIi c -> Dn n (delete_many x0 [:: i] u) (delete_many y0 [:: j] v) != 0 -> NIi (complete_remove x0 y0 t1)).
  rewrite /complete_remove /=; case: eqP => [E|NE].
    have n0 : n = 0%N by rewrite -En E.
    rewrite n0 add0n in Ai Aj Hx Hy; rewrite n0.
    rewrite !delete_all // ?(half_size Hx) ?(half_size Hy) //; split; first by split; split.
    split=> // _ _; exact: fmx0.
  pose ir := nth 0%N (c_row c) i; pose jr := nth 0%N (c_col c) j.
  have Ecm : move_col y0 jr (c_N (move_row x0 ir (c_N c - 1)%N c) - 1)%N (move_row x0 ir (c_N c - 1)%N c) = move_all x0 y0 [:: ir] [:: jr] c.
    by rewrite /move_all /= addn0 (_ : c_N (move_row _ _ _ c) = c_N c) // /move_row; case: ifP.
  have Lir : all (fun p => p < n + 1)%N [:: ir] by rewrite /= andbT -HN; apply: perm_nth_lt Pr Hi.
  have Ljr : all (fun p => p < n + 1)%N [:: jr] by rewrite /= andbT -HN; apply: perm_nth_lt Pc Hj.
  have H0 : SI c (map (nth x0 (c_xs c)) (c_row c)) (map (nth y0 (c_ys c)) (c_col c)) by rewrite -Eu -Ev.
  have [[F1 _ _ _ _] [sr [sc [[[G1 _ _ G2] _ _ _] [[G3 _ _ G4] _ _ _] _]]]] :=
    @move_allP F X Y x0 y0 c n 1 [:: ir] [:: jr] HN erefl erefl erefl erefl Lir Ljr H0.
  rewrite -/ir -/jr Ecm; move: E1 E2 E3 F1 G1 G2 G3 G4; rewrite /c3 /cut_core /= -/ir -/jr.
  move: (move_all _ _ _ _ _) => c1.
  rewrite HN => E1 E2 E3 F1 G1 G2 G3 G4.
  have Nn : (c_N c1 - 1)%N = n by rewrite F1 addnK.
  rewrite Nn in E1 E2 E3 *.
  have Sz (l : seq nat) : perm_eq l (iota 0 (n + 1)) -> pop_back (std_remove (pred1 n) l) = take n (std_remove (leq n) l).
    move=> Hl; rewrite std_remove1; last by apply/allP => a; rewrite (perm_iota_mem _ Hl) addn1 ltnS.
    rewrite /pop_back (_ : size _ = (n + 1)%N) ?addnK // /std_remove size_cat size_drop subnKC ?(perm_iota_size Hl) //.
    by rewrite size_filter -(perm_iota_size Hl) count_size.
  rewrite !Sz // /pop_back G2 G4 addnK; split; first exact: E2.
  split=> // HM HD; have {E3} := E3 HM HD; rewrite /DetInv.NIi /= => <-; congr (_ *m _); apply: eq_fmx => a b Ha Hb.
  have K1 : nda_inv 1 (fun a b => c_inv c1 (n + a)%N (n + b)%N) 0%N 0%N = (c_inv c1 n n)^-1.
    by rewrite nda_inv1 addn0.
  rewrite !sumN1 K1 addn0; set p := c_inv c1 n n; rewrite mulNr mul1r mulrA; congr (_ + _).
  by rewrite !mulNr (mulrC (p^-1)).
case: Hfin => H1 [H2 H3].
rewrite /good /completed /=; split; first exact: H1.
move=> HM HD; rewrite /DetInv.NId /DetInv.NIi /fin_core /= H2; move: (HM) => /EDet E; rewrite E -HN; split.
- by rewrite /sf sgnE ratioE sg_sq mulr1.
- by rewrite /sf sgnE -HD; set a := _ ^+ _; set b := sg _ _; fring F.
- move=> HD2; have {H3} := H3 HM; rewrite E -HN => /(_ HD2); rewrite /DetInv.NIi H2; exact.
Qed.

(** ---- changes ---- *)
Section ChangeCommon.
Variables (c : core) (u : seq X) (v : seq Y).
Hypotheses (HS : SI c u v) (HM : NIi c) (HD : NId c u v).
Notation N := (c_N c).
(** a change is a rank-two update of the internal matrix *)
Lemma change_num i j (xs' : seq X) (ys' : seq Y) u' v' (uu ww : nat -> F) :
  (i < N)%N -> (j < N)%N -> half x0 N (c_row c) xs' u' -> half y0 N (c_col c) ys' v' ->
  (forall a b, (a < N)%N -> (b < N)%N -> fA xs' ys' a b = r2A i j (fA (c_xs c) (c_ys c)) uu ww a b) ->
  let D := r2D N i j (c_inv c) uu ww in
  [/\ D * Dn N u v = Dn N u' v', sg F (c_sign c) * (c_det c * D) = Dn N u' v' &
      (Dn N u' v' != 0 -> D != 0 /\ fmx N N (fA xs' ys') *m fmx N N (r2M N i j (c_inv c) uu ww) = 1%:M)].
Proof.
move=> Hi Hj Hx' Hy' EA D; have [Hx Hy] := HS.
have E : D * Dn N u v = Dn N u' v'.
  rewrite (half_det f Hx Hy) (half_det f Hx' Hy') (eq_nda_det EA) (r2_det _ _ Hi Hj HM) -/D.
  set p := _ * perm_det _ _ _; set q := nda_det _ _; fring F.
split=> //; first by rewrite -E -HD mulrA mulrC.
rewrite -E mulf_eq0 negb_or => /andP [HD0 _]; split=> //.
rewrite -(r2_inv Hi Hj HM HD0); congr (_ *m _); exact: eq_fmx.
Qed.
End ChangeCommon.
Lemma good_change s i j x y r s1 u v : SI (s_c s) u v -> try_change_col_row x0 y0 f i j x y s = Ok (r, s1) ->
  good s s1 r u v (replace_at i x u) (replace_at j y v).
Proof.
case: s => c w wk wr nd ns lt /= HS; rewrite /try_change_col_row /=; case: lt => //.
case: ifP => // /negbFE /andP [Hi Hj] [<- <-].
have [Hx Hy] := HS; have [Pr Sxs Eu] := Hx; have [Pc Sys Ev] := Hy.
have Hx' := half_set x Hx Hi; have Hy' := half_set y Hy Hj.
have Li := perm_nth_lt Pr Hi; have Lj := perm_nth_lt Pc Hj.
rewrite /good /completed /= /complete_change_col_row /= /DetInv.NId /DetInv.NIi /=; split; first by split.
move=> HM HD.
move: (nth _ _ i) (nth _ _ j) Li Lj Hx' Hy' => ir jr Li Lj Hx' Hy'.
have [|E1 E2 E3] := @change_num c u v HS HM HD ir jr _ _ _ _
  (upd (fun l => f (nth x0 (c_xs c) l) y - f (nth x0 (c_xs c) l) (nth y0 (c_ys c) jr)) ir (f x y - f (nth x0 (c_xs c) ir) (nth y0 (c_ys c) jr)))
  (upd (fun l => f x (nth y0 (c_ys c) l) - f (nth x0 (c_xs c) ir) (nth y0 (c_ys c) l)) jr 0) Li Lj Hx' Hy'.
  move=> a b Ha Hb; rewrite /r2A /DetNum.fA !nth_set_nth /= /upd.
  by case: (eqVneq a ir) => [->|Na]; case: (eqVneq b jr) => [->|Nb] /=; rewrite ?mulr1n ?mulr0n; fring F.
split=> // /E3 [HD0 <-]; congr (_ *m _).
Qed.
Lemma good_change_col s j y r s1 u v : SI (s_c s) u v -> try_change_col x0 y0 f j y s = Ok (r, s1) ->
  good s s1 r u v u (replace_at j y v).
Proof.
case: s => c w wk wr nd ns lt /= HS; rewrite /try_change_col /=; case: lt => //.
case: ifP => // /negbFE Hj [<- <-].
have [Hx Hy] := HS; have [Pr Sxs Eu] := Hx; have [Pc Sys Ev] := Hy.
have Hy' := half_set y Hy Hj; have Lj := perm_nth_lt Pc Hj.
rewrite /good /completed /= /complete_change_col /= /DetInv.NId /DetInv.NIi /=; split; first by split.
move=> HM HD.
move: (nth _ _ j) Lj Hy' => jr Lj Hy'.
pose uu := fun l => f (nth x0 (c_xs c) l) y - f (nth x0 (c_xs c) l) (nth y0 (c_ys c) jr).
have [|E1 E2 E3] := @change_num c u v HS HM HD jr jr _ _ _ _ uu (fun=> 0) Lj Lj Hx Hy'.
  move=> a b Ha Hb; rewrite /r2A /DetNum.fA !nth_set_nth /= /uu.
  by case: (eqVneq b jr) => [->|Nb] /=; rewrite ?mulr1n ?mulr0n; fring F.
have Y0 b : r2Y (c_N c) (c_inv c) (fun=> 0) b = 0 by rewrite /r2Y /sumN big1 // => l _; rewrite mulr0.
have Z0 : r2Z (c_N c) (c_inv c) uu (fun=> 0) = 0 by rewrite /r2Z /sumN big1 // => l _; rewrite mul0r.
have ED : r2D (c_N c) jr jr (c_inv c) uu (fun=> 0) = 1 + r2X (c_N c) (c_inv c) uu jr.
  by rewrite /r2D Y0 Z0 addr0 mulr1 mulr0 subr0.
rewrite ED in E1 E2 E3.
split=> // /E3 [HD0 <-]; congr (_ *m _); apply: eq_fmx => a b Ha Hb.
rewrite /r2M !Y0 Z0 ED /upd -[1 + sumN _ _]/(1 + r2X (c_N c) (c_inv c) uu jr) -[sumN _ _]/(r2X (c_N c) (c_inv c) uu a).
move: (r2X _ _ _) HD0 => Xf HD0; case: (eqVneq a jr) => [->|Na] /=; ffield F.
Qed.
Lemma good_change_row s i x r s1 u v : SI (s_c s) u v -> try_change_row x0 y0 f i x s = Ok (r, s1) ->
  good s s1 r u v (replace_at i x u) v.
Proof.
case: s => c w wk wr nd ns lt /= HS; rewrite /try_change_row /=; case: lt => //.
case: ifP => // /negbFE Hi [<- <-].
have [Hx Hy] := HS; have [Pr Sxs Eu] := Hx; have [Pc Sys Ev] := Hy.
have Hx' := half_set x Hx Hi; have Li := perm_nth_lt Pr Hi.
rewrite /good /completed /= /complete_change_row /= /DetInv.NId /DetInv.NIi /=; split; first by split.
move=> HM HD.
move: (nth _ _ i) Li Hx' => ir Li Hx'.
pose ww := fun l => f x (nth y0 (c_ys c) l) - f (nth x0 (c_xs c) ir) (nth y0 (c_ys c) l).
have [|E1 E2 E3] := @change_num c u v HS HM HD ir ir _ _ _ _ (fun=> 0) ww Li Li Hx' Hy.
  move=> a b Ha Hb; rewrite /r2A /DetNum.fA !nth_set_nth /= /ww.
  by case: (eqVneq a ir) => [->|Na] /=; rewrite ?mulr1n ?mulr0n; fring F.
have X0 b : r2X (c_N c) (c_inv c) (fun=> 0) b = 0 by rewrite /r2X /sumN big1 // => l _; rewrite mulr0.
have Z0 : r2Z (c_N c) (c_inv c) (fun=> 0) ww = 0 by rewrite /r2Z /sumN big1 // => l _; rewrite X0 mulr0.
have ED : r2D (c_N c) ir ir (c_inv c) (fun=> 0) ww = 1 + r2Y (c_N c) (c_inv c) ww ir.
  by rewrite /r2D X0 Z0 addr0 mul1r mulr0 subr0.
rewrite ED in E1 E2 E3.
split=> // /E3 [HD0 <-]; congr (_ *m _); apply: eq_fmx => a b Ha Hb.
rewrite /r2M !X0 Z0 ED /upd -[1 + sumN _ _]/(1 + r2Y (c_N c) (c_inv c) ww ir) -[sumN _ _]/(r2Y (c_N c) (c_inv c) ww b).
move: (r2Y _ _ _) HD0 => Yf HD0; case: (eqVneq b ir) => [->|Na] /=; ffield F.
Qed.

Lemma good_refill s x y r s1 u v : SI (s_c s) u v -> try_refill x0 y0 f x y s = Ok (r, s1) -> good s s1 r u v x y.
Proof.
case: s => c w wk wr nd ns lt /= HS; rewrite /try_refill /=; case: lt => //.
case: ifP => // /negbFE /eqP Sxy; have [Hx Hy] := HS.
case: ifP => [S0|S0] [<- <-].
  have Ex := size0nil (eqP S0); have Ey : y = [::] by apply: size0nil; rewrite -Sxy (eqP S0).
  rewrite /good /completed /= /complete_refill /= Ex Ey; split; first by split; split.
  rewrite /DetInv.NId /DetInv.NIi /= => HM HD; rewrite !Dn0 /sg expr0 mulr1 HD; split=> //; last by move=> _; exact: fmx0.
  by rewrite mul1r mulVf // (half_det f Hx Hy) mulf_neq0 ?(inv_det_neq0 HM) // mulf_neq0 // perm_detE ?signr_eq0 //; [case: Hx | case: Hy].
rewrite /good /completed /= /complete_refill /= S0.
have Em (T : Type) (t0 : T) (ws : seq T) : size ws = size x -> ws = [seq nth t0 ws a | a <- iota 0 (size x)].
  by move=> <-; rewrite -/(mkseq _ _) mkseq_nth.
split; first by split; split=> //; exact: Em.
rewrite /DetInv.NId /DetInv.NIi /= => HM HD; rewrite HD /sg expr0 mul1r; split=> //; last exact: nda_invP.
by rewrite mulfVK // (half_det f Hx Hy) mulf_neq0 ?(inv_det_neq0 HM) // mulf_neq0 // perm_detE ?signr_eq0 //; [case: Hx | case: Hy].
Qed.

Lemma good_try t s r s1 u v : SI (s_c s) u v -> do_try x0 y0 f t s = Ok (r, s1) ->
  good s s1 r u v (spec_trial x0 y0 t (u, v)).1 (spec_trial x0 y0 t (u, v)).2.
Proof.
case: t => [i j x y|i j x y|i j|i j|j y|i x|i j x y|x y] /= HS.
- exact: good_insert.
- exact: good_insertk.
- exact: good_remove.
- exact: good_removek.
- exact: good_change_col.
- exact: good_change_row.
- exact: good_change.
- exact: good_refill.
Qed.
End Try.
