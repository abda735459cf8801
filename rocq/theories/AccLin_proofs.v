(** Proofs about lin_binning. *)
From mathcomp Require Import all_ssreflect all_algebra.
From Verif Require Import Base FieldTac Stat Stat_proofs Acc.
Set Implicit Arguments.
Unset Strict Implicit.
Unset Printing Implicit Defensive.
Import Order.TTheory GRing.Theory Num.Theory.
Local Open Scope ring_scope.

Section Lin.
Variable C : numClosedFieldType.
Variable moved : C.
Add Field accF : (Fft C).
Implicit Types (xs b : seq C) (bl bs : seq (seq C)).

(** [bl] cuts [xs] in consecutive blocks of length c, the last one possibly partial *)
Definition cut c xs bl : Prop :=
  exists bs b, [/\ bl = rcons bs b, flatten bl = xs, all (fun a => size a == c) bs, (size b <= c)%N & bs != [::] -> b != [::]].

Lemma avg_rcons xs x : avg (rcons xs x) = avg xs + (x - avg xs) / (size xs).+1%:R.
Proof.
have := mean_state (rcons xs x); rewrite -cats1 foldl_cat mean_state /= /mean_step /= => -[_].
by rewrite cats1 => <-.
Qed.
Lemma avg1 x : avg [:: x] = x :> C.
Proof. by rewrite /avg big_seq1 divr1. Qed.
Lemma avg_flatten bs c : (0 < c)%N -> all (fun a => size a == c) bs -> avg (flatten bs) = (\sum_(a <- bs) avg a) / (size bs)%:R.
Proof.
move=> c0 A; case: (posnP (size bs)) => [/size0nil->|s0]; first by rewrite /= /avg !big_nil !mul0r.
have Sf : size (flatten bs) = (size bs * c)%N.
  elim: bs A {s0} => //= a bs IH /andP[/eqP Ea /IH]; rewrite size_cat => ->; by rewrite Ea mulSn.
rewrite /avg big_flatten Sf /=.
transitivity ((\sum_(a <- bs) (avg a * c%:R)) / (size bs * c)%:R).
  congr (_ / _); apply: eq_big_seq => a /(allP A)/eqP Ea; by rewrite -[in c%:R]Ea avg_scale.
rewrite -mulr_suml natrM invfM -!mulrA; congr (_ * _).
by rewrite [_ * (_ * _)]mulrC -mulrA mulVf ?mulr1 ?nat_neq0.
Qed.

(** ---- the loops of compress ---- *)
Lemma set_other (b : seq C) p y k : k != p -> nth 0 (set_nth 0 b p y) k = nth 0 b k.
Proof. by move=> kp; rewrite nth_set_nth /= (negbTE kp). Qed.
Lemma set_same (b : seq C) p y : nth 0 (set_nth 0 b p y) p = y.
Proof. by rewrite nth_set_nth /= eqxx. Qed.
Lemma acc_fold i q js b : all (fun j => i != q + j)%N js -> (i < size b)%N ->
  let b' := foldl (fun b j => set_nth 0 b i (nth 0 b i + nth 0 b (q + j))) b js in
  [/\ size b' = size b, nth 0 b' i = nth 0 b i + \sum_(j <- js) nth 0 b (q + j) & forall k, k != i -> nth 0 b' k = nth 0 b k].
Proof.
elim: js b => [|j js IH] b /=; first by move=> _ _; rewrite big_nil addr0.
case/andP=> ij A ib.
have [] := IH (set_nth 0 b i (nth 0 b i + nth 0 b (q + j))) A.
  by rewrite size_set_nth leq_max ltnSn.
rewrite size_set_nth (maxn_idPr ib) => -> E1 E2; split=> //.
  rewrite E1 nth_set_nth /= eqxx big_cons addrA; congr (_ + _); apply: eq_big_seq => k /(allP A) ik.
  by rewrite nth_set_nth /= eq_sym (negbTE ik).
by move=> k ki; rewrite E2 // nth_set_nth /= (negbTE ki).
Qed.

Lemma sum_first f q b : (0 < f)%N -> nth 0 b q + \sum_(j <- iota 1 (f - 1)) nth 0 b (q + j) = \sum_(j <- iota 0 f) nth 0 b (q + j).
Proof. by case: f => // f _; rewrite subn1 /= big_cons addn0. Qed.

Lemma compress_stepP f b i : (1 < f)%N -> (f * i + f <= size b)%N ->
  let b' := compress_step moved f b i in
  [/\ size b' = size b, nth 0 b' i = (\sum_(j <- iota 0 f) nth 0 b (f * i + j)) / f%:R &
      forall k, k != i -> k != (f * i)%N -> nth 0 b' k = nth 0 b k].
Proof.
move=> f1 Sb; rewrite /compress_step.
have f0 : (0 < f)%N by apply: ltnW.
have ile : (i <= f * i)%N by rewrite leq_pmull.
have fisz : (f * i < size b)%N by apply: leq_trans Sb; rewrite -addn1 leq_add.
have isz : (i < size b)%N by apply: leq_ltn_trans fisz.
set b1 := (if i != 0%N then _ else b).
have [S1 N1 K1] : [/\ size b1 = size b, nth 0 b1 i = nth 0 b (f * i) & forall k, k != i -> k != (f * i)%N -> nth 0 b1 k = nth 0 b k].
  rewrite /b1; case: (posnP i) => [->|i0] /=; first by rewrite muln0; split=> // k _.
  have ilt : (i < f * i)%N by rewrite -[X in (X < _)%N]mul1n ltn_pmul2r.
  rewrite !size_set_nth (maxn_idPr isz) (maxn_idPr fisz); split=> //.
    by rewrite nth_set_nth /= ltn_eqF // nth_set_nth /= eqxx.
  by move=> k ki kfi; rewrite nth_set_nth /= (negbTE kfi) nth_set_nth /= (negbTE ki).
have [||] := @acc_fold i (f * i) (iota 1 (f - 1)) b1; [|by rewrite S1|].
  apply/allP=> j; rewrite mem_iota => /andP[j1 _]; rewrite neq_ltn; apply/orP; left.
  by apply: (leq_ltn_trans ile); rewrite -[X in (X < _)%N]addn0 ltn_add2l.
set b2 := foldl _ _ _ => S2 N2 K2.
rewrite size_set_nth S2 S1 (maxn_idPr isz); split=> //.
  rewrite nth_set_nth /= eqxx N2 N1 -sum_first //; congr ((_ + _) / _).
  apply: eq_big_seq => j; rewrite mem_iota => /andP[j1 _].
  have lt : (f * i < f * i + j)%N by rewrite -[X in (X < _)%N]addn0 ltn_add2l.
  by apply: K1; rewrite neq_ltn ?lt ?orbT // (leq_ltn_trans ile lt) orbT.
by move=> k ki kfi; rewrite nth_set_nth /= (negbTE ki) K2 // K1.
Qed.

Lemma compress_loop f b m : (1 < f)%N -> (f * m <= size b)%N ->
  let b' := foldl (compress_step moved f) b (iota 0 m) in
  [/\ size b' = size b, forall i, (i < m)%N -> nth 0 b' i = (\sum_(j <- iota 0 f) nth 0 b (f * i + j)) / f%:R &
      forall k, (f * m <= k)%N -> nth 0 b' k = nth 0 b k].
Proof.
move=> f1; elim: m => [|m IH]; first by [].
move=> Sb b'.
have Sb' : (f * m <= size b)%N by apply: leq_trans Sb; rewrite leq_mul2l leqnSn orbT.
have [] := IH Sb'; rewrite /b' -[m.+1]addn1 iotaD foldl_cat /= add0n.
set b1 := foldl _ _ _ => S1 N1 K1.
have [|] := @compress_stepP f b1 m f1; first by rewrite S1 addnC -mulnS.
move=> S2 N2 K2; rewrite S2 S1; split=> //.
  move=> i; rewrite addn1 ltnS leq_eqVlt => /orP[/eqP->|im].
    rewrite N2; congr (_ / _); apply: eq_big_seq => j _; apply: K1; exact: leq_addr.
  have mfm : (m <= f * m)%N by rewrite leq_pmull // ltnW.
  by rewrite K2 ?N1 // ltn_eqF // (leq_trans im).
move=> k; rewrite addn1 mulnS => fk.
have fmk : (f * m < k)%N by apply: leq_trans fk; rewrite -add1n leq_add2r ltnW.
have mfm : (m <= f * m)%N by rewrite leq_pmull // ltnW.
by rewrite K2 ?K1 // ?(ltnW fmk) // gtn_eqF // (leq_ltn_trans mfm).
Qed.

(** ---- grouping blocks ---- *)
Definition group f bl i := flatten (take f (drop (f * i) bl)).

Lemma flatten_groups f bl m : flatten (mkseq (group f bl) m) = flatten (take (f * m) bl).
Proof.
elim: m => [|m IH]; first by rewrite muln0 take0.
rewrite /mkseq -[m.+1]addn1 iotaD map_cat flatten_cat -/(mkseq _ _) IH /= cats0 add0n /group -flatten_cat; congr flatten.
by rewrite addn1 mulnS addnC takeD.
Qed.

Lemma new_shape n f : (0 < n)%N -> (1 < f)%N ->
  let bins_left := (n %% f)%N in
  let n_new := if bins_left != 0%N then (n %/ f).+1 else (n %/ f)%N in
  let chunk := if bins_left != 0%N then bins_left else f in
  [/\ n_new = (n.-1 %/ f).+1 & chunk = (n.-1 %% f).+1].
Proof.
move=> n0 f1 l; rewrite {}/l; have f0 : (0 < f)%N by apply: ltnW.
case: eqP => [E|/eqP E] /=.
  have [q Eq] : exists q, n = (q.+1 * f)%N.
    have := divn_eq n f; rewrite E addn0; case: (n %/ f)%N => [|q] En; last by exists q.
    by rewrite En in n0.
  have -> : n.-1 = (q * f + f.-1)%N by rewrite Eq mulSn addnC -!subn1 addnBA.
  rewrite Eq mulnK // divnMDl // modnMDl divn_small ?addn0 ?prednK // modn_small ?prednK //.
have Er : (n %% f)%N = (n %% f).-1.+1 by rewrite prednK ?lt0n.
have Em : n.-1 = (n %/ f * f + (n %% f).-1)%N by rewrite {1}(divn_eq n f) {1}Er addnS.
have lt : ((n %% f).-1 < f)%N by apply: leq_ltn_trans (ltn_pmod n f0); exact: leq_pred.
by rewrite Em divnMDl // modnMDl (divn_small lt) (modn_small lt) addn0 -Er.
Qed.

Lemma sum_take_drop (h : seq C -> C) bl f a : (a + f <= size bl)%N ->
  \sum_(x <- take f (drop a bl)) h x = \sum_(j <- iota 0 f) h (nth [::] bl (a + j)).
Proof.
move=> S; have Sd : (f <= size (drop a bl))%N by rewrite size_drop leq_subRL ?(leq_trans (leq_addr _ _) S).
have -> : take f (drop a bl) = [seq nth [::] bl (a + j) | j <- iota 0 f].
  apply: (@eq_from_nth _ [::]); rewrite size_takel ?size_map ?size_iota // => i If.
  by rewrite nth_take // nth_drop (nth_map 0%N) ?size_iota // nth_iota // add0n.
by rewrite big_map.
Qed.

(** the abstract state *)
Definition Inv (s : lin C) xs bl : Prop :=
  [/\ (0 < l_cap s)%N, cut (l_cap s) xs bl, l_bins s = map (@avg C) bl & l_last s = size (last [::] bl)].

Lemma compress_cut f s xs bl : l_max s != 0 -> (1 < f)%N -> Inv s xs bl ->
  let s' := compress moved f s in
  exists bl', [/\ Inv s' xs bl', size bl' = ((size bl).-1 %/ f).+1, l_cap s' = (l_cap s * f)%N, l_max s' = l_max s & l_count s' = l_count s].
Proof.
move=> m0 f1 [c0 [bs [b [Ebl Fxs Abs Sb Nb]]] Ebins Elast].
rewrite /compress (negbTE m0) ltnNge f1 /=.
have Sbl : size bl = (size bs).+1 by rewrite Ebl size_rcons.
have Sbins : size (l_bins s) = (size bs).+1 by rewrite Ebins size_map.
have [] := @new_shape (size (l_bins s)) f _ f1; first by rewrite Sbins.
set n_new := (if _ then _ else _); set chunk := (if _ then _ else _).
rewrite Sbins /= => En Ech.
set p := (size bs %/ f)%N in En; set r := (size bs %% f)%N in Ech.
have f0 : (0 < f)%N by apply: ltnW.
have Ebs : size bs = (f * p + r)%N by rewrite /p /r mulnC -divn_eq.
have rf : (r < f)%N by rewrite ltn_pmod.
have -> : (n_new - 1)%N = p by rewrite En subn1.
have -> : (chunk - 1)%N = r by rewrite Ech subn1.
have -> : (chunk - 2)%N = (r - 1)%N by rewrite Ech subSS.
rewrite Ech ltnS En.
have El : last [::] bl = b by rewrite Ebl last_rcons.
rewrite El in Elast; rewrite Elast.
have [|] := @compress_loop f (l_bins s) p f1; first by rewrite Sbins Ebs -addnS leq_addr.
set b1 := foldl _ _ _ => S1 N1 K1.
set g := last [::] (mkseq (group f bl) p.+1).
have Eg : g = group f bl p by rewrite /g /mkseq -[p.+1]addn1 iotaD map_cat last_cat /= add0n.
have Edrop : drop (f * p) bl = rcons (drop (f * p) bs) b by rewrite Ebl drop_rcons // Ebs leq_addr.
have Sdr : size (drop (f * p) bs) = r by rewrite size_drop Ebs addKn.
have Etk : take f (drop (f * p) bl) = rcons (drop (f * p) bs) b by rewrite Edrop take_oversize // size_rcons Sdr.
have Adr : all (fun a => size a == l_cap s) (drop (f * p) bs) by apply/allP=> a /mem_drop /(allP Abs).
have Sg : size g = (size b + r * l_cap s)%N.
  rewrite Eg /group Etk -cats1 flatten_cat size_cat /= cats0 addnC; congr (_ + _)%N.
  rewrite -Sdr; elim: (drop _ _) Adr => //= a l IH /andP[/eqP Ea /IH]; by rewrite size_cat => ->; rewrite Ea mulSn.
have bE k : (k < (size bs).+1)%N -> nth 0 (l_bins s) k = avg (nth [::] bl k).
  by move=> kl; rewrite Ebins (nth_map [::]) // Sbl.
exists (mkseq (group f bl) p.+1); split; rewrite ?size_mkseq ?Sbl //.
split; rewrite [l_cap _]/=.
- by rewrite muln_gt0 c0.
- exists (mkseq (group f bl) p), g; split.
  + by rewrite Eg /mkseq -[p.+1]addn1 iotaD map_cat /= add0n cats1.
  + rewrite flatten_groups take_oversize // Sbl Ebs mulnS [(f + _)%N]addnC -addnS leq_add2l; exact: rf.
  + apply/allP=> x /mapP[i]; rewrite mem_iota add0n => /= ip ->; rewrite /group.
    have le : (f * i + f <= size bs)%N by rewrite addnC -mulnS Ebs; apply: leq_trans (leq_addr _ _); rewrite leq_mul2l ip orbT.
    have -> : take f (drop (f * i) bl) = take f (drop (f * i) bs).
      rewrite Ebl drop_rcons ?(leq_trans (leq_addr _ _) le) // -cats1 takel_cat //.
      by rewrite size_drop leq_subRL // (leq_trans (leq_addr _ _) le).
    have : size (take f (drop (f * i) bs)) = f by rewrite size_takel // size_drop leq_subRL // (leq_trans (leq_addr _ _) le).
    have : all (fun a => size a == l_cap s) (take f (drop (f * i) bs)) by apply/allP=> a /mem_take /mem_drop /(allP Abs).
    move: (take _ _) => l Al <-; apply/eqP; elim: l Al => [|a l IH] /=; first by rewrite muln0.
    by case/andP=> /eqP Ea /IH El'; rewrite size_cat El' Ea mulnS.
  + rewrite Sg; case: (posnP r) => [->|r0]; first by rewrite mul0n addn0 (leq_trans Sb) // leq_pmulr.
    apply: leq_trans (_ : l_cap s + r * l_cap s <= _)%N; first by rewrite leq_add2r.
    by rewrite -mulSn mulnC leq_mul2l rf orbT.
  + move=> Np; rewrite -size_eq0 Sg addn_eq0 negb_and size_eq0.
    rewrite Nb //; apply/eqP=> Z; move/eqP: Ebs; rewrite Z; case: (p) Np => [|p'] // _.
    by rewrite /= eq_sym addn_eq0 muln_eq0 (gtn_eqF f0).
- set b3 := (if _ == _ then b1 else _).
  have pq : (p <= f * p)%N by rewrite leq_pmull.
  have qS : (f * p < size b1)%N by rewrite S1 Sbins Ebs ltnS leq_addr.
  have pS : (p < size b1)%N by apply: leq_ltn_trans qS.
  have [S3 N3 K3] : [/\ size b3 = size b1, nth 0 b3 p = nth 0 b1 (f * p) & forall k, k != p -> k != (f * p)%N -> nth 0 b3 k = nth 0 b1 k].
    rewrite /b3; case: eqP => [E|/eqP E]; first by rewrite E; split=> // k.
    rewrite !size_set_nth (maxn_idPr pS) (maxn_idPr qS); split=> //.
      by rewrite nth_set_nth /= eq_sym (negbTE E) nth_set_nth /= eqxx.
    by move=> k kp kq; rewrite nth_set_nth /= (negbTE kq) nth_set_nth /= (negbTE kp).
  set b5 := (if _ then _ else b3).
  have gE : avg (group f bl p) = ((\sum_(a <- drop (f * p) bs) avg a) * (l_cap s)%:R + avg b * (size b)%:R) / (size b + r * l_cap s)%:R.
    rewrite -Eg -Sg /avg; congr (_ / _); rewrite Eg /group Etk -cats1 flatten_cat big_cat /= cats0; congr (_ + _); last by rewrite -/(avg b) avg_scale.
    rewrite big_flatten /= mulr_suml; apply: eq_big_seq => a /(allP Adr)/eqP Ea.
    by rewrite -[in RHS]Ea -/(avg a) avg_scale.
  have [S5 N5 K5] : [/\ size b5 = size b1, nth 0 b5 p = avg (group f bl p) & forall k, (k < p)%N -> nth 0 b5 k = nth 0 b1 k].
    rewrite /b5; case: (posnP r) => [r0|r0].
      split=> //; last by move=> k kp; rewrite K3 // ltn_eqF // (leq_trans kp).
      rewrite N3 K1 // bE ?Ebs ?ltnS ?leq_addr // /group Etk drop_oversize ?Ebs ?r0 ?addn0 //= cats0.
      by rewrite Ebl nth_rcons Ebs r0 addn0 ltnn eqxx.
    have lt j : (0 < j)%N -> (p < f * p + j)%N by move=> j0; apply: (leq_ltn_trans pq); rewrite -[X in (X < _)%N]addn0 ltn_add2l.
    have [||] := @acc_fold p (f * p) (iota 1 (r - 1)) b3; [|by rewrite S3|].
      by apply/allP=> j; rewrite mem_iota => /andP[j1 _]; rewrite ltn_eqF // lt.
    set b4 := foldl _ _ _ => S4 N4 K4.
    have S45 : (p < size b4)%N by rewrite S4 S3.
    rewrite !size_set_nth !(maxn_idPr S45) S4 S3; split=> //; last first.
      move=> k kp; have kn : k != p by rewrite ltn_eqF.
      by rewrite !(set_other _ _ kn) K4 // K3 // ltn_eqF // (leq_trans kp).
    have qn : (f * p + r)%N != p by rewrite gtn_eqF // lt.
    have qq : (f * p + r)%N != (f * p)%N by rewrite gtn_eqF // -[X in (X < _)%N]addn0 ltn_add2l.
    rewrite gE !set_same (set_other _ _ qn).
    congr ((_ * _ + _ * _) / _); last first.
      by rewrite K4 // K3 // K1 ?leq_addr // bE ?Ebs ?ltnS // Ebl nth_rcons Ebs ltnn eqxx.
    rewrite N4 N3 K1 //.
    rewrite (_ : \sum_(j <- iota 1 (r - 1)) nth 0 b3 (f * p + j) = \sum_(j <- iota 1 (r - 1)) nth 0 (l_bins s) (f * p + j)); last first.
      apply: eq_big_seq => j; rewrite mem_iota => /andP[j1 _].
      by rewrite K3 ?K1 ?leq_addr // gtn_eqF ?lt // -[X in (X < _)%N]addn0 ltn_add2l.
    rewrite sum_first // -(take_size (drop _ _)) Sdr (@sum_take_drop (@avg C) bs r) ?Ebs //.
    apply: eq_big_seq => j; rewrite mem_iota add0n => /= jr.
    have jl : (f * p + j < size bs)%N by rewrite Ebs ltn_add2l.
    by rewrite bE ?ltnS ?(ltnW jl) // Ebl nth_rcons jl.
  apply: (@eq_from_nth _ 0); rewrite size_takel ?S5 // ?size_map ?size_iota // => i.
  rewrite ltnS leq_eqVlt => /orP[/eqP->|ip].
    by rewrite nth_take // N5 -map_comp (nth_map 0%N) ?size_iota // nth_iota.
  rewrite nth_take ?(ltn_trans ip) // K5 // N1 // -map_comp (nth_map 0%N) ?size_iota ?(ltn_trans ip) // nth_iota ?(ltn_trans ip) //= add0n.
  have le : (f * i + f <= size bs)%N by rewrite addnC -mulnS Ebs; apply: leq_trans (leq_addr _ _); rewrite leq_mul2l ip orbT.
  have le' := leq_trans (leq_addr _ _) le.
  have Et : take f (drop (f * i) bl) = take f (drop (f * i) bs).
    by rewrite Ebl drop_rcons // -cats1 takel_cat // size_drop leq_subRL.
  rewrite /group Et (@avg_flatten _ (l_cap s)) //; last by apply/allP=> a /mem_take /mem_drop /(allP Abs).
  rewrite size_takel ?size_drop ?leq_subRL // (@sum_take_drop (@avg C)) //; congr (_ / _).
  apply: eq_big_seq => j; rewrite mem_iota add0n => /= jr.
  have jl : (f * i + j < size bs)%N by apply: leq_trans le; rewrite ltn_add2l.
  by rewrite bE ?ltnS ?(ltnW jl) // Ebl nth_rcons jl.
- by rewrite -/g Sg.
Qed.

(** ---- adding a datum ---- *)
Definition put (s : lin C) (x : C) : lin C :=
  if (l_last s == l_cap s) && (l_max s != 1) then
    Lin (l_max s) (l_cap s) 1 (rcons (l_bins s) x) (l_count s)
  else
    let k := (l_last s).+1 in let back := (size (l_bins s) - 1)%N in
    Lin (l_max s) (l_cap s) k (set_nth 0 (l_bins s) back (nth 0 (l_bins s) back + (x - nth 0 (l_bins s) back) / k%:R)) (l_count s).

Lemma flat_rcons (A : Type) (ss : seq (seq A)) (a : seq A) : flatten (rcons ss a) = flatten ss ++ a.
Proof. by rewrite -cats1 flatten_cat /= cats0. Qed.

Lemma set_last (b : seq C) y z : set_nth 0 (rcons b y) (size (rcons b y) - 1) z = rcons b z.
Proof. by rewrite size_rcons subn1 /=; elim: b => //= a b ->. Qed.

Lemma put_inv s xs bl x : l_max s != 1 -> Inv s xs bl ->
  exists bl', [/\ Inv (put s x) (rcons xs x) bl', size bl' = (size bl + (l_last s == l_cap s))%N, l_cap (put s x) = l_cap s, l_max (put s x) = l_max s & l_count (put s x) = l_count s].
Proof.
move=> m1 [c0 [bs [b [Ebl Fxs Abs Sb Nb]]] Ebins Elast].
have El : last [::] bl = b by rewrite Ebl last_rcons.
rewrite El in Elast; rewrite /put m1 andbT Elast; case: eqP => [E|/eqP E] /=.
  exists (rcons bl [:: x]); split=> //; last by rewrite size_rcons addn1.
  split=> //=; last by rewrite last_rcons.
    exists bl, [:: x]; split=> //; last first.
      by rewrite Ebl all_rcons E eqxx.
    by rewrite flat_rcons Fxs cats1.
  by rewrite map_rcons Ebins avg1.
exists (rcons bs (rcons b x)); split=> //; last by rewrite Ebl !size_rcons addn0.
have Fb : flatten bs ++ b = xs by rewrite -Fxs Ebl flat_rcons.
split=> //=; last by rewrite last_rcons size_rcons.
  exists bs, (rcons b x); split=> //; last by case: (b).
    by rewrite flat_rcons -Fb -rcons_cat.
  by rewrite size_rcons ltn_neqAle E.
rewrite Ebins Ebl !map_rcons set_last avg_rcons; congr rcons.
by rewrite size_rcons subn1 /= nth_rcons ltnn eqxx.
Qed.

Lemma push_putE s x : l_max s != 0 ->
  lin_push moved s x = put (let s := Lin (l_max s) (l_cap s) (l_last s) (l_bins s) (l_count s).+1 in
    if [&& 1 < l_max s, (size (l_bins s))%:Z == l_max s & l_last s == l_cap s] then compress moved 2 s else s) x.
Proof. by move=> m0; rewrite /lin_push /= (negbTE m0). Qed.

Lemma push_inv s xs bl x : l_max s != 0 -> l_max s != 1 -> Inv s xs bl -> (1 < l_max s -> (size bl)%:Z <= l_max s) ->
  let s' := lin_push moved s x in
  exists bl', [/\ Inv s' (rcons xs x) bl', 1 < l_max s' -> (size bl')%:Z <= l_max s', l_max s' = l_max s, l_count s' = (l_count s).+1 &
    l_cap s' = l_cap s \/ [/\ 1 < l_max s, l_cap s' = (l_cap s * 2)%N & l_max s = (size bl)%:Z] /\ size xs = (size bl * l_cap s)%N].
Proof.
move=> m0 m1 I B; rewrite push_putE //=.
set t := Lin _ _ _ _ _.
have It : Inv t xs bl by case: I.
have Sb : size (l_bins s) = size bl by case: I => _ _ -> _; rewrite size_map.
case: ifP => [/and3P[M /eqP Sz /eqP L]|N].
  have [bl1 [I1 S1 C1 M1 N1]] := @compress_cut 2 t xs bl m0 isT It.
  have [bl2 [I2 S2 C2 M2 N2]] := @put_inv (compress moved 2 t) xs bl1 x (eq_ind_r (fun z => z != 1) m1 M1) I1.
  exists bl2; split=> //; try by rewrite M2 M1.
  - move=> _; rewrite M2 M1 /= -Sz Sb S2 S1 lez_nat.
    have : (1 < size bl)%N by rewrite -ltz_nat -Sb Sz.
    case: (size bl) => [|[|n]] // _ /=.
    apply: (@leq_trans ((n.+1 %/ 2).+1 + 1)); first by rewrite leq_add2l leq_b1.
    by rewrite addn1 ltnS ltn_Pdiv.
  - by rewrite N2 N1.
  - right; split; first by split=> //; [rewrite C2 C1 | rewrite -Sb].
    case: I => _ [bs [b [Ebl <- Abs Sb' Nb]]] _ Elast; rewrite L Ebl last_rcons in Elast.
    rewrite Ebl flat_rcons size_cat size_rcons -Elast mulSn addnC; congr (_ + _)%N.
    elim: bs Abs {Ebl Nb} => //= a l IH /andP[/eqP Ea /IH]; by rewrite size_cat => ->; rewrite Ea mulSn.
have [bl2 [I2 S2 C2 M2 N2]] := @put_inv t xs bl x m1 It.
exists bl2; split=> //; last by left; rewrite C2.
rewrite M2 /= => M; rewrite S2; move: (B M) N; rewrite M Sb /= le_eqVlt => /orP[/eqP E|lt].
  by rewrite -E eqxx /= => ->; rewrite addn0.
move=> _; apply: (@le_trans _ _ (size bl).+1%:Z); last by [].
by rewrite lez_nat -addn1 leq_add2l leq_b1.
Qed.

(** ---- histories ---- *)
Definition lin_op (s : lin C) (o : op C) : lin C := match o with Push x => lin_push moved s x | Compress f => compress moved f s end.

Lemma run_lin h a a' : run moved h a = Ok a' -> a_lin a' = foldl lin_op (a_lin a) h.
Proof.
elim: h a => [|[x|f] h IH] a /=; first by case=> ->.
  by rewrite /acc_push; case: log_push => // g /IH->.
by move=> /IH->.
Qed.

Lemma data_rcons h (o : op C) : data (rcons h o) = data h ++ (if o is Push x then [:: x] else [::]).
Proof. by elim: h => [|[x|f] h IH] /=; [case: o | rewrite IH |]. Qed.

Lemma lin_max h s : l_max (foldl lin_op s h) = l_max s.
Proof.
elim: h s => //= o h IH s; rewrite IH; case: o => [x|f] /=.
  case E: (l_max s == 0); first by rewrite /lin_push /= E.
  have P t : l_max (put t x) = l_max t by rewrite /put; case: ifP.
  by rewrite push_putE ?E // P /=; case: ifP => // _; rewrite /compress; case: ifP.
by rewrite /compress; case: ifP.
Qed.

Definition good (s : lin C) xs : Prop :=
  exists bl, Inv s xs bl /\ (1 < l_max s -> (size bl)%:Z <= l_max s).

Lemma init_good m c : m != 0 -> (0 < c)%N -> good (lin_init C m c) [::].
Proof.
move=> m0 c0; exists [:: [::]]; rewrite /lin_init (negbTE m0); split; last by move=> /= /ltW.
split=> //=; last by rewrite /avg big_nil mul0r.
by exists [::], [::]; split.
Qed.

Lemma lin_good m c h : m != 0 -> m != 1 -> (0 < c)%N -> good (foldl lin_op (lin_init C m c) h) (data h).
Proof.
move=> m0 m1 c0; elim/last_ind: h => [|h o [bl [I B]]]; first exact: init_good.
have M := lin_max h (lin_init C m c); rewrite /= in M.
rewrite data_rcons -cats1 foldl_cat /=; move: (foldl _ _ _) I B M => s I B M; case: o => [x|f] /=.
  have [||bl' [I' B' _ _ _]] := push_inv x _ _ I B; rewrite ?M //.
  by exists bl'; rewrite cats1.
rewrite cats0; case: (ltnP 1 f) => [f1|f1]; last by exists bl; rewrite /compress ltnS f1 orbT.
have [|bl' [I' S' _ M' _]] := compress_cut _ f1 I; first by rewrite M.
exists bl'; split=> //; rewrite M' S' => /B; apply: le_trans; rewrite lez_nat.
have : (0 < size bl)%N by case: I => _ [bs [b [-> _ _ _ _]]] _ _; rewrite size_rcons.
by case: (size bl) => //= n _; rewrite ltnS leq_div.
Qed.

Lemma cut_drop c bs b i : all (fun a => size a == c) bs -> (i <= size bs)%N -> drop (c * i) (flatten bs ++ b) = flatten (drop i bs) ++ b.
Proof.
elim: bs i => [|a bs IH] [|i] //=; rewrite ?muln0 ?drop0 // => /andP[/eqP Ea A] Hi.
by rewrite -catA -IH // mulnS -Ea addnC -drop_drop drop_size_cat.
Qed.

Lemma cut_blocks c xs bl : (0 < c)%N -> cut c xs bl -> bl = [seq block c i xs | i <- iota 0 (n_blocks c (size xs))].
Proof.
move=> c0 [bs [b [Ebl Fxs Abs Sb Nb]]].
have Ex : xs = flatten bs ++ b by rewrite -Fxs Ebl flat_rcons.
have Sx : size xs = (size bs * c + size b)%N.
  rewrite Ex size_cat; congr (_ + _)%N.
  elim: bs Abs {Ebl Nb Ex} => //= a l IH /andP[/eqP Ea /IH]; by rewrite size_cat => ->; rewrite Ea mulSn.
have -> : n_blocks c (size xs) = (size bs).+1.
  rewrite /n_blocks Sx -addnA divnMDl //.
  case: (posnP (size b)) => [b0|b0].
    have -> : bs = [::] by case: eqP Nb => // _ /(_ isT); rewrite -size_eq0 b0.
    by rewrite b0 add0n divn_small // subn1 prednK.
  have -> : ((size b + (c - 1)) %/ c = 1)%N.
    rewrite addnBA // -addnBAC // subn1 divnDr // divnn c0 divn_small // prednK //.
  by rewrite addn1; apply/maxn_idPr.
rewrite -[X in iota 0 X]addn1 iotaD map_cat /= add0n Ebl -cats1; congr (_ ++ [:: _]); last first.
  by rewrite /block Ex cut_drop // drop_size /= take_oversize.
apply: (@eq_from_nth _ [::]); first by rewrite size_map size_iota.
move=> i Hi; rewrite (nth_map 0%N) ?size_iota // nth_iota // add0n /block Ex cut_drop ?(ltnW Hi) // (drop_nth [::]) //= -catA take_size_cat //.
by apply/eqP/(allP Abs)/mem_nth.
Qed.

Lemma blocks_proof m c h : m != 0 -> m != 1 -> (0 < c)%N ->
  let s := foldl lin_op (lin_init C m c) h in
  [/\ l_bins s = [seq avg (block (l_cap s) i (data h)) | i <- iota 0 (n_blocks (l_cap s) (size (data h)))] , (0 < l_cap s)%N & 1 < m -> (size (l_bins s))%:Z <= m].
Proof.
move=> m0 m1 c0 s; have [bl [[C0 K Eb El] B]] := lin_good h m0 m1 c0.
split=> //; first by rewrite -/s in Eb C0 K *; rewrite Eb (cut_blocks C0 K) -map_comp.
have M := lin_max h (lin_init C m c); rewrite /= -/s in M.
by rewrite -/s in B Eb *; rewrite Eb size_map; rewrite M in B.
Qed.

Lemma single_proof c h : (0 < c)%N -> let s := foldl lin_op (lin_init C 1 c) h in l_bins s = [:: avg (data h)] /\ l_last s = size (data h).
Proof.
move=> c0; elim/last_ind: h => [|h o] /=; first by rewrite /avg big_nil mul0r.
have M := lin_max h (lin_init C 1 c); rewrite /= in M.
rewrite data_rcons -cats1 foldl_cat /=; move: (foldl _ _ _) M => s M [Eb El]; case: o => [x|f] /=.
  by rewrite cats1 /lin_push /= M /= andbF /= Eb /= El avg_rcons size_rcons.
rewrite cats0 /compress M /=; case: ltnP => //= f1.
by rewrite Eb /= (modn_small f1) (divn_small f1) /= muln0 eqxx /= mul0n addn0 El.
Qed.

Lemma off_proof c h : l_bins (foldl lin_op (lin_init C 0 c) h) = [::].
Proof.
elim/last_ind: h => [|h o] //=.
have M := lin_max h (lin_init C 0 c); rewrite /= in M.
rewrite -cats1 foldl_cat /=; move: (foldl _ _ _) M => s M Eb; case: o => [x|f] /=.
  by rewrite /lin_push /= M eqxx.
by rewrite /compress M eqxx.
Qed.

(** the capacity grows only when it has to *)
Lemma capacity_proof (m c : nat) xs : (1 < m)%N -> (0 < c)%N ->
  exists k, let s := foldl lin_op (lin_init C m c) (map (@Push C) xs) in
  [/\ l_cap s = (c * 2 ^ k)%N, (size xs <= m * l_cap s)%N & k = 0%N \/ (m * (c * 2 ^ k.-1) < size xs)%N].
Proof.
move=> m1 c0; elim/last_ind: xs => [|xs x [k []]] /=; first by exists 0%N; rewrite expn0 muln1; split=> //; left.
have m0 : m%:Z != 0 by case: (m) m1.
have m1' : m%:Z != 1 by case: (m) m1 => [|[]].
have D : data (map (@Push C) xs) = xs by elim: xs => //= y xs ->.
have [bl [I B]] := lin_good (map (@Push C) xs) m0 m1' c0.
rewrite map_rcons -cats1 foldl_cat /=.
have M := lin_max (map (@Push C) xs) (lin_init C m c); rewrite /= in M.
rewrite D in I; move: (foldl _ _ _) I B M => s I B M Ec Lm Hk.
have [||bl' [I' B' M' _ Hc]] := push_inv x _ _ I B; rewrite ?M //.
have lim : (size (rcons xs x) <= m * l_cap (lin_push moved s x))%N.
  case: I' => C0 [bs [b [Ebl <- Abs Sb Nb]]] _ _.
  have : (size bl' <= m)%N by rewrite -lez_nat -M -M'; apply: B'; rewrite M' M ltz_nat.
  rewrite Ebl size_rcons flat_rcons size_cat => le.
  have -> : size (flatten bs) = (size bs * l_cap (lin_push moved s x))%N.
    by elim: bs Abs {Ebl Nb le} => //= a l IH /andP[/eqP Ea /IH]; rewrite size_cat => ->; rewrite Ea mulSn.
  apply: (@leq_trans ((size bs).+1 * l_cap (lin_push moved s x))); first by rewrite mulSn addnC leq_add2r.
  by rewrite leq_mul2r le orbT.
rewrite size_rcons in lim *.
case: Hc => [E|[[_ E Em] Sx]].
  exists k; split=> //; rewrite ?E //; case: Hk => [->|lt]; first by left.
  by right; apply: (leq_trans lt).
exists k.+1; split=> //; first by rewrite E Ec expnSr mulnA.
right; rewrite /= -Ec ltnS Sx; move: Em; rewrite M => -[->]; exact: leqnn.
Qed.

Lemma compress_cap m c h f : (1 < f)%N -> m != 0 ->
  l_cap (foldl lin_op (lin_init C m c) (rcons h (Compress C f))) = (l_cap (foldl lin_op (lin_init C m c) h) * f)%N.
Proof.
move=> f1 m0; rewrite -cats1 foldl_cat /= /compress.
by rewrite lin_max /= (negbTE m0) ltnNge f1.
Qed.
End Lin.
