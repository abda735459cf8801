(** List lemmas about the row/column tables of det_manip. *)
From mathcomp Require Import all_ssreflect all_algebra.
From Verif Require Import Base FieldTac DetManip DetSpec DetLemmas.
Set Implicit Arguments.
Unset Strict Implicit.
Unset Printing Implicit Defensive.
Local Open Scope nat_scope.

Section Lists.
Variables (T : Type) (t0 : T).
Implicit Types l xs u : seq T.

Lemma ins_cat p (x : T) l z : p <= size l -> ins p x (l ++ z) = take p l ++ x :: drop p l ++ z.
Proof.
move=> H; rewrite /ins takel_cat // drop_cat; case: ltnP => // H2.
by have -> : p = size l by [apply/eqP; rewrite eqn_leq H H2]; rewrite subnn drop0 drop_size.
Qed.
Lemma nth_ins p (x : T) l q : p <= size l -> nth t0 (ins p x l) q = if q < p then nth t0 l q else if q == p then x else nth t0 l q.-1.
Proof.
move=> H; rewrite /ins nth_cat size_takel //; case: ltnP => Hq; first by rewrite nth_take.
case: eqP => [->|/eqP Hn]; first by rewrite subnn.
have Hlt : p < q by rewrite ltn_neqAle eq_sym Hn.
by case: q Hq Hn Hlt => // q _ _ Hq; rewrite subSn //= nth_drop subnKC.
Qed.
Lemma map_ins (S : Type) (g : T -> S) p x l : map g (ins p x l) = ins p (g x) (map g l).
Proof. by rewrite /ins map_cat /= map_take map_drop. Qed.
Lemma map_insk (S : Type) (g : T -> S) ps xs l : map g (insk ps xs l) = insk ps (map g xs) (map g l).
Proof. by elim: ps xs l => [|p ps IH] [|x xs] l //=; rewrite IH map_ins. Qed.
Lemma insk_rcons ps p xs x l : size ps = size xs -> insk (rcons ps p) (rcons xs x) l = ins p x (insk ps xs l).
Proof. by elim: ps xs l => [|q ps IH] [|y xs] l //= [E]; rewrite IH. Qed.
End Lists.

Lemma perm_ins (T : eqType) p (x : T) l : perm_eq (ins p x l) (x :: l).
Proof. by rewrite /ins (perm_catCA (take p l) [:: x]) /= cat_take_drop. Qed.
Lemma perm_insk (T : eqType) ps (xs l : seq T) : size ps = size xs -> perm_eq (insk ps xs l) (l ++ xs).
Proof.
elim: ps xs l => [|p ps IH] [|x xs] l //=; first by rewrite cats0.
move=> [E]; apply: perm_trans (IH _ _ E) _.
by rewrite -cat_rcons perm_cat2r perm_sym perm_rcons perm_sym perm_ins.
Qed.

(** strictly increasing positions *)
Lemma path_last p ps : path ltn p ps -> p + size ps <= last p ps.
Proof.
elim: ps p => [|q ps IH] p /=; first by rewrite addn0.
by case/andP=> H /IH H2; apply: leq_trans H2; rewrite addnS -addSn leq_add2r.
Qed.
Lemma sorted_seq_ok n ps : sorted ltn ps -> all (fun p => p < n + size ps) ps -> seq_ok n ps.
Proof.
elim: ps n => [|p ps IH] n //= Hp /andP [Hp0 Ha]; apply/andP; split; last first.
  by apply: IH; [exact: path_sorted Hp | rewrite addSnnS].
have H := path_last Hp.
have Hl : last p ps < n + (size ps).+1.
  have : last p ps \in p :: ps by rewrite mem_last.
  by rewrite inE => /orP [/eqP ->|/(allP Ha)].
by have := leq_ltn_trans H Hl; rewrite addnS ltnS leq_add2r.
Qed.
Lemma sorted_full ps : sorted ltn ps -> all (fun p => p < size ps) ps -> ps = iota 0 (size ps).
Proof.
move=> Hs Ha; apply: (@irr_sorted_eq _ ltn) => //; [exact: ltn_trans|exact: ltnn|exact: iota_ltn_sorted|].
have U : uniq ps by apply: sorted_uniq Hs; [exact: ltn_trans | exact: ltnn].
have S : {subset ps <= iota 0 (size ps)} by move=> q /(allP Ha); rewrite mem_iota.
by have [] := uniq_min_size U S; rewrite ?size_iota.
Qed.
Lemma count_lt_all p ps : all (fun q => q < p) ps -> count (fun q => q < p) ps = size ps.
Proof. by rewrite all_count => /eqP. Qed.

(** sequential insertion at increasing positions = simultaneous insertion *)
Lemma insk_many (T : Type) (t0 : T) ps xs (l : seq T) : size ps = size xs -> sorted ltn ps -> seq_ok (size l) ps ->
  insk ps xs l = insert_many t0 ps xs l.
Proof.
elim/last_ind: ps xs => [|ps p IH] xs.
  case: xs => // _ _ _; rewrite /insert_many /= addn0 -{1}(mkseq_nth t0 l) //=.
  by apply: eq_mkseq => q; rewrite subn0.
case/lastP: xs => [|xs x]; first by rewrite size_rcons.
rewrite !size_rcons => [[Es]] Hs Hok.
have Hsp : sorted ltn ps by move: Hs; rewrite -cats1 => /cat_sorted2 [].
have Hlt : all (fun q => q < p) ps.
  by move: Hs; rewrite sorted_pairwise ?pairwise_rcons => [/andP []|]; last exact: ltn_trans.
have [Hok1 Hpl] : seq_ok (size l) ps /\ p <= size l + size ps.
  move: Hok {IH}; elim: ps (size l) {Hs Hsp Hlt Es} => [|q ps IH] n /=.
    by rewrite andbT addn0.
  by case/andP=> -> /IH [-> H]; rewrite addnS -addSn.
rewrite insk_rcons // IH //.
apply: (@eq_from_nth _ t0); first by rewrite size_ins !size_mkseq size_rcons addnS.
move=> q; rewrite size_ins size_mkseq => Hq.
rewrite nth_ins ?size_mkseq // [RHS]nth_mkseq ?size_rcons ?addnS //.
rewrite mem_rcons inE.
have Hnp : forall q', p <= q' -> q' \notin ps.
  by move=> q' H; apply/negP => /(allP Hlt); rewrite ltnNge H.
case: ltnP => Hqp.
- rewrite nth_mkseq; last exact: leq_trans Hqp Hpl.
  rewrite (negbTE (_ : q != p)) ?neq_ltn ?Hqp //= -(cats1 ps) count_cat /= ltnNge (ltnW Hqp) /= !addn0.
  case: ifP => Hm //.
  rewrite index_cat Hm nth_rcons -Es index_mem Hm //.
- case: eqP => [->|/eqP Hn].
    rewrite /= -(cats1 ps) index_cat (negbTE (Hnp _ (leqnn _))) /= eqxx addn0 nth_rcons Es ltnn eqxx //.
  have Hpq : p < q by rewrite ltn_neqAle eq_sym Hn.
  case: q Hq Hqp Hn Hpq => // q Hq _ _ Hpq /=.
  rewrite nth_mkseq // (negbTE (Hnp q Hpq)) (negbTE (Hnp q.+1 (ltnW Hpq))).
  rewrite -(cats1 ps) count_cat /= Hpq addn0 addn1 subSS.
  rewrite (@count_lt_all q.+1); last by apply/allP => r /(allP Hlt) Hr; exact: ltn_trans Hr Hpq.
  by rewrite (@count_lt_all q) //; apply/allP => r /(allP Hlt) Hr; exact: leq_trans Hr Hpq.
Qed.

(** ---- shift loops ---- *)
Lemma shift_right_nth l p m i : p + m < size l ->
  nth 0 (foldl (fun l i => set_nth 0 l i.+1 (nth 0 l i)) l (rev (iota p m))) i = if (p < i) && (i <= p + m) then nth 0 l i.-1 else nth 0 l i.
Proof.
elim: m l i => [|m IH] l i H.
  by rewrite /= addn0; case: ltnP => //= H1; rewrite leqNgt H1.
rewrite -{1}addn1 iotaD /= rev_cat /=.
have Hs : size (set_nth 0 l (p + m).+1 (nth 0 l (p + m))) = size l.
  by rewrite size_set_nth; apply/maxn_idPr; rewrite -addnS.
rewrite IH; last by rewrite Hs; apply: leq_ltn_trans H; rewrite leq_add2l.
rewrite !nth_set_nth /= addnS.
case: (ltnP p i) => Hpi /=; last first.
  by rewrite (_ : (i == _) = false) //; apply/negbTE; rewrite neq_ltn ltnS (leq_trans Hpi) // leq_addr.
case: i Hpi => // i Hpi /=; rewrite eqSS ltnS.
case: (ltngtP i (p + m)) => Hi.
- by rewrite (_ : (i == _) = false) //; apply/negbTE; rewrite neq_ltn ltnS ltnW.
- by [].
- by rewrite Hi.
Qed.
Lemma shift_right_size l p m : p + m < size l ->
  size (foldl (fun l i => set_nth 0 l i.+1 (nth 0 l i)) l (rev (iota p m))) = size l.
Proof.
elim: m l => [|m IH] l H //.
rewrite -{1}addn1 iotaD /= rev_cat /=.
have Hs : size (set_nth 0 l (p + m).+1 (nth 0 l (p + m))) = size l.
  by rewrite size_set_nth; apply/maxn_idPr; rewrite -addnS.
by rewrite IH Hs //; apply: leq_ltn_trans H; rewrite leq_add2l.
Qed.
Lemma shift_insert l z p v w : p <= size l ->
  set_nth 0 (shift_right (l ++ w :: z) p (size l).+1) p v = ins p v l ++ z.
Proof.
move=> Hp; rewrite /shift_right subn1 /=.
have Hm : p + (size l - p) < size (l ++ w :: z) by rewrite subnKC // size_cat /= addnS ltnS leq_addr.
have Sz : size (set_nth 0 (foldl (fun l i => set_nth 0 l i.+1 (nth 0 l i)) (l ++ w :: z) (rev (iota p (size l - p)))) p v) = size (ins p v l ++ z).
  rewrite size_set_nth shift_right_size // (maxn_idPr _).
    by rewrite (size_cat l) (size_cat (ins p v l)) size_ins /= addnS addSn.
  by rewrite size_cat /= addnS ltnS (leq_trans Hp) // leq_addr.
apply: (@eq_from_nth _ 0) => // i; rewrite Sz => Hi.
rewrite nth_set_nth /= shift_right_nth // subnKC // (nth_cat _ (ins p v l)) size_ins nth_ins // !(nth_cat _ l).
case: (ltngtP i p) => Hip.
- by have A := leq_trans Hip Hp; rewrite A (ltnW A : i < (size l).+1).
- case: i Hi Hip => // i Hi Hip; rewrite ltnS /=.
  case: (ltnP i (size l)) => H1; first by rewrite ?(ltnW H1).
  by rewrite ltnNge (leqW H1) /= subSn // subSS.
- by rewrite Hip ltnS Hp.
Qed.
Lemma placeE l ps n : size l = n -> seq_ok n ps -> place (l ++ nseq (size ps) 0) ps n = insk ps (iota n (size ps)) l.
Proof.
elim: ps l n => [|p ps IH] l n /=; first by rewrite cats0.
move=> Hl /andP [Hp Hok]; rewrite -{1}Hl shift_insert ?Hl //.
by rewrite IH // size_ins Hl.
Qed.
Lemma shift_left_nth l m i : m < size l ->
  nth 0 (foldl (fun l i => set_nth 0 l i (nth 0 l i.+1)) l (iota 0 m)) i = if i < m then nth 0 l i.+1 else nth 0 l i.
Proof.
elim: m i => [|m IH] i H //.
rewrite -{1}addn1 iotaD foldl_cat /= add0n nth_set_nth /= !IH ?(ltnW H) //.
rewrite ltnS; case: (ltngtP i m) => // ->; by rewrite ltnNge leqnSn.
Qed.
Lemma shift_left_size l m : m < size l ->
  size (foldl (fun l i => set_nth 0 l i (nth 0 l i.+1)) l (iota 0 m)) = size l.
Proof.
elim: m => [|m IH] H //.
rewrite -{1}addn1 iotaD foldl_cat /= add0n size_set_nth IH ?(ltnW H) //.
by apply/maxn_idPr; exact: ltnW.
Qed.
Lemma roll_upE l : 0 < size l -> roll_up l (size l) = rot 1 l.
Proof.
case: l => // a l _; rewrite /roll_up /shift_left /= subn1 /= rot1_cons.
have Hs : size l < size (a :: l) by [].
apply: (@eq_from_nth _ 0); first by rewrite size_set_nth shift_left_size //= size_rcons; apply/maxn_idPr.
move=> i _; rewrite nth_set_nth /= shift_left_nth // nth_rcons /=.
case: (ltngtP i (size l)) => // H.
by rewrite nth_default //; case: i H.
Qed.
Lemma roll_downE l : 0 < size l -> roll_down l (size l) = rotr 1 l.
Proof.
case/lastP: l => // l a _; rewrite /roll_down /shift_right size_rcons subn1 /= subn0 rotr1_rcons.
have Hs : 0 + size l < size (rcons l a) by rewrite size_rcons.
apply: (@eq_from_nth _ 0).
  rewrite size_set_nth shift_right_size // size_rcons; exact/maxn_idPr.
move=> i Hi; rewrite nth_set_nth /= shift_right_nth // nth_rcons ltnn eqxx add0n.
case: i Hi => // i Hi /=; rewrite !nth_rcons.
case: (ltngtP i (size l)) => //= H; move: Hi.
- rewrite size_set_nth shift_right_size // size_rcons (maxn_idPr _) // ltnS => H2.
  by move: (ltn_trans H H2); rewrite ltnn.
- rewrite size_set_nth shift_right_size // size_rcons (maxn_idPr _) // ltnS => H2.
  by move: H2; rewrite H ltnn.
Qed.

(** ---- sorting the positions ---- *)
Lemma argsort_perm v : perm_eq (argsort v) (iota 0 (size v)).
Proof. by rewrite /argsort perm_sort. Qed.
Lemma argsort_size v : size (argsort v) = size v.
Proof. by rewrite (perm_size (argsort_perm v)) size_iota. Qed.
Lemma argsort_sorted v : sorted leq [seq nth 0 v a | a <- argsort v].
Proof.
by rewrite sorted_map; apply: sort_sorted => a b; exact: leq_total.
Qed.
Lemma argsort_map_perm v : perm_eq [seq nth 0 v a | a <- argsort v] v.
Proof.
have H := perm_map (nth 0 v) (argsort_perm v); apply: perm_trans H _.
by rewrite -/(mkseq (nth 0 v) (size v)) mkseq_nth.
Qed.
Lemma sorted_leq_uniq (s : seq nat) : sorted leq s -> uniq s -> sorted ltn s.
Proof. by move=> H U; rewrite ltn_sorted_uniq_leq U. Qed.
(** what the consistency loop establishes, with the last position in range *)
Lemma checked_sorted bound v : sorted leq v -> checked bound v -> last 0 v < bound ->
  sorted ltn v /\ all (fun p => p < bound) v.
Proof.
move=> Hs Hc Hl.
case: v Hs Hc Hl => [|a v] // Hs /allP Hc Hl.
have HC : forall l, l < size v -> (nth 0 (a :: v) l != nth 0 (a :: v) l.+1) && (nth 0 (a :: v) l < bound).
  by move=> l Hlt; apply: Hc; rewrite mem_iota /= add0n subn1.
split.
- apply/(sortedP 0) => i; rewrite /= ltnS => Hi.
  case/andP: (HC _ Hi) => Hn _; rewrite ltn_neqAle Hn /=.
  by move/(sortedP 0): Hs; apply; rewrite /= ltnS.
- apply/(all_nthP 0) => i; rewrite /= ltnS leq_eqVlt => /orP [/eqP ->|/HC/andP[] //].
  by rewrite -[size v]/(size (a :: v)).-1 nth_last.
Qed.
Lemma sorted_checked bound v : sorted ltn v -> all (fun p => p < bound) v -> checked bound v.
Proof.
case: v => [|a v] // Hs Ha; apply/allP => l; rewrite mem_iota /= add0n subn1 /= => Hl.
apply/andP; split; last by apply: (allP Ha); rewrite mem_nth //= ltnS ltnW.
by rewrite neq_ltn; move/(sortedP 0)/(_ l): Hs => /= ->.
Qed.
Lemma insert_many_perm (T : Type) (t0 : T) (qs : seq nat) (xs l : seq T) idx :
  uniq qs -> perm_eq idx (iota 0 (size qs)) ->
  insert_many t0 [seq nth 0 qs a | a <- idx] [seq nth t0 xs a | a <- idx] l = insert_many t0 qs xs l.
Proof.
move=> U Hp.
have P : perm_eq [seq nth 0 qs a | a <- idx] qs.
  by have H := perm_map (nth 0 qs) Hp; apply: perm_trans H _; rewrite -/(mkseq (nth 0 qs) (size qs)) mkseq_nth.
rewrite /insert_many (perm_size P); apply: eq_mkseq => p.
rewrite (perm_mem P); have -> : count (fun q => q < p) [seq nth 0 qs a | a <- idx] = count (fun q => q < p) qs by apply/permP.
case: ifP => // Hm.
have Hm2 : p \in [seq nth 0 qs a | a <- idx] by rewrite (perm_mem P).
have Hi : index p [seq nth 0 qs a | a <- idx] < size idx by rewrite -(size_map (nth 0 qs)) index_mem.
rewrite (nth_map 0) //; congr nth.
have Hn : nth 0 qs (nth 0 idx (index p [seq nth 0 qs a | a <- idx])) = p by rewrite -(nth_map 0 0) // nth_index.
have Hlt : nth 0 idx (index p [seq nth 0 qs a | a <- idx]) < size qs.
  have : nth 0 idx (index p [seq nth 0 qs a | a <- idx]) \in idx by rewrite mem_nth.
  by rewrite (perm_mem Hp) mem_iota.
by rewrite -[p in RHS]Hn index_uniq.
Qed.

(** ---- deletion is the inverse of insertion ---- *)
Lemma count_mem_iota (qs : seq nat) q : uniq qs -> count (mem qs) (iota 0 q) = count (fun p => p < q) qs.
Proof.
move=> U; rewrite -!size_filter; apply: perm_size; apply: uniq_perm; rewrite ?filter_uniq ?iota_uniq //.
by move=> p; rewrite !mem_filter mem_iota /= add0n andbC.
Qed.
Lemma count_notin (qs : seq nat) q : uniq qs -> count (fun p => p \notin qs) (iota 0 q) = q - count (fun p => p < q) qs.
Proof.
move=> U; have H := count_predC (mem qs) (iota 0 q); rewrite size_iota (count_mem_iota _ U) in H.
exact: (canRL (addKn _) H).
Qed.
Lemma kept_nth (qs : seq nat) n q : uniq qs -> q < n -> q \notin qs ->
  nth 0 [seq p <- iota 0 n | p \notin qs] (q - count (fun p => p < q) qs) = q.
Proof.
move=> U Hq Hn.
have E : iota 0 n = iota 0 q ++ q :: iota q.+1 (n - q.+1).
  by rewrite -{1}(subnKC (ltnW Hq)) iotaD -(subnSK Hq).
rewrite E filter_cat /= Hn nth_cat.
have -> : size [seq p <- iota 0 q | p \notin qs] = q - count (fun p => p < q) qs.
  by rewrite size_filter count_notin.
by rewrite ltnn subnn.
Qed.
Lemma size_kept (qs : seq nat) n : uniq qs -> all (fun p => p < n) qs -> size [seq p <- iota 0 n | p \notin qs] = n - size qs.
Proof.
by move=> U Ha; rewrite size_filter count_notin // count_lt_all.
Qed.
Lemma insert_delete (T : Type) (t0 : T) (qs : seq nat) (u : seq T) : uniq qs -> all (fun p => p < size u) qs ->
  insert_many t0 qs [seq nth t0 u p | p <- qs] (delete_many t0 qs u) = u.
Proof.
move=> U Ha.
have Hle : size qs <= size u.
  by rewrite -(size_iota 0 (size u)); apply: uniq_leq_size => // p /(allP Ha); rewrite mem_iota.
apply: (@eq_from_nth _ t0); first by rewrite size_mkseq size_map size_kept // subnK.
move=> q; rewrite size_mkseq size_map size_kept // subnK // => Hq.
rewrite nth_mkseq ?size_map ?size_kept ?subnK //.
case: ifP => [Hm|/negbT Hm]; first by rewrite (nth_map 0) ?index_mem // nth_index.
rewrite (nth_map 0) ?kept_nth //.
rewrite size_filter.
have E2 : iota 0 (size u) = iota 0 q ++ q :: iota q.+1 (size u - q.+1).
  by rewrite -{1}(subnKC (ltnW Hq)) iotaD -(subnSK Hq).
by rewrite E2 count_cat /= Hm count_notin // addnS ltnS leq_addr.
Qed.
Lemma delete_at_many (T : Type) (t0 : T) p (l : seq T) : p < size l -> delete_at p l = delete_many t0 [:: p] l.
Proof.
move=> Hp; rewrite /delete_many.
have E : iota 0 (size l) = iota 0 p ++ p :: iota p.+1 (size l - p.+1).
  by rewrite -{1}(subnKC (ltnW Hp)) iotaD -(subnSK Hp).
rewrite E filter_cat /= inE eqxx /= map_cat.
rewrite (_ : filter _ _ = iota 0 p); last first.
  by apply/all_filterP/allP => q; rewrite mem_iota inE /= add0n => H; rewrite neq_ltn H.
rewrite (_ : filter _ _ = iota p.+1 (size l - p.+1)); last first.
  by apply/all_filterP/allP => q; rewrite mem_iota inE /= => /andP [H _]; rewrite neq_ltn H orbT.
by rewrite (map_nth_iota0 t0 (ltnW Hp)) (map_nth_iota t0 (leqnn _)) (take_oversize (s := drop p.+1 l)) ?size_drop.
Qed.
Lemma replace_set (T : Type) (t0 : T) p x (l : seq T) : p < size l -> set_nth t0 l p x = replace_at p x l.
Proof.
move=> Hp; apply: (@eq_from_nth _ t0).
  rewrite size_set_nth (maxn_idPr Hp) /replace_at size_cat /= size_drop size_takel ?(ltnW Hp) //.
  by rewrite addnS -addSn subnKC.
move=> q _; rewrite nth_set_nth /replace_at nth_cat size_takel ?(ltnW Hp) //= .
case: (ltngtP q p) => H; first by rewrite nth_take.
- by rewrite -(subnSK H) /= nth_drop addSn -addnS subnSK // subnKC // ltnW.
- by rewrite H subnn.
Qed.

(** ---- one side (rows or columns) of the object ---- *)
Definition half (T : Type) (t0 : T) n (row : seq nat) (xs u : seq T) : Prop :=
  [/\ perm_eq row (iota 0 n), size xs = n & u = [seq nth t0 xs a | a <- row]].

Lemma perm_iota_mem n (row : seq nat) a : perm_eq row (iota 0 n) -> (a \in row) = (a < n).
Proof. by move=> H; rewrite (perm_mem H) mem_iota. Qed.
Lemma perm_iota_size n (row : seq nat) : perm_eq row (iota 0 n) -> size row = n.
Proof. by move=> H; rewrite (perm_size H) size_iota. Qed.
Lemma perm_iota_uniq n (row : seq nat) : perm_eq row (iota 0 n) -> uniq row.
Proof. by move=> H; rewrite (perm_uniq H) iota_uniq. Qed.
Lemma perm_comp n (r s : seq nat) : perm_eq r (iota 0 n) -> perm_eq s (iota 0 n) -> perm_eq [seq nth 0 r a | a <- s] (iota 0 n).
Proof.
move=> Hr Hs; apply: perm_trans (perm_map _ Hs) _.
by rewrite -{1}(perm_iota_size Hr) -/(mkseq (nth 0 r) (size r)) mkseq_nth.
Qed.
Lemma swpK i j : involutive (swp i j).
Proof.
move=> a; rewrite /swp; case: (eqVneq a i) => [->|Hi].
  by rewrite eqxx; case: eqP.
by case: (eqVneq a j) => [->|Hj]; rewrite ?eqxx // (negbTE Hi) (negbTE Hj).
Qed.
Lemma swp_lt n i j a : i < n -> j < n -> a < n -> swp i j a < n.
Proof. by move=> Hi Hj Ha; rewrite /swp; case: ifP => // _; case: ifP. Qed.
Lemma swp_same i a : swp i i a = a.
Proof. by rewrite /swp; case: eqP => [->|_]. Qed.
Lemma perm_swp n i j : i < n -> j < n -> perm_eq [seq swp i j a | a <- iota 0 n] (iota 0 n).
Proof.
move=> Hi Hj; apply: uniq_perm; rewrite ?(map_inj_uniq (inv_inj (swpK i j))) ?iota_uniq //.
move=> a; rewrite mem_iota /= add0n; apply/mapP/idP => [[b] |Ha].
  by rewrite mem_iota add0n => /= Hb ->; apply: swp_lt.
by exists (swp i j a); rewrite ?swpK // mem_iota /= add0n swp_lt.
Qed.
Lemma swap_atE l i j : i < size l -> j < size l -> swap_at l i j = [seq nth 0 l (swp i j a) | a <- iota 0 (size l)].
Proof.
move=> Hi Hj; rewrite /swap_at.
have S1 : size (set_nth 0 l i (nth 0 l j)) = size l by rewrite size_set_nth; exact/maxn_idPr.
apply: (@eq_from_nth _ 0).
  by rewrite size_set_nth S1 size_map size_iota; exact/maxn_idPr.
move=> a _; case: (ltnP a (size l)) => Ha; last first.
  rewrite [RHS]nth_default ?size_map ?size_iota //.
  by rewrite nth_default // size_set_nth S1 (maxn_idPr _).
rewrite (nth_map 0) ?size_iota // nth_iota // add0n !nth_set_nth /= /swp.
case: (eqVneq a j) => [->|Hj2]; last by rewrite nth_set_nth /=; case: (eqVneq a i).
by case: (eqVneq j i) => [->|].
Qed.
Lemma swap_at_perm n l i j : perm_eq l (iota 0 n) -> i < n -> j < n -> perm_eq (swap_at l i j) (iota 0 n).
Proof.
move=> Hl Hi Hj; have Sl := perm_iota_size Hl.
by rewrite swap_atE ?Sl // (map_comp (nth 0 l) (swp i j)) perm_comp // perm_swp.
Qed.
Lemma swap_at_exchange (T : Type) (t0 : T) n row xs u i j : half t0 n row xs u -> i < n -> j < n ->
  half t0 n (swap_at row i j) xs (exchange t0 i j u).
Proof.
case=> Hp Hs -> Hi Hj; split=> //; first exact: swap_at_perm.
have Sr := perm_iota_size Hp.
rewrite swap_atE ?Sr // /exchange /mkseq size_map Sr -map_comp; apply/eq_in_map => a; rewrite mem_iota /= add0n => Ha.
by rewrite (nth_map 0) // Sr; apply: swp_lt.
Qed.
Lemma exchange_same (T : Type) (t0 : T) i (u : seq T) : exchange t0 i i u = u.
Proof. by rewrite -[RHS](mkseq_nth t0 u); apply: eq_mkseq => p; have := swp_same i p; rewrite /swp => ->. Qed.
Lemma half_rot (T : Type) (t0 : T) n row xs u : half t0 n row xs u -> half t0 n (rot 1 row) xs (rot 1 u).
Proof. by case=> Hp Hs ->; split=> //; rewrite ?map_rot // perm_rot. Qed.
Lemma half_rotr (T : Type) (t0 : T) n row xs u : half t0 n row xs u -> half t0 n (rotr 1 row) xs (rotr 1 u).
Proof. by case=> Hp Hs ->; split=> //; rewrite ?map_rotr // perm_rotr. Qed.

Lemma half_insk (T : Type) (t0 : T) n row xs u ps ws : half t0 n row xs u -> size ps = size ws -> seq_ok n ps ->
  half t0 (n + size ps) (place (row ++ nseq (size ps) 0) ps n) (xs ++ ws) (insk ps ws u).
Proof.
case=> Hp Hs -> Es Hok; rewrite placeE ?(perm_iota_size Hp) //; split.
- apply: perm_trans (perm_insk _ _) _; first by rewrite size_iota.
  by rewrite iotaD add0n perm_cat2r.
- by rewrite size_cat Hs Es.
- rewrite map_insk; congr insk.
    by rewrite Es -Hs map_nth_iota ?size_cat ?addKn // drop_size_cat // take_size.
  apply/eq_in_map => a; rewrite (perm_iota_mem _ Hp) => Ha.
  by rewrite nth_cat Hs Ha.
Qed.
Lemma half_set (T : Type) (t0 : T) n row xs u i x : half t0 n row xs u -> i < n ->
  half t0 n row (set_nth t0 xs (nth 0 row i) x) (replace_at i x u).
Proof.
case=> Hp Hs -> Hi; have Hr := perm_nth_lt Hp Hi; split=> //.
  by rewrite size_set_nth Hs; apply/maxn_idPr.
have Sr := perm_iota_size Hp.
rewrite -(replace_set t0) ?size_map ?Sr //.
apply: (@eq_from_nth _ t0); first by rewrite size_set_nth !size_map Sr; apply/maxn_idPr.
move=> q; rewrite size_set_nth !size_map Sr (maxn_idPr Hi) => Hq.
rewrite nth_set_nth /= (nth_map 0) ?Sr // [RHS](nth_map 0) ?Sr // nth_set_nth /=.
by rewrite (perm_nth_inj Hp).
Qed.
Lemma half_size (T : Type) (t0 : T) n row xs u : half t0 n row xs u -> size u = n.
Proof. by case=> Hp _ ->; rewrite size_map (perm_iota_size Hp). Qed.
Lemma half_nth (T : Type) (t0 : T) n row xs u i : half t0 n row xs u -> i < n -> nth t0 u i = nth t0 xs (nth 0 row i).
Proof. by case=> Hp _ -> Hi; rewrite (nth_map 0) ?(perm_iota_size Hp). Qed.
