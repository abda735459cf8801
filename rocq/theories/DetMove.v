(** The removal of rows/columns: moving them to the end and cutting. *)
From mathcomp Require Import all_ssreflect all_algebra.
From Verif Require Import Base FieldTac DetManip DetSpec DetLemmas DetStruct.
Set Implicit Arguments.
Unset Strict Implicit.
Unset Printing Implicit Defensive.
Local Open Scope nat_scope.

Lemma seq_ok_nth n ps m : seq_ok n ps -> m < size ps -> nth 0 ps m <= n + m.
Proof.
elim: ps n m => [|p ps IH] n [|m] //=; first by rewrite addn0 => /andP [].
by case/andP=> _ H Hm; rewrite addnS -addSn; exact: IH.
Qed.
Lemma swap_at_index n l a b : perm_eq l (iota 0 n) -> a < n -> b < n ->
  swap_at l (index a l) (index b l) = [seq swp a b p | p <- l].
Proof.
move=> Hl Ha Hb; have U := perm_iota_uniq Hl.
have Ia : a \in l by rewrite (perm_iota_mem _ Hl).
have Ib : b \in l by rewrite (perm_iota_mem _ Hl).
rewrite swap_atE ?index_mem //.
apply: (@eq_from_nth _ 0); first by rewrite !size_map size_iota.
move=> i; rewrite size_map size_iota => Hi.
rewrite (nth_map 0) ?size_iota // nth_iota // add0n (nth_map 0) // /swp.
have E : forall c, c \in l -> (i == index c l) = (nth 0 l i == c).
  move=> c Hc; apply/eqP/eqP => [->|<-]; first by rewrite nth_index.
  by rewrite index_uniq.
rewrite !E //; case: ifP => _; first by rewrite nth_index.
by case: ifP => _ //; rewrite nth_index.
Qed.

Section Side.
Variables (T : Type) (t0 : T) (N N' k : nat) (ir : seq nat) (row0 : seq nat) (xs0 : seq T).
Hypotheses (HN : N = N' + k) (Hsz : size ir = k) (Hso : sorted ltn ir) (Hlt : all (fun p => p < N) ir).

Definition side m (row : seq nat) (xs : seq T) (s : seq nat) : Prop :=
  [/\ [/\ perm_eq row (iota 0 N), perm_eq s (iota 0 N), [seq nth 0 s a | a <- row] = row0 & size xs = N],
      (forall i, i < N' + m -> nth t0 xs i = nth t0 xs0 (nth 0 s i)),
      (forall m', m <= m' -> m' < k -> nth 0 s (N' + m') = nth 0 ir m') &
      (forall m', m' < m -> nth 0 s (nth 0 ir m') = nth 0 ir m')].
Definition mv_row a b (row : seq nat) := if a == b then row else swap_at row (index a row) (index b row).
Definition mv_xs a b (xs : seq T) := if a == b then xs else set_nth t0 xs a (nth t0 xs b).
Definition mv_s a b (s : seq nat) := [seq nth 0 s (swp a b p) | p <- iota 0 N].

Lemma ir_le m : m < k -> nth 0 ir m <= N' + m.
Proof.
move=> Hm; apply: seq_ok_nth; last by rewrite Hsz.
by apply: sorted_seq_ok => //; rewrite Hsz -HN.
Qed.
Lemma ir_lt m : m < k -> nth 0 ir m < N.
Proof. by move=> Hm; apply: (allP Hlt); rewrite mem_nth // Hsz. Qed.
Lemma ir_mono m m' : m < m' -> m' < k -> nth 0 ir m < nth 0 ir m'.
Proof.
move=> H Hk; have := sorted_ltn_nth ltn_trans 0 Hso; apply=> //; rewrite inE Hsz //.
exact: ltn_trans Hk.
Qed.
Lemma side_init row xs : row = row0 -> xs = xs0 -> perm_eq row (iota 0 N) -> size xs = N -> side k row xs (iota 0 N).
Proof.
move=> -> -> Hp Hs; split.
- split=> //; rewrite -[RHS]map_id; apply/eq_in_map => a; rewrite (perm_iota_mem _ Hp) => Ha.
  by rewrite nth_iota.
- by move=> i Hi; rewrite nth_iota // HN.
- by move=> m' H1 H2; move: (leq_ltn_trans H1 H2); rewrite ltnn.
- by move=> m' Hm; rewrite nth_iota ?ir_lt.
Qed.
Lemma nth_mv_s a b s p : p < N -> nth 0 (mv_s a b s) p = nth 0 s (swp a b p).
Proof. by move=> Hp; rewrite (nth_map 0) ?size_iota // nth_iota. Qed.
Lemma side_step m row xs s : m < k -> side m.+1 row xs s ->
  side m (mv_row (nth 0 ir m) (N' + m) row) (mv_xs (nth 0 ir m) (N' + m) xs) (mv_s (nth 0 ir m) (N' + m) s).
Proof.
move=> Hm [[Hr Hs Hm0 Hx] Hag Hdone Hfix].
have Hi := ir_lt Hm; have Hle := ir_le Hm.
have Ht : N' + m < N by rewrite HN ltn_add2l.
have Er : mv_row (nth 0 ir m) (N' + m) row = [seq swp (nth 0 ir m) (N' + m) p | p <- row].
  rewrite /mv_row; case: eqP => [E|_]; last exact: swap_at_index Hr Hi Ht.
  by rewrite -[LHS]map_id; apply: eq_map => p; rewrite E swp_same.
rewrite Er; split.
- split.
  + by apply: perm_trans (perm_map _ Hr) _; exact: perm_swp.
  + by rewrite /mv_s (map_comp (nth 0 s) (swp _ _)) perm_comp // perm_swp.
  + rewrite -map_comp -Hm0; apply/eq_in_map => p; rewrite (perm_iota_mem _ Hr) => Hp /=.
    by rewrite nth_mv_s ?swpK // swp_lt.
  + rewrite /mv_xs; case: eqP => // _; rewrite size_set_nth Hx; exact/maxn_idPr.
- move=> i Hi2.
  have HiN : i < N by apply: ltn_trans Hi2 Ht.
  rewrite nth_mv_s // /mv_xs /swp (ltn_eqF Hi2).
  case: eqP => [E|_].
    by rewrite E (ltn_eqF Hi2); apply: Hag; rewrite addnS ltnS ltnW.
  rewrite nth_set_nth /=; case: eqP => _; apply: Hag; rewrite addnS ltnS //.
  exact: ltnW.
- move=> m' H1 H2.
  have HmN : N' + m' < N by rewrite HN ltn_add2l.
  rewrite nth_mv_s // /swp.
  move: H1; rewrite leq_eqVlt => /orP [/eqP <-|H1].
    rewrite eqxx; case: eqP => [E|_]; first by rewrite E Hfix // -E.
    exact: Hfix.
  have H3 : N' + m < N' + m' by rewrite ltn_add2l.
  rewrite (gtn_eqF (leq_ltn_trans Hle H3)) (gtn_eqF H3).
  exact: Hdone.
- move=> m' H1.
  have H2 := ir_mono H1 Hm.
  rewrite nth_mv_s ?(ltn_trans H2) // /swp (ltn_eqF H2) (ltn_eqF (leq_trans H2 Hle)).
  by apply: Hfix; rewrite ltnS ltnW.
Qed.

Lemma take_std_remove n (p : pred nat) (l : seq nat) : count (predC p) l = n -> take n (std_remove p l) = filter (predC p) l.
Proof. by move=> H; rewrite /std_remove take_size_cat // size_filter. Qed.
Lemma side_final row xs s : side 0 row xs s ->
  let row2 := take N' (std_remove (leq N') row) in
  [/\ row2 = [seq a <- row | a < N'], perm_eq row2 (iota 0 N'), size (take N' xs) = N' &
      [seq nth t0 (take N' xs) a | a <- row2] = [seq nth t0 xs0 a | a <- row0 & a \notin ir]].
Proof.
move=> [[Hr Hs Hm0 Hx] Hag Hdone _] row2.
have Pf : perm_eq [seq a <- row | a < N'] (iota 0 N').
  apply: perm_trans (_ : perm_eq [seq a <- iota 0 N | a < N'] (iota 0 N')); first exact: perm_filter.
  rewrite HN iotaD filter_cat.
  rewrite (_ : filter _ (iota 0 N') = iota 0 N'); last first.
    by apply/all_filterP/allP => a; rewrite mem_iota.
  rewrite (_ : filter _ _ = [::]) ?cats0 //.
  apply/eqP; rewrite -[_ == _]negbK -has_filter; apply/hasPn => a.
  by rewrite mem_iota add0n => /andP [H _]; rewrite -leqNgt.
have E2 : row2 = [seq a <- row | a < N'].
  rewrite /row2 take_std_remove; first by apply: eq_filter => a /=; rewrite -ltnNge.
  rewrite -[RHS](perm_iota_size Pf) size_filter; apply: eq_count => a /=; by rewrite -ltnNge.
have Hle : N' <= N by rewrite HN leq_addr.
split=> //; rewrite ?E2 // ?size_takel ?Hx //.
have Hin : forall a, a < N -> (nth 0 s a \in ir) = (N' <= a).
  move=> a Ha; apply/idP/idP => [|H].
    case/(nthP 0) => m' Hm'; rewrite Hsz in Hm'.
    have Hm2 : N' + m' < N by rewrite HN ltn_add2l.
    rewrite -Hdone // => /eqP; rewrite (perm_nth_inj Hs) // => /eqP <-; exact: leq_addr.
  have H2 : a - N' < k by rewrite ltn_subLR // -HN.
  by rewrite -(subnKC H) Hdone // mem_nth // Hsz.
have E3 : [seq a <- row | nth 0 s a \notin ir] = [seq a <- row | a < N'].
  by apply: eq_in_filter => a; rewrite (perm_iota_mem _ Hr) => Ha; rewrite Hin // -ltnNge.
rewrite -Hm0 filter_map -map_comp (_ : filter (preim _ _) row = [seq a <- row | a < N']) //.
apply/eq_in_map => a; rewrite mem_filter => /andP [Ha _] /=.
by rewrite nth_take // Hag ?addn0.
Qed.
End Side.
