(** Linear algebra used by the proofs about det_manip. *)
From mathcomp Require Import all_ssreflect all_algebra fingroup perm.
From Verif Require Import Base FieldTac DetManip.
Set Implicit Arguments.
Unset Strict Implicit.
Unset Printing Implicit Defensive.
Import GRing.Theory.
Local Open Scope ring_scope.

Section Blocks.
Variable F : fieldType.
Variables n k : nat.
Implicit Types (A : 'M[F]_n) (B : 'M[F]_(n, k)) (C : 'M[F]_(k, n)) (D : 'M[F]_k).

Lemma schur_det A Ai B C D : A *m Ai = 1%:M -> \det (block_mx A B C D) = \det A * \det (D - C *m Ai *m B).
Proof.
move=> H.
have -> : block_mx A B C D = block_mx A 0 C 1%:M *m block_mx 1%:M (Ai *m B) 0 (D - C *m Ai *m B).
  rewrite mulmx_block !mulmx1 !mulmx0 !mul0mx !mul1mx !addr0 ?add0r.
  by rewrite !mulmxA H mul1mx addrC subrK.
by rewrite det_mulmx det_lblock det_ublock !det1 mulr1 mul1r.
Qed.

Lemma block_inv A Ai B C D Si : A *m Ai = 1%:M -> (D - C *m Ai *m B) *m Si = 1%:M ->
  block_mx A B C D *m block_mx (Ai + Ai *m B *m Si *m C *m Ai) (- (Ai *m B *m Si)) (- (Si *m C *m Ai)) Si = 1%:M.
Proof.
move=> H HS.
rewrite mulmx_block !mulmxDr !mulmxN !mulmxA H !mul1mx.
rewrite -addrA subrr addr0 addNr.
have E : forall m (Z : 'M[F]_(k, m)), C *m Ai *m B *m Si *m Z - D *m Si *m Z = - Z.
  by move=> m Z; rewrite -mulmxBl -mulmxBl -opprB mulNmx HS mulNmx mul1mx.
have -> : C *m Ai + C *m Ai *m B *m Si *m C *m Ai - D *m Si *m C *m Ai = 0.
  rewrite -addrA -(mulmxA _ C Ai) -(mulmxA (D *m Si) C Ai) E subrr //.
have -> : - (C *m Ai *m B *m Si) + D *m Si = 1%:M.
  by rewrite addrC -mulmxBl.
by rewrite -scalar_mx_block.
Qed.

Lemma block_rem A B C D P Q R S : block_mx A B C D *m block_mx P Q R S = 1%:M ->
  \det A = \det (block_mx A B C D) * \det S /\
  forall Si, S *m Si = 1%:M -> A *m (P - Q *m Si *m R) = 1%:M.
Proof.
rewrite mulmx_block (@scalar_mx_block _ n k 1) => /eq_block_mx [E1 E2 E3 E4]; split.
- have H : block_mx A B C D *m block_mx 1%:M Q 0 S = block_mx A 0 C 1%:M.
    by rewrite mulmx_block !mulmx1 !mulmx0 !addr0 E2 E4.
  move: (congr1 (fun M => \det M) H).
  by rewrite det_mulmx det_ublock det_lblock !det1 mulr1 mul1r => ->.
- move=> Si HS; rewrite mulmxBr !mulmxA.
  have -> : A *m Q = - (B *m S) by apply/eqP; rewrite -subr_eq0 opprK E2.
  by rewrite mulNmx mulNmx opprK -(mulmxA B S) HS mulmx1 E1.
Qed.

Lemma det_1PQ (P : 'M[F]_(n, k)) (Q : 'M[F]_(k, n)) : \det (1%:M + P *m Q) = \det (1%:M + Q *m P).
Proof.
have := @schur_det 1%:M 1%:M (- P) Q 1%:M (mul1mx _).
rewrite mulmx1 mulmxN opprK det1 mul1r => <-.
have -> : block_mx 1%:M (- P) Q 1%:M = block_mx (1%:M + P *m Q) (- P) 0 1%:M *m block_mx 1%:M 0 Q 1%:M.
  by rewrite mulmx_block !mulmx1 !mulmx0 !mul1mx !add0r mulNmx addrK.
by rewrite det_mulmx det_ublock det_lblock !det1 !mulr1.
Qed.
End Blocks.

Section Fmx.
Variable F : fieldType.
Implicit Types (g h : nat -> nat -> F).

Add Field Ff : (Fft F).

Lemma eq_fmx m n g h : (forall i j, (i < m)%N -> (j < n)%N -> g i j = h i j) -> fmx m n g = fmx m n h.
Proof. by move=> H; apply/matrixP=> i j; rewrite !mxE H. Qed.
Lemma fmx_inj m n g h : fmx m n g = fmx m n h -> forall i j, (i < m)%N -> (j < n)%N -> g i j = h i j.
Proof. by move=> /matrixP H i j Hi Hj; have := H (Ordinal Hi) (Ordinal Hj); rewrite !mxE. Qed.
Lemma fmxM m n p g h : fmx m n g *m fmx n p h = fmx m p (fun i j => sumN n (fun l => g i l * h l j)).
Proof. by apply/matrixP=> i j; rewrite !mxE; apply: eq_bigr => l _; rewrite !mxE. Qed.
Lemma fmxD m n g h : fmx m n g + fmx m n h = fmx m n (fun i j => g i j + h i j).
Proof. by apply/matrixP=> i j; rewrite !mxE. Qed.
Lemma fmxN m n g : - fmx m n g = fmx m n (fun i j => - g i j).
Proof. by apply/matrixP=> i j; rewrite !mxE. Qed.
Lemma fmxB m n g h : fmx m n g - fmx m n h = fmx m n (fun i j => g i j - h i j).
Proof. by rewrite fmxN fmxD. Qed.
Lemma fmx1 n : fmx n n (fun i j => (i == j)%:R) = 1%:M :> 'M[F]_n.
Proof. by apply/matrixP=> i j; rewrite !mxE. Qed.
Lemma fmx_tr m n g : (fmx m n g)^T = fmx n m (fun i j => g j i).
Proof. by apply/matrixP=> i j; rewrite !mxE. Qed.
Lemma of_mxK m n (A : 'M[F]_(m, n)) : fmx m n (of_mx A) = A.
Proof. by apply/matrixP=> i j; rewrite !mxE /of_mx !valK. Qed.
Lemma nda_inv_fmx n g : fmx n n (nda_inv n g) = invmx (fmx n n g).
Proof. exact: of_mxK. Qed.
Lemma nda_invP n g : nda_det n g != 0 -> fmx n n g *m fmx n n (nda_inv n g) = 1%:M.
Proof. by move=> H; rewrite nda_inv_fmx mulmxV // unitmxE unitfE. Qed.
Lemma fmx_block n k g : fmx (n + k) (n + k) g =
  block_mx (fmx n n g) (fmx n k (fun i j => g i (n + j)%N)) (fmx k n (fun i j => g (n + i)%N j)) (fmx k k (fun i j => g (n + i)%N (n + j)%N)).
Proof.
apply/matrixP=> i j; rewrite !mxE.
by case: (splitP i) => i' Ei; rewrite !mxE; case: (splitP j) => j' Ej; rewrite !mxE Ei Ej.
Qed.
Lemma eq_nda_det n g h : (forall i j, (i < n)%N -> (j < n)%N -> g i j = h i j) -> nda_det n g = nda_det n h.
Proof. by move=> H; rewrite /nda_det (eq_fmx H). Qed.
Lemma nda_det_tr n g : nda_det n (fun i j => g j i) = nda_det n g.
Proof. by rewrite /nda_det -fmx_tr det_tr. Qed.
Lemma inv_det n g h : fmx n n g *m fmx n n h = 1%:M -> nda_det n g * nda_det n h = 1.
Proof. by move=> H; rewrite /nda_det -det_mulmx H det1. Qed.
Lemma inv_det_neq0 n g h : fmx n n g *m fmx n n h = 1%:M -> nda_det n g != 0.
Proof. by move=> /inv_det H; apply/eqP=> E; move: H; rewrite E mul0r => /esym/eqP; rewrite oner_eq0. Qed.

(** sums over a permuted index *)
Lemma sumN_iota n (g : nat -> F) : sumN n g = \sum_(l <- iota 0 n) g l.
Proof. by rewrite /sumN -(big_mkord xpredT) /index_iota subn0. Qed.
Lemma sumN_perm n (c : seq nat) (g : nat -> F) : perm_eq c (iota 0 n) -> sumN n (fun l => g (nth 0%N c l)) = sumN n g.
Proof.
move=> Hp; rewrite sumN_iota -(big_map (nth 0%N c) xpredT g).
have -> : [seq nth 0%N c i | i <- iota 0 n] = c.
  by rewrite -{2}(mkseq_nth 0%N c) (perm_size Hp) size_iota.
by rewrite sumN_iota (perm_big _ Hp).
Qed.
Lemma eq_sumN n (g h : nat -> F) : (forall l, (l < n)%N -> g l = h l) -> sumN n g = sumN n h.
Proof. by move=> H; apply: eq_bigr => l _; apply: H. Qed.
Lemma perm_nth_lt n (c : seq nat) i : perm_eq c (iota 0 n) -> (i < n)%N -> (nth 0%N c i < n)%N.
Proof.
move=> Hp Hi; have : nth 0%N c i \in iota 0 n by rewrite -(perm_mem Hp) mem_nth // (perm_size Hp) size_iota.
by rewrite mem_iota.
Qed.
Lemma perm_nth_inj n (c : seq nat) i j : perm_eq c (iota 0 n) -> (i < n)%N -> (j < n)%N -> (nth 0%N c i == nth 0%N c j) = (i == j).
Proof.
move=> Hp Hi Hj; apply: nth_uniq; rewrite ?(perm_size Hp) ?size_iota //.
by rewrite (perm_uniq Hp) iota_uniq.
Qed.
Lemma reidx n (r c : seq nat) g h : perm_eq r (iota 0 n) -> perm_eq c (iota 0 n) ->
  fmx n n g *m fmx n n h = 1%:M ->
  fmx n n (fun i j => g (nth 0%N r i) (nth 0%N c j)) *m fmx n n (fun i j => h (nth 0%N c i) (nth 0%N r j)) = 1%:M.
Proof.
move=> Hr Hc; rewrite fmxM -fmx1 => H; rewrite fmxM; apply: eq_fmx => i j Hi Hj.
rewrite (@sumN_perm n c (fun l => g (nth 0%N r i) l * h l (nth 0%N r j))) //.
by rewrite (fmx_inj H) ?(perm_nth_lt Hr) // (perm_nth_inj Hr).
Qed.

Lemma perm_det_sq n (r : seq nat) : perm_eq r (iota 0 n) -> perm_det F n r * perm_det F n r = 1.
Proof.
move=> Hr; have E0 : perm_det F n r = nda_det n (fun i j => (nth 0%N r j == i)%:R) by rewrite /perm_det -nda_det_tr.
rewrite {2}E0.
rewrite /perm_det /nda_det -det_mulmx fmxM.
rewrite (_ : fmx _ _ _ = 1%:M) ?det1 // -fmx1; apply: eq_fmx => i j Hi Hj.
have E : forall a (u : nat -> F), (a < n)%N -> sumN n (fun l => (a == l)%:R * u l) = u a.
  move=> a u Ha; rewrite /sumN (bigD1 (Ordinal Ha)) //= eqxx mul1r big1 ?addr0 // => l Hl.
  have /negbTE -> : a != l :> nat by apply: contra Hl => /eqP El; apply/eqP/val_inj.
  by rewrite mul0r.
by rewrite (E _ (fun l => (nth 0%N r j == l)%:R)) ?(perm_nth_lt Hr) // (perm_nth_inj Hr) // eq_sym.
Qed.
Lemma perm_detE n (r : seq nat) : perm_eq r (iota 0 n) -> perm_det F n r = (-1) ^+ (perm_det F n r != 1).
Proof.
move=> Hr; have /eqP := perm_det_sq Hr; rewrite -expr2 sqrf_eq1.
by case: (eqVneq (perm_det F n r) 1) => [-> _|_ /= /eqP ->]; rewrite ?expr0 ?expr1.
Qed.
Lemma row_reidx n (r : seq nat) g : perm_eq r (iota 0 n) ->
  nda_det n (fun i j => g (nth 0%N r i) j) = perm_det F n r * nda_det n g.
Proof.
move=> Hr; rewrite /perm_det /nda_det -det_mulmx fmxM; congr (\det _); apply: eq_fmx => i j Hi Hj.
have Ha := perm_nth_lt Hr Hi.
rewrite /sumN (bigD1 (Ordinal Ha)) //= eqxx mul1r big1 ?addr0 // => l Hl.
have /negbTE -> : nth 0%N r i != l :> nat by apply: contra Hl => /eqP El; apply/eqP/val_inj.
by rewrite mul0r.
Qed.
Lemma det_reidx n (r c : seq nat) g : perm_eq r (iota 0 n) -> perm_eq c (iota 0 n) ->
  nda_det n (fun i j => g (nth 0%N r i) (nth 0%N c j)) = perm_det F n r * perm_det F n c * nda_det n g.
Proof.
move=> Hr Hc; rewrite (@row_reidx n r (fun a j => g a (nth 0%N c j))) // -mulrA; congr (_ * _).
rewrite -(nda_det_tr n (fun a j => g a (nth 0%N c j))) (@row_reidx n c (fun a j => g j a)) //.
by rewrite (nda_det_tr n g).
Qed.

Lemma det_ksiE k g : det_ksi k g = nda_det k g.
Proof.
rewrite /det_ksi; case: eqP => [->|_].
  rewrite /nda_det (expand_det_row _ ord0) !big_ord_recl big_ord0 /cofactor !det_mx11 !mxE /=.
  rewrite /bump /= !addn0 expr0 mul1r expr1 !mulN1r addr0 mulrN.
  by rewrite (mulrC (g 1%N 0%N)).
case: eqP => [->|//].
rewrite /nda_det (expand_det_row _ ord0) !big_ord_recl big_ord0 /cofactor.
rewrite !(expand_det_row _ ord0) !big_ord_recl !big_ord0 /cofactor !det_mx11 !mxE /=.
rewrite /bump /=.
rewrite !addn0 !add0n; change (1 + 1)%N with 2%N.
rewrite !expr0 !expr1 (_ : (-1) ^+ 2 = 1 :> F) ?sqrrN ?expr1n //.
fring F.
Qed.
End Fmx.

(** ---- determinants of lists ---- *)
Section Lists.
Variables (F : fieldType).
Lemma sg_odd n : sg F (odd n) = (-1) ^+ n.
Proof. by rewrite /sg signr_odd. Qed.
Lemma sg_addb a b : sg F (a (+) b) = sg F a * sg F b.
Proof. by rewrite /sg signr_addb. Qed.
Lemma sg_sq a : sg F a * sg F a = 1.
Proof. by rewrite -sg_addb addbb. Qed.
Lemma sg_neq0 a : sg F a != 0.
Proof. by rewrite /sg signr_eq0. Qed.
Lemma sgN a : sg F (~~ a) = - sg F a.
Proof. by rewrite /sg signrN. Qed.

Section OneList.
Variables (T : Type) (t0 : T).
Definition ins p (x : T) (l : seq T) := take p l ++ x :: drop p l.
Fixpoint insk (ps : seq nat) (xs l : seq T) : seq T :=
  match ps, xs with p :: ps', x :: xs' => insk ps' xs' (ins p x l) | _, _ => l end.
(** positions valid when inserted one after the other *)
Fixpoint seq_ok n (ps : seq nat) : bool := if ps is p :: ps' then (p <= n)%N && seq_ok n.+1 ps' else true.
Fixpoint esum n (ps : seq nat) : nat := if ps is p :: ps' then (n - p + esum n.+1 ps')%N else 0%N.

Lemma size_ins p x l : size (ins p x l) = (size l).+1.
Proof. by rewrite /ins size_cat /= addnS -size_cat cat_take_drop. Qed.
Lemma size_insk ps xs l : size ps = size xs -> size (insk ps xs l) = (size l + size ps)%N.
Proof. 
elim: ps xs l => [|p ps IH] [|x xs] l //=; first by rewrite addn0.
by move=> [E]; rewrite IH // size_ins addSnnS.
 Qed.

(** g is any family of rows indexed by elements of T *)
Definition DR n (g : T -> nat -> F) (l : seq T) := nda_det n (fun i j => g (nth t0 l i) j).

Lemma DR_swap n g a x y b : (size a + 1 < n)%N -> DR n g (a ++ x :: y :: b) = - DR n g (a ++ y :: x :: b).
Proof.
move=> Hn; have H1 : (size a < n)%N by apply: leq_trans Hn; rewrite addn1 ltnS.
pose i1 := Ordinal H1; pose i2 := Ordinal Hn.
have N12 : i1 != i2 by apply/eqP => /(congr1 val) /=; rewrite addn1; apply/eqP; rewrite neq_ltn ltnSn.
rewrite /DR /nda_det.
have -> : fmx n n (fun i j => g (nth t0 (a ++ x :: y :: b) i) j) =
          row_perm (tperm i1 i2) (fmx n n (fun i j => g (nth t0 (a ++ y :: x :: b) i) j)).
  apply/matrixP => i j; rewrite !mxE; congr (g _ j).
  case: tpermP => [->|->|/eqP Ha /eqP Hb] /=.
  - by rewrite !nth_cat ltnn subnn /= addn1 ltnNge leqnSn /= subSnn.
  - by rewrite !nth_cat ltnn subnn /= addn1 ltnNge leqnSn /= subSnn.
  - rewrite !nth_cat; case: ltnP => // Hs.
    case E: (i - size a)%N => [|[|m]] //=.
      by case/eqP: Ha; apply: val_inj => /=; apply/eqP; rewrite eqn_leq Hs andbT -subn_eq0 E.
    case/eqP: Hb; apply: val_inj => /=; by rewrite -(subnKC Hs) E.
by rewrite row_permE det_mulmx det_perm odd_tperm N12 /= expr1 mulN1r.
Qed.
Lemma DR_move n g a x b c : (size a + size b < n)%N -> DR n g (a ++ x :: b ++ c) = (-1) ^+ size b * DR n g (a ++ b ++ x :: c).
Proof.
elim: b a => [|y b IH] a /= Hn; first by rewrite expr0 mul1r.
rewrite DR_swap; last by apply: leq_ltn_trans Hn; rewrite leq_add2l.
rewrite -cat_rcons IH; last by rewrite size_rcons addSnnS.
by rewrite cat_rcons exprS mulN1r mulNr.
Qed.
Lemma DR_insk n g ps xs l c : size ps = size xs -> seq_ok (size l) ps -> (size l + size ps <= n)%N ->
  DR n g (insk ps xs l ++ c) = (-1) ^+ esum (size l) ps * DR n g (l ++ xs ++ c).
Proof.
elim: ps xs l => [|p ps IH] [|x xs] l //= Es; first by rewrite expr0 mul1r.
case: Es => Es /andP [Hp Hok] Hn.
rewrite IH ?size_ins // ?addSnnS // /ins -catA cat_cons DR_move; last first.
  by rewrite -size_cat cat_take_drop; apply: leq_trans Hn; rewrite addnS ltnS leq_addr.
by rewrite size_drop catA cat_take_drop mulrA -exprD addnC.
Qed.
End OneList.

Lemma esum_parity n ps qs : size ps = size qs -> seq_ok n ps -> seq_ok n qs ->
  odd (esum n ps + esum n qs) = odd (sumn ps + sumn qs).
Proof.
elim: ps qs n => [|p ps IH] [|q qs] n //= [E] /andP [Hp H1] /andP [Hq H2].
have := IH _ _ E H1 H2; rewrite !oddD !oddB // => H.
move: H; do 2!case: (odd (esum _ _)); do 2!case: (odd (sumn _)); by case: (odd n); case: (odd p); case: (odd q).
Qed.
End Lists.
