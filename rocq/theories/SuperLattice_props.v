(** C57: superlattices (python/triqs/lattice/super_lattice.py). *)
From mathcomp Require Import all_ssreflect all_algebra.
From Verif Require Import Base SuperLattice SuperLatticeSpec SuperLattice_proofs.
Set Implicit Arguments.
Unset Strict Implicit.
Unset Printing Implicit Defensive.
Import GRing.Theory Num.Theory Order.TTheory.
Local Open Scope ring_scope.

(** the constructor with automatic sites: they are the |det| points of the cell, each once; it succeeds for all independent units
    whose coordinates are not more negative than positive, and refuses dependent ones *)
Theorem C57_sites : forall n' (units : 'M[int]_n'.+1) s, sl_make units None = Ok s ->
  \det units != 0 /\ sl_units s = units /\ size (sl_sites s) = `|\det units|%N /\ uniq (sl_sites s) /\
  forall x : 'cV[int]_n'.+1, in_cell units x <-> exists v, v \in sl_sites s /\ size v = n'.+1 /\ col_of n'.+1 v = x.
Proof.
  move=> n' U s. rewrite /sl_make. case: eqP => // /eqP HN. case: ifP => // _. case: eqP => // Hsz [<-] /=. have G := auto_good Hsz. have [Hu Hs Hc] := G.
  split; first by move: HN; rewrite /sl_N absz_eq0. do 3 (split=> //). move=> x. split.
  - move=> /(cellP HN) Hx. exists (unvec x). by rewrite (good_all HN G Hx) size_unvec -[col_of _ _]/(vec n' (unvec x)) vecK.
  - move=> [v [Hv [_ <-]]]. apply/(cellP HN). by case: (Hc v Hv).
Qed.
Print Assumptions C57_sites.
Theorem C57_builds : forall n' (units : 'M[int]_n'.+1), (n'.+1 <= 3)%N -> \det units != 0 ->
  (forall i, exists j, forall j', - units j' i <= units j i) -> exists s, sl_make units None = Ok s.
Proof.
  move=> n' U Hn Hd Hm. have HN : sl_N U != 0%N by rewrite /sl_N absz_eq0.
  have Hsz : size (auto_sites U) = sl_N U.
    apply: auto_complete => // i j. rewrite [X in - X <= _]mxE. have [j0 H] := Hm i. apply: le_trans (H j) _. have := row_max_ge (sl_M U) i j0. by rewrite [X in X <= _ -> _]mxE.
  exists (mkSl U (auto_sites U)). by rewrite /sl_make (negbTE HN) ltnNge Hn /= Hsz eqxx.
Qed.
Print Assumptions C57_builds.
Theorem C57_dependent : forall n' (units : 'M[int]_n'.+1) c, \det units = 0 -> sl_make units c = Throw.
Proof. by move=> n' U c H; rewrite /sl_make /sl_N H eqxx. Qed.
Print Assumptions C57_dependent.
(** a valid superlattice that is refused: a chain with the unit -2 *)
Theorem C57_negative_unit_refuted : sl_make ((- 2%:Z)%:M : 'M[int]_1) None = Throw.
Proof.
  have D : \det ((- 2%:Z)%:M : 'M[int]_1) = - 2%:Z by rewrite det_scalar expr1.
  rewrite /sl_make /sl_N D /=. have -> : auto_sites ((- 2%:Z)%:M : 'M[int]_1) = [::]; last by [].
  rewrite /auto_sites enum_ordSl /=. rewrite [extent _ _](_ : _ = - 2%:Z); first by [].
  by rewrite /extent /row_max enum_ordSl enum_ord0 /= !mxE eqxx mulr1n maxxx mul1r.
Qed.
Print Assumptions C57_negative_unit_refuted.

(** sites given by the user: the constructor accepts any list of |det| sites *)
Theorem C57_user_sites : forall n' (units : 'M[int]_n'.+1) l, \det units != 0 ->
  sl_make units (Some l) = if size l == `|\det units|%N then Ok (mkSl units l) else Throw.
Proof. by move=> n' U l H; rewrite /sl_make /sl_N absz_eq0 (negbTE H); case: (_ == _). Qed.
Print Assumptions C57_user_sites.

(** distinct sites inside the cell, as many as the determinant: the automatic ones, and the valid user lists *)
Definition proper n' (s : sl n') : Prop := \det (sl_units s) != 0 /\ uniq (sl_sites s) /\ size (sl_sites s) = `|\det (sl_units s)|%N /\
  forall v, v \in sl_sites s -> size v = n'.+1 /\ in_cell (sl_units s) (col_of n'.+1 v).
Lemma proper_good n' (s : sl n') : proper s -> sl_N (sl_units s) != 0%N /\ good (sl_units s) (sl_sites s).
Proof.
  move=> [Hd [Hu [Hs Hc]]]. have HN : sl_N (sl_units s) != 0%N by rewrite /sl_N absz_eq0. split=> //. split=> // v Hv. case: (Hc v Hv) => Hl Hin. split=> //. by apply/cellP.
Qed.
Theorem C57_automatic_proper : forall n' (units : 'M[int]_n'.+1) s, sl_make units None = Ok s -> proper s.
Proof.
  move=> n' U s. rewrite /sl_make. case: eqP => // /eqP HN. case: ifP => // _. case: eqP => // Hsz [<-] /=. have [Hu Hs Hc] := auto_good Hsz.
  split; first by move: HN; rewrite /sl_N absz_eq0. split=> //. split=> // v Hv. case: (Hc v Hv) => Hl Hin. split=> //. exact/cellP.
Qed.
Print Assumptions C57_automatic_proper.

(** coordinates: every lattice point x is M R + site alpha for exactly one (R, alpha), which change_coordinates_L_to_SL returns *)
Theorem C57_coordinates : forall n' (s : sl n') (x : 'cV[int]_n'.+1), proper s ->
  exists R alpha, L_to_SL s x = Ok (R, alpha) /\ (alpha < size (sl_sites s))%N /\ x = (sl_units s)^T *m R + col_of n'.+1 (nth [::] (sl_sites s) alpha) /\
    forall R' alpha', (alpha' < size (sl_sites s))%N -> x = (sl_units s)^T *m R' + col_of n'.+1 (nth [::] (sl_sites s) alpha') -> R' = R /\ alpha' = alpha.
Proof.
  move=> n' [U sites] x /proper_good /= [HN G]. have [E Hi] := L_to_SL_ok HN x G. do 2 eexists. split; [exact: E|]. split=> //. split; first exact: (coords_back HN x G).
  move=> R' a' Ha' Ex. by have [-> ->] := coords_unique HN G Ha' Ex.
Qed.
Print Assumptions C57_coordinates.
(** the other direction is not available: a list is subscripted like an array *)
Theorem C57_SL_to_L_refuted : forall n' (s : sl n') R alpha, SL_to_L s R alpha = Throw.
Proof. by []. Qed.
Print Assumptions C57_SL_to_L_refuted.
(** a list of sites outside of the cell is accepted although representing every point once, and the conversion fails *)
Theorem C57_sites_outside_refuted : exists s : sl 0, sl_make (2%:Z%:M : 'M[int]_1) (Some [:: [:: 0]; [:: 3%:Z]]) = Ok s /\ L_to_SL s (const_mx 3%:Z) = Throw /\
  (const_mx 3%:Z : 'cV[int]_1) = (sl_units s)^T *m 0 + col_of 1 (nth [::] (sl_sites s) 1).
Proof.
  have D : \det (2%:Z%:M : 'M[int]_1) = 2%:Z by rewrite det_scalar expr1.
  exists (mkSl (2%:Z%:M : 'M[int]_1) [:: [:: 0]; [:: 3%:Z]]). split; first by rewrite /sl_make /sl_N D. split; last by rewrite mulmx0 add0r; apply/colP=> i; rewrite !mxE ord1.
  have Mt : sl_Mt (2%:Z%:M : 'M[int]_1) = 1%:M.
    rewrite /sl_Mt /sl_M tr_scalar_mx D /= scale1r. apply/matrixP=> i j. by rewrite !ord1 !mxE /cofactor det_mx00 mulr1 addn0 expr0 eqxx.
  rewrite /L_to_SL /= Mt mul1mx /sl_N D. set x := _ - _. have -> : x = const_mx 1%:Z; last by rewrite /unvec enum_ordSl enum_ord0 /= !mxE.
  by apply/colP=> i; rewrite /x /sl_M tr_scalar_mx mul_scalar_mx !mxE.
Qed.
Print Assumptions C57_sites_outside_refuted.

(** indices of a site and an orbital *)
Theorem C57_pack : forall n' (s : sl n') a o, (a < `|\det (sl_units s)|)%N -> unpack s (pack s a o) = (a, o).
Proof. move=> n' [U sites] a o /= Ha. apply: unpack_pack => //. by rewrite -lt0n; apply: leq_ltn_trans Ha. Qed.
Print Assumptions C57_pack.
Theorem C57_unpack : forall n' (s : sl n') k, \det (sl_units s) != 0 -> let u := unpack s k in pack s u.1 u.2 = k /\ (u.1 < `|\det (sl_units s)|)%N.
Proof. move=> n' [U sites] k /= Hd. apply: pack_unpack. by rewrite /sl_N absz_eq0. Qed.
Print Assumptions C57_unpack.

(** fold: the element between orbital o1 of site a in the cell at the origin and orbital o2 of site b in the cell R is the sum of the elements of
    the hoppings that lead from the one site to the other, zero (or no matrix at all) when there is none *)
Theorem C57_fold : forall n' (s : sl n') (V : zmodType) norb (D1 : seq ('cV[int]_n'.+1 * (nat -> nat -> V))), proper s -> D1 <> [::] ->
  exists F, fold s norb D1 false = Ok F /\
  (forall R m a b o1 o2, F R = Some m -> (a < size (sl_sites s))%N -> (b < size (sl_sites s))%N -> (o1 < norb)%N -> (o2 < norb)%N ->
     m (pack s a o1) (pack s b o2) =
     hops_between D1 (col_of n'.+1 (nth [::] (sl_sites s) a)) ((sl_units s)^T *m R + col_of n'.+1 (nth [::] (sl_sites s) b)) o1 o2) /\
  (forall R, F R = None <-> forall a d b, (a < size (sl_sites s))%N -> List.In d D1 -> (b < size (sl_sites s))%N ->
     col_of n'.+1 (nth [::] (sl_sites s) a) + d.1 <> (sl_units s)^T *m R + col_of n'.+1 (nth [::] (sl_sites s) b)).
Proof.
  move=> n' [U sites] V norb D1 /proper_good /= [HN G] HD. have [F [E [HV HF]]] := fold_ok HN G norb HD. exists F. split=> //. rewrite (size_sites G). split; last exact: HF.
  move=> R m a b o1 o2 Em Ha Hb H1 H2. move: (HV R a b o1 o2 Ha Hb H1 H2). by rewrite /value Em.
Qed.
Print Assumptions C57_fold.
(** a dictionary has each displacement once: every element of every hopping matrix is kept, once *)
Theorem C57_each_hopping_once : forall n' (s : sl n') (V : zmodType) norb (D1 : seq ('cV[int]_n'.+1 * (nat -> nat -> V))) d t a,
  proper s -> uniq [seq x.1 | x <- D1] -> List.In (d, t) D1 -> (a < size (sl_sites s))%N ->
  exists F R m b, fold s norb D1 false = Ok F /\ F R = Some m /\ (b < size (sl_sites s))%N /\
    col_of n'.+1 (nth [::] (sl_sites s) a) + d = (sl_units s)^T *m R + col_of n'.+1 (nth [::] (sl_sites s) b) /\
    forall o1 o2, (o1 < norb)%N -> (o2 < norb)%N -> m (pack s a o1) (pack s b o2) = t o1 o2.
Proof.
  move=> n' s V norb D1 d t a Hp Hu Hin Ha. have HD : D1 <> [::] by move=> E; rewrite E in Hin.
  have [F [E [HV HF]]] := C57_fold norb Hp HD. have [R [b [_ [Hb [Ex _]]]]] := C57_coordinates (col_of n'.+1 (nth [::] (sl_sites s) a) + d) Hp.
  case Em : (F R) => [m|]; last by case: (proj1 (HF R) Em a (d, t) b Ha Hin Hb).
  exists F, R, m, b. do 4 (split=> //). move=> o1 o2 H1 H2. rewrite (HV R m a b o1 o2 Em Ha Hb H1 H2) -Ex /hops_between {HV HF E Em HD Ex}.
  elim: D1 Hu Hin => //= x D1 IH /andP[Hx Hu]. rewrite big_cons. case=> [x_eq|Hin] /=; first rewrite {1 2}x_eq /=.
  - rewrite eqxx. have -> : \sum_(j <- D1 | col_of n'.+1 (nth [::] (sl_sites s) a) + j.1 == col_of n'.+1 (nth [::] (sl_sites s) a) + d) j.2 o1 o2 = 0; last by rewrite addr0.
    move: Hx. rewrite x_eq /= {IH Hu}. elim: D1 => [|y D1 IH]; first by rewrite big_nil. rewrite big_cons /= in_cons negb_or => /andP[Hy /IH ->].
    by rewrite (inj_eq (addrI _)) eq_sym (negbTE Hy).
  - rewrite (inj_eq (addrI _)). case: eqP => [Ed|_]; last exact: IH. case/negP: Hx. rewrite Ed. elim: D1 Hin {IH Hu} => //= y D1 IH [->|/IH H]; rewrite in_cons ?eqxx // H orbT //.
Qed.
Print Assumptions C57_each_hopping_once.
(** remove_internal never works: an attribute is missing *)
Theorem C57_remove_internal_refuted : forall n' (s : sl n') (V : zmodType) norb (D1 : seq ('cV[int]_n'.+1 * (nat -> nat -> V))), sl_sites s <> [::] ->
  fold s norb D1 true = Throw.
Proof.
  move=> n' s V norb [|x D1] // Hs. rewrite /fold. case: (sl_sites s) Hs => //= CS l _. rewrite /fold_one. rewrite /L_to_SL. by case: ifP.
Qed.
Print Assumptions C57_remove_internal_refuted.

(** a square lattice with the cell ((1,1),(-1,1)) *)
Definition sqrt2 : 'M[int]_2 := \matrix_(i, j) (if (i == 0) || (j == 1) then 1 else -1).
Lemma det_sqrt2 : \det sqrt2 = 2%:Z.
Proof. by rewrite (expand_det_row _ 0) !big_ord_recl big_ord0 /cofactor !det_mx11 !mxE. Qed.
Example C57_ex : exists s, sl_make sqrt2 None = Ok s /\ proper s.
Proof.
  have [|||s E] := @C57_builds 1 sqrt2; rewrite ?det_sqrt2 //.
  - by move=> i; exists 0 => j'; rewrite !mxE eqxx /=; case: ifP.
  - exists s. split=> //. exact: C57_automatic_proper E.
Qed.
