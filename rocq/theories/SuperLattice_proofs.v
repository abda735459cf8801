From mathcomp Require Import all_ssreflect all_algebra.
From Verif Require Import Base SuperLattice SuperLatticeSpec.
Set Implicit Arguments.
Unset Strict Implicit.
Unset Printing Implicit Defensive.
Import GRing.Theory Num.Theory Order.TTheory.
Local Open Scope ring_scope.

Section Sl.
  Variable n' : nat.
  Notation n := n'.+1.
  Variable U : 'M[int]_n.
  Hypothesis HN : sl_N U != 0%N.
  Notation N := (sl_N U).
  Notation M := (sl_M U).
  Notation Mt := (sl_Mt U).

  Lemma N_gt0 : 0 < N%:Z.
  Proof. by rewrite ltz_nat lt0n. Qed.
  Lemma scaleI (x y : 'cV[int]_n) : N%:Z *: x = N%:Z *: y -> x = y.
  Proof. by move=> E; apply/colP=> i; move/colP/(_ i): E; rewrite !mxE => /(mulfI (lt0r_neq0 N_gt0)). Qed.
  Lemma detM : \det M = \det U.
  Proof. by rewrite det_tr. Qed.
  Lemma Nsg : sgz (\det M) * \det M = N%:Z.
  Proof. by rewrite detM /sl_N abszEsg. Qed.
  Lemma MMt : M *m Mt = N%:Z%:M.
  Proof. by rewrite -scalemxAr mul_mx_adj scale_scalar_mx Nsg. Qed.
  Lemma MtM : Mt *m M = N%:Z%:M.
  Proof. by rewrite -scalemxAl mul_adj_mx scale_scalar_mx Nsg. Qed.

  Definition cell (x : 'cV[int]_n) : bool := [forall i, (0 <= (Mt *m x) i 0) && ((Mt *m x) i 0 < N%:Z)].

  Lemma cellP x : reflect (in_cell U x) (cell x).
  Proof.
    apply: (iffP forallP) => [H | [k [E H]] i].
    - exists (Mt *m x); split; first by rewrite mulmxA MMt mul_scalar_mx.
      by move=> j; move: (H j).
    - have: N%:Z *: (Mt *m x) = N%:Z *: k by rewrite scalemxAr E mulmxA MtM mul_scalar_mx.
      move/scaleI => ->. exact: H.
  Qed.

  (** the superlattice vector and the remainder *)
  Definition flr (x : 'cV[int]_n) : 'cV[int]_n := \col_i divz ((Mt *m x) i 0) N%:Z.
  Definition rem (x : 'cV[int]_n) : 'cV[int]_n := x - M *m flr x.
  Lemma Mt_rem x i : (Mt *m rem x) i 0 = modz ((Mt *m x) i 0) N%:Z.
  Proof. by rewrite mulmxBr mulmxA MtM mul_scalar_mx /modz mulrC mxE; congr (_ + _); rewrite !mxE. Qed.
  Lemma rem_cell x : cell (rem x).
  Proof. by apply/forallP=> i; rewrite Mt_rem modz_ge0 ?lt0r_neq0 ?N_gt0 // ltz_pmod ?N_gt0. Qed.
  Lemma Mt_inj (x y : 'cV[int]_n) : Mt *m x = Mt *m y -> x = y.
  Proof. by move=> /(congr1 (fun z => M *m z)); rewrite !mulmxA MMt !mul_scalar_mx => /scaleI. Qed.
  Lemma cell_flr x : cell x -> flr x = 0.
  Proof. by move/forallP=> H; apply/colP=> i; rewrite [LHS]mxE [RHS]mxE divz_small //; exact: H. Qed.
  Lemma flr_shift R x : flr (M *m R + x) = R + flr x.
  Proof. by apply/colP=> i; rewrite [LHS]mxE mulmxDr mulmxA MtM mul_scalar_mx [X in divz X]mxE [X in divz (X + _)]mxE mulrC divzMDl ?lt0r_neq0 ?N_gt0 // [RHS]mxE; congr (_ + _); rewrite [RHS]mxE. Qed.
  Lemma rem_shift R x : rem (M *m R + x) = rem x.
  Proof. by rewrite /rem flr_shift mulmxDr opprD addrACA subrr add0r. Qed.
  Lemma cell_rem x : cell x -> rem x = x.
  Proof. by move=> H; rewrite /rem cell_flr // mulmx0 subr0. Qed.
  Lemma rem_flr x : M *m flr x + rem x = x.
  Proof. by rewrite addrC subrK. Qed.

  (** the cell has N points *)
  Section Count.
    Variables L R : 'M[int]_n.
    Variable d : seq int.
    Hypotheses (HL : L \in unitmx) (HR : R \in unitmx).
    Hypothesis HM : M = L *m (\matrix_(i, j) (d`_i *+ (i == j :> nat))) *m R.
    Let dd (i : 'I_n) : int := nth 0 d i.
    Let D : 'M[int]_n := \matrix_(i, j) (d`_i *+ (i == j :> nat)).
    Lemma D_diag : D = diag_mx (\row_i dd i).
    Proof. apply/matrixP=> i j; rewrite !mxE. by have -> : (i == j :> nat) = (i == j) by []. Qed.
    Lemma N_prod : N = (\prod_(i < n) `|dd i|)%N.
    Proof.
      rewrite /sl_N -detM HM -/D !det_mulmx D_diag det_diag !abszM.
      have unit1 (A : 'M[int]_n) : A \in unitmx -> `|\det A|%N = 1%N by rewrite unitmxE; change (\det A \is a GRing.unit) with (\det A \is a intUnitRing.unitz); rewrite qualifE => /orP[] /eqP ->.
      rewrite !unit1 // mul1n muln1 (big_morph _ abszM absz1). by apply: eq_bigr => i _; rewrite mxE.
    Qed.
    Lemma d_gt0 (i : 'I_n) : (0 < `|dd i|)%N.
    Proof. by rewrite lt0n; apply/negP=> /eqP E; move: HN; rewrite N_prod (bigD1 i) //= E mul0n. Qed.
    Lemma d_le (i : 'I_n) : (`|dd i| <= N)%N.
    Proof. by rewrite dvdn_leq ?lt0n // N_prod (bigD1 i) //= dvdn_mulr. Qed.
    Lemma d_neq0 (i : 'I_n) : dd i != 0.
    Proof. by rewrite -absz_gt0 d_gt0. Qed.
    Definition cls (x : 'cV[int]_n) : {ffun 'I_n -> 'I_N.+1} := [ffun i => inord (absz (modz ((invmx L *m x) i 0) (dd i)))].
    Definition fam : pred {ffun 'I_n -> 'I_N.+1} := fun f => [forall i, (f i < `|dd i|)%N].
    Lemma cls_val x i : (cls x i : nat) = absz (modz ((invmx L *m x) i 0) (dd i)).
    Proof.
      rewrite ffunE inordK // ltnS. apply: leq_trans (d_le i). rewrite -lez_nat gez0_abs ?modz_ge0 ?d_neq0 //.
      by apply: ltW; rewrite ltz_mod ?d_neq0.
    Qed.
    Lemma cls_fam x : fam (cls x).
    Proof. by apply/forallP=> i; rewrite cls_val -ltz_nat gez0_abs ?modz_ge0 ?d_neq0 // ltz_mod ?d_neq0. Qed.
    Lemma card_fam : #|fam| = N.
    Proof.
      have -> : #|fam| = #|family (fun i : 'I_n => [pred k : 'I_N.+1 | (k < `|dd i|)%N])|.
        by apply: eq_card => f; apply/idP/familyP => [/forallP H i|H]; [exact: H|apply/forallP=> i; exact: H].
      rewrite card_family [RHS]N_prod foldrE big_map big_enum /=. apply: eq_bigr => i _.
      transitivity (\sum_(k < N.+1 | (k < `|dd i|)%N) 1)%N; first by rewrite -sum1_card.
      rewrite -(big_ord_widen _ (fun _ => 1%N)); last exact: leqW (d_le i).
      by rewrite sum1_card card_ord.
    Qed.
    Lemma same_class x y : cls x = cls y -> exists w, x - y = M *m w.
    Proof.
      move=> E. exists (invmx R *m \col_i divz ((invmx L *m (x - y)) i 0) (dd i)).
      rewrite HM -/D -!mulmxA (mulKVmx HR) -[LHS](mulKVmx HL). congr (_ *m _).
      rewrite D_diag mul_diag_mx. apply/colP=> i. rewrite [RHS]mxE [X in X * _]mxE [X in _ * X]mxE mulrC divzK //.
      move: (congr1 (fun f : {ffun 'I_n -> 'I_N.+1} => (f i : nat)%:Z) E). rewrite !cls_val !gez0_abs ?modz_ge0 ?d_neq0 // => /eqP.
      rewrite eqz_mod_dvd mulmxBr. by rewrite [X in _ -> (_ %| X)%Z]mxE [X in _ -> (_ %| _ + X)%Z]mxE.
    Qed.
    Lemma class_shift x w : cls (x + M *m w) = cls x.
    Proof.
      apply/ffunP=> i; apply: val_inj; rewrite /= !cls_val mulmxDr HM -/D -!mulmxA (mulKmx HL) D_diag mul_diag_mx.
      by rewrite [X in modz X]mxE [X in modz (_ + X)]mxE [X in modz (_ + X * _)]mxE mulrC addrC modzMDl.
    Qed.
    Definition rep (f : {ffun 'I_n -> 'I_N.+1}) : 'cV[int]_n := rem (L *m \col_i (f i : nat)%:Z).
    Lemma cls_rep f : fam f -> cls (rep f) = f.
    Proof.
      move=> /forallP H. rewrite /rep /rem -mulmxN class_shift. apply/ffunP=> i; apply: val_inj; rewrite /= cls_val (mulKmx HL) mxE.
      by rewrite -modz_abs modz_small // lez_nat leq0n /= ltz_nat; exact: H.
    Qed.
    Lemma cls_inj x y : cell x -> cell y -> cls x = cls y -> x = y.
    Proof.
      move=> Hx Hy /same_class [w E]. have Ex : x = M *m w + y by rewrite -E subrK.
      by rewrite -(cell_rem Hx) -(cell_rem Hy) Ex rem_shift.
    Qed.
  End Count.

  Lemma cell_count : (exists s : seq 'cV[int]_n, [/\ uniq s, size s = N & all cell s]) /\
    (forall s : seq 'cV[int]_n, uniq s -> all cell s -> (size s <= N)%N).
  Proof.
    have [L HL [R HR [d _ HM]]] := int_Smith_normal_form M. split.
    - exists [seq rep L f | f <- enum (fam d)]. split.
      + rewrite map_inj_in_uniq ?enum_uniq // => f g. rewrite !mem_enum => Hf Hg E.
        by rewrite -(cls_rep HL HR HM Hf) -(cls_rep HL HR HM Hg) E.
      + by rewrite size_map -cardE (card_fam HL HR HM).
      + by apply/allP=> x /mapP[f _ ->]; apply: rem_cell.
    - move=> s Us /allP Hs. rewrite -(card_fam HL HR HM) -(size_map (cls L d)).
      rewrite cardE. apply: uniq_leq_size.
      + rewrite map_inj_in_uniq // => x y Hx Hy. exact: (cls_inj HL HR HM (Hs x Hx) (Hs y Hy)).
      + move=> _ /mapP[x _ ->]. rewrite mem_enum. exact: (cls_fam HL HR HM).
  Qed.

  (** lists and vectors *)
  Lemma vecK (v : 'cV[int]_n) : vec n' (unvec v) = v.
  Proof. by apply/colP=> i; rewrite mxE (nth_map i) ?size_enum_ord // nth_ord_enum. Qed.
  Lemma unvecK (s : seq int) : size s = n -> unvec (vec n' s) = s.
  Proof.
    move=> Hs. apply: (@eq_from_nth _ 0); rewrite size_map size_enum_ord // => i Hi.
    by rewrite (nth_map (Ordinal Hi)) ?size_enum_ord // mxE nth_enum_ord.
  Qed.
  Lemma unvec_inj : injective (@unvec n').
  Proof. exact: can_inj vecK. Qed.
  Lemma size_unvec (v : 'cV[int]_n) : size (unvec v) = n.
  Proof. by rewrite size_map size_enum_ord. Qed.

  Lemma nested_mem rs v : (v \in nested rs) = (size v == size rs) && all (fun p => p.1 \in p.2) (zip v rs).
  Proof.
    elim: rs v => [|r rs IH] v; first by case: v.
    apply/flatten_mapP/idP => [[x Hx /mapP[w Hw ->]]|].
    - by move: Hw; rewrite IH /= eqSS Hx => /andP[-> ->].
    - case: v => [//|x w] /= /andP[Hs /andP[Hx Hw]]. exists x => //. apply/mapP. exists w => //. by rewrite IH -eqSS Hs.
  Qed.
  Lemma nested_uniq rs : all uniq rs -> uniq (nested rs).
  Proof.
    elim: rs => //= r rs IH /andP[Hr /IH Hn]. elim: r Hr => //= x r IHr /andP[Hx /IHr Hu].
    rewrite cat_uniq Hu map_inj_uniq ?Hn ?andbT => [|a b [] //]. apply/hasPn=> v /flatten_mapP[y Hy /mapP[w Hw ->]].
    apply/mapP=> -[z Hz [E _]]. by rewrite -E Hy in Hx.
  Qed.
  Lemma py_range_uniq a : uniq (py_range a).
  Proof. case: a => [k|//]. rewrite map_inj_uniq ?iota_uniq // => i j /addIr []. exact. Qed.
  Lemma py_range_mem (a x : int) : (x \in py_range a) = (- a <= x <= a).
  Proof.
    case: a => [k|k].
    - apply/mapP/andP => [[i]|[H1 H2]].
      + rewrite mem_iota add0n ltnS => /andP[_ Hi] ->. rewrite ler_subr_addl subrr ler_subl_addr. split; [by []|by rewrite -PoszD lez_nat].
      + have H : 0 <= x + k%:Z by rewrite -ler_subl_addr sub0r. exists (absz (x + k%:Z)); last by rewrite gez0_abs // addrK.
        by rewrite mem_iota leq0n add0n ltnS -lez_nat gez0_abs // PoszD ler_add2r.
    - rewrite /= in_nil. apply/esym/negP=> /andP[H1 H2]. by move: (le_trans H1 H2); rewrite NegzE opprK.
  Qed.

  (** sites that make the coordinates work *)
  Definition good (sites : seq (seq int)) : Prop := [/\ uniq sites, size sites = N & forall v, v \in sites -> size v = n /\ cell (vec n' v)].
  Lemma good_all sites x : good sites -> cell x -> unvec x \in sites.
  Proof.
    case=> Hu Hs Hc Hx. apply/negPn/negP => Hn.
    have: (size (x :: map (vec n') sites) <= N)%N; last by rewrite /= size_map Hs ltnn. apply: (proj2 cell_count) => /=.
    - rewrite map_inj_in_uniq; last by move=> v w /Hc [Hv _] /Hc [Hw _] E; rewrite -(unvecK Hv) -(unvecK Hw) E.
      rewrite Hu andbT. apply/mapP=> -[v Hv E]. move: Hn. by rewrite E unvecK ?Hv //; case: (Hc v Hv).
    - rewrite Hx /=. apply/allP=> _ /mapP[v Hv ->]. by case: (Hc v Hv).
  Qed.
  Lemma auto_cell v : v \in auto_sites U -> size v = n /\ cell (vec n' v).
  Proof. by rewrite mem_filter nested_mem size_map size_enum_ord => /andP[H /andP[/eqP -> _]]. Qed.
  Lemma auto_uniq : uniq (auto_sites U).
  Proof. apply: filter_uniq. apply: nested_uniq. apply/allP=> _ /mapP[i _ ->]. exact: py_range_uniq. Qed.
  Lemma auto_good : size (auto_sites U) = N -> good (auto_sites U).
  Proof. by move=> H; split=> //; [exact: auto_uniq|exact: auto_cell]. Qed.

  Lemma foldl_max_ge (l : seq int) z : z <= foldl Num.max z l.
  Proof. elim: l z => //= u l IH z. apply: le_trans (IH _). by rewrite le_maxr lexx. Qed.
  Lemma row_max_ge (A : 'M[int]_n) i j : A i j <= row_max A i.
  Proof.
    rewrite /row_max. have: A i j \in [seq A i j0 | j0 <- enum 'I_n] by apply: map_f; rewrite mem_enum.
    elim: [seq _ | _ <- _] (A i 0) => //= x l IH y. rewrite in_cons => /orP[/eqP ->|]; last exact: IH.
    apply: le_trans (foldl_max_ge _ _). by rewrite le_maxr lexx orbT.
  Qed.
  Lemma cell_extent x i : (forall j, - M i j <= row_max M i) -> cell x -> - extent M i <= x i 0 <= extent M i.
  Proof.
    move=> Hm /forallP Hc. have E : N%:Z * x i 0 = \sum_j M i j * (Mt *m x) j 0.
      by move: (congr1 (fun y : 'cV[int]_n => y i 0) (mul_scalar_mx N%:Z x)); rewrite -MMt -mulmxA mxE [RHS]mxE => <-.
    have B j : - (row_max M i * N%:Z) <= M i j * (Mt *m x) j 0 <= row_max M i * N%:Z.
      case/andP: (Hc j) => c0 c1. have r0 : 0 <= row_max M i.
        have := ler_add (row_max_ge M i j) (Hm j). by rewrite subrr -mulr2n pmulrn_lge0.
      have le1 : row_max M i * (Mt *m x) j 0 <= row_max M i * N%:Z by apply: ler_wpmul2l => //; apply: ltW.
      apply/andP; split; last by apply: le_trans le1; apply: ler_wpmul2r => //; apply: row_max_ge.
      rewrite ler_oppl -mulNr. by apply: le_trans le1; apply: ler_wpmul2r.
    have S1 : N%:Z * x i 0 <= N%:Z * extent M i.
      rewrite E /extent. apply: (@le_trans _ _ (\sum_(j < n) row_max M i * N%:Z)); first by apply: ler_sum => j _; case/andP: (B j).
      by rewrite sumr_const card_ord -mulr_natl mulrA [RHS in _ <= RHS]mulrC natz.
    have S2 : N%:Z * - extent M i <= N%:Z * x i 0.
      rewrite E /extent. apply: (@le_trans _ _ (\sum_(j < n) - (row_max M i * N%:Z))); last by apply: ler_sum => j _; case/andP: (B j).
      by rewrite sumr_const card_ord -mulr_natl mulrN mulrA mulrN mulrC natz.
    by move: S1 S2; rewrite !ler_pmul2l ?N_gt0 // => -> ->.
  Qed.
  Lemma auto_complete : (forall i j, - M i j <= row_max M i) -> size (auto_sites U) = N.
  Proof.
    move=> Hm. have [[s [Us Hs Hc]] Hle] := cell_count.
    apply/eqP. rewrite eqn_leq. apply/andP; split.
    - rewrite -(size_map (vec n')). apply: Hle; last by apply/allP=> _ /mapP[v Hv ->]; case: (auto_cell Hv).
      rewrite map_inj_in_uniq ?auto_uniq // => v w /auto_cell [Hv _] /auto_cell [Hw _] Ev. by rewrite -(unvecK Hv) -(unvecK Hw) Ev.
    - rewrite -Hs -(size_map (@unvec n')). apply: uniq_leq_size; first by rewrite (map_inj_uniq unvec_inj).
      move=> _ /mapP[x Hx ->]. have Cx : cell x by move/allP: Hc; apply. rewrite mem_filter /kept vecK. apply/andP; split=> //.
      rewrite nested_mem !size_map eqxx /=. apply/allP=> -[a r] Har. rewrite /unvec /= zip_map in Har. case/mapP: Har => i _ [-> ->] /=.
      rewrite py_range_mem. exact: cell_extent.
  Qed.

  (** coordinates *)
  Lemma L_to_SL_ok sites x : good sites -> L_to_SL (mkSl U sites) x = Ok (flr x, index (unvec (rem x)) sites) /\ (index (unvec (rem x)) sites < size sites)%N.
  Proof.
    move=> G. have H : (index (unvec (rem x)) sites < size sites)%N by rewrite index_mem; apply: good_all => //; apply: rem_cell.
    by split=> //; rewrite /L_to_SL /= -/(flr x) -/(rem x) H.
  Qed.
  Lemma coords_unique sites x R a : good sites -> (a < size sites)%N -> x = M *m R + vec n' (nth [::] sites a) ->
    flr x = R /\ index (unvec (rem x)) sites = a.
  Proof.
    move=> G Ha ->. have [Hu _ Hc] := G. have [Hsz Hcell] := Hc _ (mem_nth [::] Ha).
    by rewrite flr_shift rem_shift (cell_flr Hcell) addr0 (cell_rem Hcell) (unvecK Hsz) index_uniq.
  Qed.
  Lemma coords_back sites x : good sites -> x = M *m flr x + vec n' (nth [::] sites (index (unvec (rem x)) sites)).
  Proof. move=> G. rewrite nth_index ?vecK ?rem_flr //. apply: good_all => //. exact: rem_cell. Qed.

  (** indices *)
  Variable sites : seq (seq int).
  Hypothesis G : good sites.
  Notation s := (mkSl U sites).
  Notation site a := (vec n' (nth [::] sites a)).
  Lemma size_sites : size sites = N.
  Proof. by case: G. Qed.
  Lemma pack_inj a b o1 o2 : (a < N)%N -> (b < N)%N -> pack s a o1 = pack s b o2 -> a = b /\ o1 = o2.
  Proof.
    rewrite /pack /= => Ha Hb E. have := congr1 (fun k => k %% N)%N E. rewrite ![(_ + _ * _)%N]addnC !modnMDl !modn_small // => Eab. split=> //.
    move: E. rewrite Eab => /addnI /eqP. by rewrite eqn_pmul2r ?lt0n // => /eqP.
  Qed.
  Lemma unpack_pack a o : (a < N)%N -> unpack s (pack s a o) = (a, o).
  Proof. by move=> Ha; rewrite /unpack /pack /= [(a + _)%N]addnC divnMDl ?lt0n // divn_small // addn0 addKn. Qed.
  Lemma pack_unpack k : let u := unpack s k in pack s u.1 u.2 = k /\ (u.1 < N)%N.
  Proof.
    rewrite /unpack /pack /=. have E := divn_eq k N. split; first by rewrite subnK // {2}E leq_addr.
    by rewrite {1}E addKn ltn_pmod ?lt0n.
  Qed.

  Section Fold.
    Variable V : zmodType.
    Variable norb : nat.
    Definition value (acc : folded n' V) R p q : V := if acc R is Some m then m p q else 0.
    Lemma add_orbs_at a b a' b' o1 o2 (t m : hmat V) : (a < N)%N -> (b < N)%N -> (a' < N)%N -> (b' < N)%N -> (o1 < norb)%N -> (o2 < norb)%N ->
      add_orbs s norb a b t m (pack s a' o1) (pack s b' o2) = m (pack s a' o1) (pack s b' o2) + (if (a' == a) && (b' == b) then t o1 o2 else 0).
    Proof.
      move=> Ha Hb Ha' Hb' H1 H2. rewrite /add_orbs.
      have Peq x y u v : (x < N)%N -> (y < N)%N -> (pack s x u == pack s y v) = (x == y) && (u == v).
        move=> Hx Hy. apply/eqP/andP => [/(pack_inj Hx Hy) [-> ->]|[/eqP -> /eqP ->]]; by [].
      have In l u (w : hmat V) : uniq l -> foldl (fun m o => add_el m (pack s a u) (pack s b o) (t u o)) w l (pack s a' o1) (pack s b' o2) =
          w (pack s a' o1) (pack s b' o2) + (if [&& a' == a, b' == b, o1 == u & o2 \in l] then t o1 o2 else 0).
        elim: l w => [|o l IH] w /=; first by rewrite !andbF addr0.
        move=> /andP[Ho /IH ->]. rewrite /add_el !Peq // in_cons. case: (a' == a) => //=.
        case: (b' == b) => /=; last by rewrite andbF !addr0. case: eqP => [->|_] /=; last by rewrite addr0.
        by case: eqP => [->|_] /=; rewrite ?(negbTE Ho) ?addr0.
      have Out l (w : hmat V) : uniq l -> foldl (fun m u => foldl (fun m o => add_el m (pack s a u) (pack s b o) (t u o)) m (iota 0 norb)) w l (pack s a' o1) (pack s b' o2) =
          w (pack s a' o1) (pack s b' o2) + (if [&& a' == a, b' == b & o1 \in l] then t o1 o2 else 0).
        elim: l w => [|u l IH] w /=; first by rewrite !andbF addr0.
        move=> /andP[Hu /IH ->]. rewrite In ?iota_uniq // mem_iota add0n leq0n H2 /= andbT in_cons. case: (a' == a) => /=; last by rewrite !addr0.
        case: (b' == b) => /=; last by rewrite !addr0. by case: eqP => [->|_] /=; rewrite ?(negbTE Hu) ?addr0.
      by rewrite Out ?iota_uniq // mem_iota leq0n add0n H1 !andbA !andbT.
    Qed.

    Lemma lands x R b : (b < N)%N -> (x == M *m R + site b) = (flr x == R) && (index (unvec (rem x)) sites == b).
    Proof.
      move=> Hb. apply/eqP/andP => [E|[/eqP <- /eqP <-]]; last exact: coords_back.
      have Hs : (b < size sites)%N by rewrite size_sites. by have [-> ->] := coords_unique G Hs E.
    Qed.
    Lemma fold_one_ok k CS x acc : (k < N)%N -> exists acc', fold_one s norb false k CS x acc = Ok acc' /\
      (forall R a b o1 o2, (a < N)%N -> (b < N)%N -> (o1 < norb)%N -> (o2 < norb)%N ->
        value acc' R (pack s a o1) (pack s b o2) = value acc R (pack s a o1) (pack s b o2) + (if (a == k) && (vec n' CS + x.1 == M *m R + site b) then x.2 o1 o2 else 0)) /\
      (forall R, acc' R = None <-> acc R = None /\ forall b, (b < N)%N -> vec n' CS + x.1 <> M *m R + site b).
    Proof.
      move=> Hk. have [E1 Hi] := L_to_SL_ok (vec n' CS + x.1) G. rewrite /fold_one E1 /=. eexists. split; [by []|]. split.
      - move=> R a b o1 o2 Ha Hb H1 H2. rewrite lands // /value eq_sym. case: eqP => [<-|_]; last by rewrite andbF addr0.
        rewrite andTb add_orbs_at // -?size_sites //. rewrite [b == _]eq_sym. by case: (acc _).
      - move=> R. case: eqP => [->|NE].
        + split=> // -[_ /(_ _ _)] H. case: (H (index (unvec (rem (vec n' CS + x.1))) sites)); first by rewrite -size_sites. exact: coords_back.
        + split=> [->|[] //]. split=> // b Hb /eqP. rewrite lands // => /andP[/eqP E _]. by case: NE.
    Qed.
    Lemma fold_hops_ok k CS D1 acc : (k < N)%N -> exists acc', fold_hops s norb false k CS D1 acc = Ok acc' /\
      (forall R a b o1 o2, (a < N)%N -> (b < N)%N -> (o1 < norb)%N -> (o2 < norb)%N ->
        value acc' R (pack s a o1) (pack s b o2) = value acc R (pack s a o1) (pack s b o2) + (if a == k then hops_between D1 (vec n' CS) (M *m R + site b) o1 o2 else 0)) /\
      (forall R, acc' R = None <-> acc R = None /\ forall x b, List.In x D1 -> (b < N)%N -> vec n' CS + x.1 <> M *m R + site b).
    Proof.
      move=> Hk. elim: D1 acc => [|x D1 IH] acc.
      - exists acc. split=> //. split; last by move=> R; split=> [->|[] //].
        by move=> R a b o1 o2 _ _ _ _; rewrite /hops_between big_nil; case: (a == k); rewrite addr0.
      - have [acc1 [E1 [V1 N1]]] := fold_one_ok CS x acc Hk. have [acc2 [E2 [V2 N2]]] := IH acc1.
        exists acc2. split; first by rewrite /= E1. split.
        + move=> R a b o1 o2 Ha Hb H1 H2. rewrite V2 // V1 // -addrA. congr (_ + _). rewrite /hops_between big_cons.
          case: (a == k) => /=; last by rewrite addr0. by case: (_ == _); rewrite ?add0r.
        + move=> R. rewrite N2 N1. split=> [[[A B] C]|[A B]].
          * split=> // y b [<-|Hy] Hb; [exact: B|exact: C].
          * split; [split=> // b Hb; apply: B => //; by left|by move=> y b Hy Hb; apply: B => //; right].
    Qed.
    Lemma fold_sites_ok k l D1 acc : (k + size l <= N)%N -> exists acc', fold_sites s norb false k l D1 acc = Ok acc' /\
      (forall R a b o1 o2, (a < N)%N -> (b < N)%N -> (o1 < norb)%N -> (o2 < norb)%N ->
        value acc' R (pack s a o1) (pack s b o2) = value acc R (pack s a o1) (pack s b o2) +
          (if (k <= a < k + size l)%N then hops_between D1 (vec n' (nth [::] l (a - k))) (M *m R + site b) o1 o2 else 0)) /\
      (forall R, acc' R = None <-> acc R = None /\ forall CS x b, CS \in l -> List.In x D1 -> (b < N)%N -> vec n' CS + x.1 <> M *m R + site b).
    Proof.
      elim: l k acc => [|CS l IH] k acc Hk.
      - exists acc. split=> //. split; last by move=> R; split=> [->|[] //].
        by move=> R a b o1 o2 _ _ _ _; rewrite /= addn0 ltnNge andbN addr0.
      - have Hk' : (k < N)%N by apply: leq_trans Hk; rewrite /= addnS ltnS leq_addr.
        have [acc1 [E1 [V1 N1]]] := fold_hops_ok CS D1 acc Hk'. have [|acc2 [E2 [V2 N2]]] := IH k.+1 acc1; first by rewrite addSnnS.
        exists acc2. split; first by rewrite /= E1. split.
        + move=> R a b o1 o2 Ha Hb H1 H2. rewrite V2 // V1 // -addrA. congr (_ + _). rewrite /= addnS addSn.
          case: (ltngtP a k) => [Hlt|Hgt|->].
          * by rewrite add0r.
          * by rewrite add0r subnS; case: (a - k)%N (subn_gt0 k a) => [|j]; rewrite ?Hgt.
          * by rewrite addr0 subnn /= ltnS leq_addr.
        + move=> R. rewrite N2 N1. split=> [[[A B] C]|[A B]].
          * split=> // CS' y b. rewrite in_cons => /orP[/eqP ->|HC] Hy Hb; [exact: B|exact: C HC Hy Hb].
          * split; [split=> // y b Hy Hb; apply: B => //; exact: mem_head|by move=> CS' y b HC Hy Hb; apply: B => //; rewrite in_cons HC orbT].
    Qed.
    Lemma fold_ok D1 : D1 <> [::] -> exists acc, fold s norb D1 false = Ok acc /\
      (forall R a b o1 o2, (a < N)%N -> (b < N)%N -> (o1 < norb)%N -> (o2 < norb)%N ->
        value acc R (pack s a o1) (pack s b o2) = hops_between D1 (site a) (M *m R + site b) o1 o2) /\
      (forall R, acc R = None <-> forall a x b, (a < N)%N -> List.In x D1 -> (b < N)%N -> site a + x.1 <> M *m R + site b).
    Proof.
      move=> HD. have [|acc [E [Va Na]]] := @fold_sites_ok 0 sites D1 (fun _ => None); first by rewrite size_sites.
      exists acc. split; first by rewrite /fold; case: D1 HD E {Va Na}. split.
      - move=> R a b o1 o2 Ha Hb H1 H2. by rewrite Va // /value add0r leq0n size_sites Ha subn0.
      - move=> R. rewrite Na. split=> [[_ H] a x b Ha Hx Hb|H].
        + apply: H => //. apply: mem_nth. by rewrite size_sites.
        + split=> // CS x b HC Hx Hb. have E0 := nth_index [::] HC. rewrite -E0. apply: H => //. by rewrite -size_sites index_mem.
    Qed.
  End Fold.
End Sl.
