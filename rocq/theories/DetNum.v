(** Numerical content of the det_manip updates, for arbitrary sizes. *)
From mathcomp Require Import all_ssreflect all_algebra.
From Verif Require Import Base FieldTac DetManip DetSpec DetLemmas DetStruct DetMove.
Set Implicit Arguments.
Unset Strict Implicit.
Unset Printing Implicit Defensive.
Import GRing.Theory.
Local Open Scope ring_scope.

Section Num.
Variables (F : fieldType) (X Y : Type) (x0 : X) (y0 : Y) (f : X -> Y -> F).
Add Field Ff : (Fft F).

Definition fA (xs : seq X) (ys : seq Y) i j : F := f (nth x0 xs i) (nth y0 ys j).
Definition Dn n (u : seq X) (v : seq Y) : F := nda_det n (fA u v).
Lemma DetE u v : Det x0 y0 f (u, v) = Dn (size u) u v.
Proof. by []. Qed.

Lemma fA_half n row xs u col ys v i j : half x0 n row xs u -> half y0 n col ys v -> (i < n)%N -> (j < n)%N ->
  fA u v i j = fA xs ys (nth 0%N row i) (nth 0%N col j).
Proof. by move=> Hx Hy Hi Hj; rewrite /fA (half_nth Hx) // (half_nth Hy). Qed.
Lemma half_det n row xs u col ys v : half x0 n row xs u -> half y0 n col ys v ->
  Dn n u v = perm_det F n row * perm_det F n col * nda_det n (fA xs ys).
Proof.
move=> Hx Hy; have [Pr _ _] := Hx; have [Pc _ _] := Hy.
by rewrite -det_reidx //; apply: eq_nda_det => i j Hi Hj; rewrite (fA_half Hx Hy).
Qed.
Lemma half_inv n row xs u col ys v M : half x0 n row xs u -> half y0 n col ys v ->
  fmx n n (fA xs ys) *m fmx n n M = 1%:M ->
  fmx n n (fA u v) *m fmx n n (fun i j => M (nth 0%N col i) (nth 0%N row j)) = 1%:M.
Proof.
move=> Hx Hy H; have [Pr _ _] := Hx; have [Pc _ _] := Hy.
have <- := reidx Pr Pc H; congr (_ *m _).
by apply: eq_fmx => i j Hi Hj; rewrite (fA_half Hx Hy).
Qed.
(** permuting both lists by insertion positions *)
Lemma Dn_insk n k ps qs ws zs (u : seq X) (v : seq Y) :
  size u = n -> size v = n -> size ps = k -> size qs = k -> size ws = k -> size zs = k -> seq_ok n ps -> seq_ok n qs ->
  Dn (n + k) (insk ps ws u) (insk qs zs v) = (-1) ^+ (sumn ps + sumn qs) * Dn (n + k) (u ++ ws) (v ++ zs).
Proof.
move=> Su Sv Sp Sq Sw Sz Op Oq.
have R : forall (v' : seq Y), Dn (n + k) (insk ps ws u) v' = (-1) ^+ esum n ps * Dn (n + k) (u ++ ws) v'.
  move=> v'; have := @DR_insk F X x0 (n + k) (fun x j => f x (nth y0 v' j)) ps ws u [::].
  by rewrite /DR !cats0 Su Sp Sw; apply.
have C : forall (u' : seq X), Dn (n + k) u' (insk qs zs v) = (-1) ^+ esum n qs * Dn (n + k) u' (v ++ zs).
  move=> u'; have := @DR_insk F Y y0 (n + k) (fun y i => f (nth x0 u' i) y) qs zs v [::].
  rewrite /DR !cats0 Sv Sq Sz => /(_ erefl Oq (leqnn _)).
  by rewrite -(nda_det_tr _ (fun i j => f (nth x0 u' j) (nth y0 _ i))) -(nda_det_tr _ (fun i j => f (nth x0 u' j) (nth y0 (v ++ zs) i))).
rewrite R C mulrA -exprD; congr (_ * _).
by rewrite -signr_odd esum_parity ?signr_odd // Sp.
Qed.

(** ---- insertion ---- *)
Section Insert.
Variables (n k : nat) (row col : seq nat) (xs : seq X) (ys : seq Y) (u : seq X) (v : seq Y) (M : nat -> nat -> F).
Variables (ws : seq X) (zs : seq Y).
Hypotheses (Hx : half x0 n row xs u) (Hy : half y0 n col ys v) (HM : fmx n n (fA xs ys) *m fmx n n M = 1%:M).
Hypotheses (Sw : size ws = k) (Sz : size zs = k).
Definition iB m b := f (nth x0 xs m) (nth y0 zs b).
Definition iC a l := f (nth x0 ws a) (nth y0 ys l).
Definition iMB l b := sumN n (fun m => M l m * iB m b).
Definition iksi a b := f (nth x0 ws a) (nth y0 zs b) - sumN n (fun l => iC a l * iMB l b).

Lemma fA_cat_block (us : seq X) (vs : seq Y) : size us = n -> size vs = n ->
  fmx (n + k) (n + k) (fA (us ++ ws) (vs ++ zs)) =
  block_mx (fmx n n (fA us vs)) (fmx n k (fun i j => f (nth x0 us i) (nth y0 zs j)))
           (fmx k n (fun i j => f (nth x0 ws i) (nth y0 vs j))) (fmx k k (fun i j => f (nth x0 ws i) (nth y0 zs j))).
Proof.
move=> Su Sv; rewrite fmx_block; congr block_mx; apply: eq_fmx => i j Hi Hj; rewrite /fA !nth_cat Su Sv ?Hi ?Hj //.
- by rewrite ltnNge leq_addr /= addKn.
- by rewrite ltnNge leq_addr /= addKn.
- by rewrite !(ltnNge _ n) !leq_addr /= !addKn.
Qed.
Lemma ksi_mx : fmx k k iksi = fmx k k (fun i j => f (nth x0 ws i) (nth y0 zs j)) - fmx k n iC *m fmx n n M *m fmx n k iB.
Proof.
rewrite -mulmxA !fmxM fmxB; exact: eq_fmx.
Qed.
Lemma insert_det : Dn (n + k) (u ++ ws) (v ++ zs) = nda_det k iksi * Dn n u v.
Proof.
have Su := half_size Hx; have Sv := half_size Hy.
rewrite /Dn {1}/nda_det fA_cat_block // (schur_det _ _ _ (half_inv Hx Hy HM)) mulrC; congr (_ * _).
rewrite /nda_det; congr (\det _).
have [Pr _ _] := Hx; have [Pc _ _] := Hy.
rewrite -mulmxA !fmxM fmxB; apply: eq_fmx => a b Ha Hb; rewrite /iksi; congr (_ - _).
rewrite -(@sumN_perm F n col (fun l => iC a l * iMB l b) Pc); apply: eq_sumN => l Hl.
rewrite /iC (half_nth Hy) //; congr (_ * _).
rewrite /iMB -(@sumN_perm F n row (fun m => M (nth 0%N col l) m * iB m b) Pr); apply: eq_sumN => m Hm.
by rewrite /iB (half_nth Hx).
Qed.
Lemma insert_inv (Si : nat -> nat -> F) (M' : nat -> nat -> F) :
  fmx k k iksi *m fmx k k Si = 1%:M ->
  (forall a b, (a < n)%N -> (b < n)%N -> M' a b = M a b + sumN k (fun p => iMB a p * sumN k (fun q => Si p q * sumN n (fun l => iC q l * M l b)))) ->
  (forall a b, (a < n)%N -> (b < k)%N -> M' a (n + b)%N = - sumN k (fun p => iMB a p * Si p b)) ->
  (forall a b, (a < k)%N -> (b < n)%N -> M' (n + a)%N b = - sumN k (fun q => Si a q * sumN n (fun l => iC q l * M l b))) ->
  (forall a b, (a < k)%N -> (b < k)%N -> M' (n + a)%N (n + b)%N = Si a b) ->
  fmx (n + k) (n + k) (fA (xs ++ ws) (ys ++ zs)) *m fmx (n + k) (n + k) M' = 1%:M.
Proof.
move=> HS H1 H2 H3 H4.
have [_ Sx _] := Hx; have [_ Sy _] := Hy.
rewrite fA_cat_block // (fmx_block n k M').
rewrite ksi_mx in HS.
have EB : fmx n n M *m fmx n k iB = fmx n k iMB by rewrite fmxM.
have EC : fmx k n iC *m fmx n n M = fmx k n (fun q b => sumN n (fun l => iC q l * M l b)) by rewrite fmxM.
rewrite -(block_inv HM HS); congr (_ *m _); rewrite EB; congr block_mx.
- by rewrite -!mulmxA EC !fmxM fmxD; apply: eq_fmx => a b Ha Hb; rewrite H1.
- by rewrite fmxM fmxN; apply: eq_fmx => a b Ha Hb; rewrite H2.
- by rewrite -!mulmxA EC !fmxM fmxN; apply: eq_fmx => a b Ha Hb; rewrite H3.
- by apply: eq_fmx => a b Ha Hb; rewrite H4.
Qed.
End Insert.

(** ---- removal ---- *)
Section Remove.
Variables (n k : nat) (row col : seq nat) (xs : seq X) (ys : seq Y) (u : seq X) (v : seq Y) (M : nat -> nat -> F).
Variables (ps qs : seq nat).
Notation N := (n + k)%N.
Hypotheses (Hx : half x0 N row xs u) (Hy : half y0 N col ys v) (HM : fmx N N (fA xs ys) *m fmx N N M = 1%:M).
Hypotheses (Sp : size ps = k) (Sq : size qs = k) (Op : sorted ltn ps) (Oq : sorted ltn qs).
Hypotheses (Lp : all (fun p => p < N)%N ps) (Lq : all (fun p => p < N)%N qs).
Definition rksi a b := M (nth 0%N col (nth 0%N qs a)) (nth 0%N row (nth 0%N ps b)).

Lemma kept_half (T : Type) (t0 : T) (r : seq nat) (zs w : seq T) (is_ : seq nat) :
  half t0 N r zs w -> size is_ = k -> sorted ltn is_ -> all (fun p => p < N)%N is_ ->
  half t0 N ([seq nth 0%N r p | p <- iota 0 N & p \notin is_] ++ [seq nth 0%N r p | p <- is_]) zs
       (delete_many t0 is_ w ++ [seq nth t0 w p | p <- is_]).
Proof.
move=> Hh Si_ Oi Li; have [Pr Sz Ew] := Hh; have Sw := half_size Hh.
have U : uniq is_ by apply: sorted_uniq Oi; [exact: ltn_trans | exact: ltnn].
have K : perm_eq ([seq p <- iota 0 N | p \notin is_] ++ is_) (iota 0 N).
  apply: uniq_perm; rewrite ?iota_uniq // ?cat_uniq ?filter_uniq ?iota_uniq ?U //=.
    by rewrite andbT; apply/hasPn => p Hp; rewrite /= mem_filter Hp.
  move=> p; rewrite mem_cat mem_filter mem_iota /= add0n.
  by case: (boolP (p \in is_)) => Hp /=; rewrite ?orbF ?orbT ?(allP Li _ Hp).
split=> //.
- by rewrite -map_cat; apply: perm_comp.
- rewrite /delete_many Sw -!map_cat -map_comp; apply/eq_in_map => p; rewrite (perm_iota_mem _ K) => Hp /=.
  exact: half_nth Hh Hp.
Qed.
Lemma delete_insk (T : Type) (t0 : T) (w : seq T) (is_ : seq nat) :
  size w = N -> size is_ = k -> sorted ltn is_ -> all (fun p => p < N)%N is_ ->
  insk is_ [seq nth t0 w p | p <- is_] (delete_many t0 is_ w) = w /\ seq_ok n is_ /\ size (delete_many t0 is_ w) = n.
Proof.
move=> Sw Si_ Oi Li.
have U : uniq is_ by apply: sorted_uniq Oi; [exact: ltn_trans | exact: ltnn].
have Ok : seq_ok n is_ by apply: sorted_seq_ok => //; rewrite Si_.
have Sd : size (delete_many t0 is_ w) = n by rewrite size_map Sw size_kept // Si_ addnK.
split=> //; rewrite (insk_many t0) ?Sd ?size_map //.
by apply: insert_delete => //; rewrite Sw.
Qed.
Lemma remove_det :
  Dn n (delete_many x0 ps u) (delete_many y0 qs v) = (-1) ^+ (sumn ps + sumn qs) * nda_det k rksi * Dn N u v.
Proof.
have Su := half_size Hx; have Sv := half_size Hy.
have [Eu [Ou Du]] := @delete_insk _ x0 u ps Su Sp Op Lp.
have [Ev [Ov Dv]] := @delete_insk _ y0 v qs Sv Sq Oq Lq.
have Kx := kept_half Hx Sp Op Lp; have Ky := kept_half Hy Sq Oq Lq.
have HI := half_inv Kx Ky HM.
rewrite -{2}Eu -{2}Ev Dn_insk // ?size_map //.
rewrite mulrAC mulrA -exprD addnn -mul2n exprM sqrrN !expr1n mul1r.
move: HI; rewrite (fmx_block n k (fun i j => M _ _)) (@fA_cat_block n k _ _ _ _ Du Dv) => /block_rem [E _].
rewrite /Dn /nda_det E (@fA_cat_block n k _ _ _ _ Du Dv); congr (_ * _).
congr (\det _); apply: eq_fmx => a b Ha Hb; rewrite /rksi.
have sx : forall (r is_ : seq nat), size is_ = k -> all (fun p => p < N)%N is_ -> sorted ltn is_ -> forall c, (c < k)%N ->
   nth 0%N ([seq nth 0%N r p | p <- iota 0 N & p \notin is_] ++ [seq nth 0%N r p | p <- is_]) (n + c) = nth 0%N r (nth 0%N is_ c).
  move=> r is_ Si_ Li Oi c Hc.
  have U : uniq is_ by apply: sorted_uniq Oi; [exact: ltn_trans | exact: ltnn].
  by rewrite nth_cat size_map size_kept // Si_ addnK ltnNge leq_addr /= addKn (nth_map 0%N) ?Si_.
by rewrite !sx.
Qed.
End Remove.

(** cutting the last k rows and columns *)
Lemma cut_inv n k (xs : seq X) (ys : seq Y) (g M Si : nat -> nat -> F) :
  fmx (n + k) (n + k) g *m fmx (n + k) (n + k) M = 1%:M ->
  fmx k k (fun a b => M (n + a)%N (n + b)%N) *m fmx k k Si = 1%:M ->
  fmx n n g *m fmx n n (fun a b => M a b - sumN k (fun l => M a (n + l)%N * sumN k (fun m => Si l m * M (n + m)%N b))) = 1%:M.
Proof.
rewrite (fmx_block n k g) (fmx_block n k M) => /block_rem [_ H] /H.
by move=> <-; congr (_ *m _); rewrite -mulmxA !fmxM fmxB.
Qed.
Lemma cut_det n k (g M : nat -> nat -> F) :
  fmx (n + k) (n + k) g *m fmx (n + k) (n + k) M = 1%:M ->
  nda_det n g = nda_det (n + k) g * nda_det k (fun a b => M (n + a)%N (n + b)%N).
Proof.
rewrite /nda_det (fmx_block n k g) (fmx_block n k M) => /block_rem [H _]; exact: H.
Qed.
End Num.
