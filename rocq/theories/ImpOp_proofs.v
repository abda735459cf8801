(** Proofs about the mask representation of monomials (ImpOp.v). *)
From Coq Require Import ZArith NArith List Bool Lia Sorted Permutation Btauto.
From Verif Require Import Base Indices Scalar Fock FockFacts OpModel OpExpr Hilbert State ImpOp.
Import ListNotations.

(** ---- exclusive-or sums ---- *)
Fixpoint xsum (n : nat) (g : nat -> bool) : bool :=
  match n with O => false | S n' => xorb (xsum n' g) (g n') end.
Lemma xsum_ext n g h : (forall i, i < n -> g i = h i) -> xsum n g = xsum n h.
Proof. induction n as [|n IH]; intros H; simpl; [reflexivity|]. rewrite IH, H by (auto with arith). reflexivity. Qed.
Lemma xsum_xor n g h : xsum n (fun i => xorb (g i) (h i)) = xorb (xsum n g) (xsum n h).
Proof. induction n as [|n IH]; simpl; [reflexivity|]. rewrite IH. destruct (xsum n g), (xsum n h), (g n), (h n); reflexivity. Qed.
Lemma xsum_false n g : (forall i, i < n -> g i = false) -> xsum n g = false.
Proof. induction n as [|n IH]; intros H; simpl; [reflexivity|]. rewrite IH, H by auto with arith. reflexivity. Qed.
Lemma xsum_cut p n g : p <= n -> xsum n (fun i => (i <? p) && g i) = xsum p g.
Proof.
  induction n as [|n IH]; intros H; simpl.
  - assert (p = 0) by lia. subst. reflexivity.
  - destruct (Nat.eq_dec p (S n)) as [->|Hn].
    + assert (E : (n <? S n) = true) by (apply Nat.ltb_lt; lia). rewrite E. simpl. f_equal.
      apply xsum_ext. intros i Hi. assert (E2 : (i <? S n) = true) by (apply Nat.ltb_lt; lia). rewrite E2. reflexivity.
    + rewrite IH by lia. assert (E : (n <? p) = false) by (apply Nat.ltb_ge; lia). rewrite E. apply xorb_false_r.
Qed.
Lemma par_below_xsum f p : par_below f p = xsum p (fun i => N.testbit f (N.of_nat i)).
Proof. induction p as [|p IH]; simpl; [reflexivity|]. rewrite IH. reflexivity. Qed.

Global Opaque xsum.

(** ---- parity_number_of_bits folds exactly the low 16 bits ---- *)
Lemma parity_bits_16 v : parity_bits v = par_below v 16.
Proof.
  unfold parity_bits.
  assert (H1 : forall w, negb (N.land w 1 =? 0)%N = N.testbit w 0).
  { intros w. change 1%N with (N.ones 1). rewrite N.land_ones. change (2 ^ 1)%N with 2%N.
    rewrite <- N.bit0_mod. destruct (N.testbit w 0); reflexivity. }
  rewrite H1. repeat (rewrite ?N.lxor_spec, ?N.shiftr_spec by lia).
  cbn [N.add Pos.add Pos.succ Pos.add_carry]. cbn [par_below N.of_nat Pos.of_succ_nat Pos.succ].
  repeat match goal with |- context [N.testbit v ?k] => let b := fresh "b" in set (b := N.testbit v k); clearbody b end.
  btauto.
Qed.

(** ---- masks ---- *)
Lemma shiftl1_nat p k : N.testbit (N.shiftl 1 (N.of_nat p)) (N.of_nat k) = (p =? k).
Proof.
  rewrite N.shiftl_1_l. destruct (Nat.eqb_spec p k) as [->|Hn].
  - apply N.pow2_bits_true.
  - apply N.pow2_bits_false. lia.
Qed.
Lemma mask_of_gen l k0 k : N.testbit (fold_left (fun k p => N.lor k (N.shiftl 1 (N.of_nat p))) l k0) (N.of_nat k)
  = N.testbit k0 (N.of_nat k) || existsb (Nat.eqb k) l.
Proof.
  revert k0. induction l as [|p l IH]; intros k0; cbn [fold_left existsb]; [rewrite orb_false_r; reflexivity|].
  rewrite IH, N.lor_spec, shiftl1_nat, (Nat.eqb_sym p k), orb_assoc. reflexivity.
Qed.
Lemma mask_of_spec l k : N.testbit (mask_of l) (N.of_nat k) = existsb (Nat.eqb k) l.
Proof. unfold mask_of. rewrite mask_of_gen, N.bits_0. reflexivity. Qed.

Definition above (d : list nat) (i : nat) : nat := length (filter (fun p => i <? p) d).

Lemma existsb_In l k : existsb (Nat.eqb k) l = true <-> In k l.
Proof.
  rewrite existsb_exists. split.
  - intros (x & Hx & E). apply Nat.eqb_eq in E. subst. exact Hx.
  - intros H. exists k. split; [exact H|apply Nat.eqb_refl].
Qed.
Lemma existsb_nIn l k : existsb (Nat.eqb k) l = false <-> ~ In k l.
Proof. rewrite <- existsb_In. destruct (existsb (Nat.eqb k) l); split; congruence. Qed.

(** elements of d that are >= i *)
Definition from (d : list nat) (i : nat) : nat := length (filter (fun p => i <=? p) d).
Lemma from_S d i : NoDup d -> from d i = above d i + (if existsb (Nat.eqb i) d then 1 else 0).
Proof.
  unfold from, above. induction 1 as [|p d Hp Hd IH]; simpl; [reflexivity|].
  destruct (Nat.eqb_spec i p) as [->|Hn]; simpl.
  - rewrite Nat.leb_refl, Nat.ltb_irrefl. simpl. rewrite IH. apply existsb_nIn in Hp. rewrite Hp. lia.
  - destruct (Nat.leb_spec i p), (Nat.ltb_spec i p); simpl; try lia.
Qed.
Lemma above_from d i : above d i = from d (S i).
Proof. reflexivity. Qed.

Lemma cmask_loop_spec d : NoDup d -> forall todo i mask k,
  N.testbit (cmask_loop d i todo (Nat.odd (from d i)) mask) (N.of_nat k) =
  N.testbit mask (N.of_nat k) || ((i <=? k) && (k <? i + todo) && negb (existsb (Nat.eqb k) d) && Nat.odd (above d k)).
Proof.
  intros Hd. induction todo as [|todo IH]; intros i mask k; cbn [cmask_loop].
  - destruct (Nat.leb_spec i k), (Nat.ltb_spec k (i + 0)); simpl; rewrite ?orb_false_r; auto; lia.
  - destruct (existsb (Nat.eqb i) d) eqn:E.
    + assert (Ho : negb (Nat.odd (from d i)) = Nat.odd (from d (S i))).
      { rewrite from_S, E, Nat.add_1_r, Nat.odd_succ, <- Nat.negb_odd, negb_involutive by assumption. reflexivity. }
      rewrite Ho, IH. f_equal.
      destruct (Nat.eq_dec k i) as [->|Hn].
      * rewrite E. simpl. rewrite !andb_false_r. reflexivity.
      * destruct (Nat.leb_spec i k), (Nat.leb_spec (S i) k), (Nat.ltb_spec k (i + S todo)), (Nat.ltb_spec k (S i + todo)); simpl; try reflexivity; try lia.
    + assert (Ho : Nat.odd (from d i) = Nat.odd (from d (S i))).
      { rewrite from_S, E, Nat.add_0_r by assumption. reflexivity. }
      rewrite Ho, IH. rewrite <- above_from.
      destruct (Nat.eq_dec k i) as [->|Hn].
      * rewrite E. rewrite Nat.leb_refl.
        assert (E1 : (S i <=? i) = false) by (apply Nat.leb_gt; lia).
        assert (E2 : (i <? i + S todo) = true) by (apply Nat.ltb_lt; lia).
        rewrite E1, E2. cbn [andb negb]. rewrite orb_false_r.
        destruct (Nat.odd (above d i)) eqn:O; [|rewrite orb_false_r; reflexivity].
        rewrite N.lor_spec, shiftl1_nat, Nat.eqb_refl. reflexivity.
      * f_equal.
        -- destruct (Nat.odd (above d i)); [|reflexivity]. rewrite N.lor_spec, shiftl1_nat.
           assert (E1 : (i =? k) = false) by (apply Nat.eqb_neq; auto). rewrite E1, orb_false_r. reflexivity.
        -- destruct (Nat.leb_spec i k), (Nat.leb_spec (S i) k), (Nat.ltb_spec k (i + S todo)), (Nat.ltb_spec k (S i + todo)); simpl; try reflexivity; try lia.
Qed.
Lemma filter_true {A} (l : list A) : filter (fun _ => true) l = l.
Proof. induction l; simpl; congruence. Qed.
Lemma count_mask_spec d k : NoDup d -> k < 64 ->
  N.testbit (count_mask d) (N.of_nat k) = negb (existsb (Nat.eqb k) d) && Nat.odd (above d k).
Proof.
  intros Hd Hk. unfold count_mask.
  assert (E : Nat.odd (length d) = Nat.odd (from d 0)).
  { unfold from. rewrite (filter_ext _ (fun _ => true)), filter_true; [reflexivity|]. intros a. apply Nat.leb_le. lia. }
  rewrite E, (cmask_loop_spec d Hd), N.bits_0. simpl Nat.leb.
  assert (E2 : (k <? 0 + 64) = true) by (apply Nat.ltb_lt; lia). rewrite E2. reflexivity.
Qed.
Lemma count_mask_high d k : NoDup d -> 64 <= k -> N.testbit (count_mask d) (N.of_nat k) = false.
Proof.
  intros Hd Hk. unfold count_mask.
  assert (E : Nat.odd (length d) = Nat.odd (from d 0)).
  { unfold from. rewrite (filter_ext _ (fun _ => true)), filter_true; [reflexivity|]. intros a. apply Nat.leb_le. lia. }
  rewrite E, (cmask_loop_spec d Hd), N.bits_0. simpl Nat.leb.
  assert (E2 : (k <? 0 + 64) = false) by (apply Nat.ltb_ge; lia). rewrite E2. reflexivity.
Qed.

Lemma not64_spec x k : k < 64 -> N.testbit (not64 x) (N.of_nat k) = negb (N.testbit x (N.of_nat k)).
Proof. intros H. unfold not64. rewrite N.lxor_spec, N.ones_spec_low by lia. apply xorb_true_r. Qed.
Lemma not64_high x k : 64 <= k -> N.testbit (not64 x) (N.of_nat k) = N.testbit x (N.of_nat k).
Proof. intros H. unfold not64. rewrite N.lxor_spec, N.ones_spec_high by lia. apply xorb_false_r. Qed.
Lemma high_bits f n k : (f < 2 ^ N.of_nat n)%N -> n <= k -> N.testbit f (N.of_nat k) = false.
Proof.
  intros H Hk. destruct (N.eq_dec f 0) as [->|Hz]; [apply N.bits_0|].
  apply N.bits_above_log2. apply N.log2_lt_pow2; [lia|].
  eapply N.lt_le_trans; [exact H|]. apply N.pow_le_mono_r; lia.
Qed.
Lemma bits_low f n : (forall k, n <= k -> N.testbit f (N.of_nat k) = false) -> (f < 2 ^ N.of_nat n)%N.
Proof.
  intros H. destruct (N.eq_dec f 0) as [->|Hz]; [apply N.neq_0_lt_0; apply N.pow_nonzero; lia|].
  apply N.log2_lt_pow2; [lia|]. destruct (N.lt_ge_cases (N.log2 f) (N.of_nat n)) as [Hl|Hl]; [exact Hl|exfalso].
  assert (E := N.bit_log2 f Hz). rewrite <- (N2Nat.id (N.log2 f)) in E. rewrite H in E by lia. discriminate.
Qed.

(** ---- action of a sorted monomial ---- *)
Section Sorted.
  Variable pos : indices -> nat.
  Notation p_of o := (pos (ind o)).

  (** annihilation operators, positions decreasing from left to right *)
  Definition ann_sorted (m : list cop) : Prop :=
    Forall (fun o => dag o = false) m /\ StronglySorted (fun a b => p_of b < p_of a) m.
  Definition cre_sorted (m : list cop) : Prop :=
    Forall (fun o => dag o = true) m /\ StronglySorted (fun a b => p_of a < p_of b) m.

  Definition sgn_of (f : N) (d : list nat) : bool :=
    xsum 64 (fun i => N.testbit f (N.of_nat i) && negb (existsb (Nat.eqb i) d) && Nat.odd (above d i)).

  Lemma above_zero d i : (forall p, In p d -> p <= i) -> above d i = 0.
  Proof.
    intros H. unfold above. rewrite (filter_ext_in _ (fun _ => false)).
    - induction d; simpl; auto. apply IHd. intros. apply H. now right.
    - intros a Ha. apply Nat.ltb_ge. auto.
  Qed.

  Lemma above_cons p d i : Nat.odd (above (p :: d) i) = xorb (i <? p) (Nat.odd (above d i)).
  Proof.
    unfold above. simpl. destruct (i <? p); [|symmetry; apply xorb_false_l]. simpl length.
    rewrite Nat.odd_succ, <- Nat.negb_odd. symmetry. apply xorb_true_l.
  Qed.

  Lemma act_ann m f : ann_sorted m -> Forall (fun o => p_of o < 64) m ->
    let d := map (fun o => p_of o) m in
    act pos m f =
      if forallb (fun p => N.testbit f (N.of_nat p)) d
      then Some (sgn_of f d, fold_right (fun p g => N.clearbit g (N.of_nat p)) f d) else None.
  Proof.
    intros [Hd Hs] Hb. induction m as [|o m IH]; cbn [map].
    - simpl. f_equal. f_equal. symmetry. apply xsum_false. intros i _. unfold above. simpl. apply andb_false_r.
    - inversion_clear Hd as [|? ? Hdo Hd']. inversion_clear Hb as [|? ? Hbo Hb'].
      apply StronglySorted_inv in Hs. destruct Hs as [Hs Hlt].
      cbn [act]. rewrite IH by assumption. clear IH. set (d := map (fun o => p_of o) m).
      cbn [forallb fold_right].
      assert (Hd : forall p, In p d -> p < p_of o).
      { intros p Hp. apply in_map_iff in Hp. destruct Hp as (o' & <- & Ho'). rewrite Forall_forall in Hlt. auto. }
      set (p := p_of o) in *.
      assert (Hclr : forall k, N.testbit (fold_right (fun p g => N.clearbit g (N.of_nat p)) f d) (N.of_nat k)
                     = negb (existsb (Nat.eqb k) d) && N.testbit f (N.of_nat k)).
      { intros k. clear. induction d as [|q d IH]; simpl; [reflexivity|]. rewrite clearbit_nat, IH, (Nat.eqb_sym q k).
        destruct (k =? q); simpl; reflexivity. }
      assert (Hpd : existsb (Nat.eqb p) d = false).
      { apply existsb_nIn. intros H. apply Hd in H. lia. }
      destruct (forallb (fun p0 => N.testbit f (N.of_nat p0)) d) eqn:Ef; [|rewrite andb_false_r; reflexivity].
      unfold act_cop. fold p. rewrite Hdo. rewrite Hclr, Hpd. simpl negb. rewrite andb_true_l.
      destruct (N.testbit f (N.of_nat p)) eqn:Ep; [|reflexivity]. simpl. f_equal. f_equal.
      rewrite par_below_xsum.
      rewrite (xsum_ext p _ (fun i => negb (existsb (Nat.eqb i) d) && N.testbit f (N.of_nat i))) by (intros; apply Hclr).
      rewrite <- (xsum_cut p 64) by lia. unfold sgn_of. rewrite <- xsum_xor. apply xsum_ext. intros i Hi.
      rewrite above_cons. simpl existsb.
      destruct (Nat.eqb_spec i p) as [->|Hn].
      + simpl. rewrite Nat.ltb_irrefl. rewrite above_zero by (intros q Hq; apply Hd in Hq; lia). simpl.
        rewrite !andb_false_r. reflexivity.
      + simpl. destruct (Nat.ltb_spec i p) as [Hl|Hl]; simpl.
        * destruct (N.testbit f (N.of_nat i)), (existsb (Nat.eqb i) d), (Nat.odd (above d i)); reflexivity.
        * destruct (N.testbit f (N.of_nat i)), (existsb (Nat.eqb i) d), (Nat.odd (above d i)); reflexivity.
  Qed.

  Lemma act_cre m f : cre_sorted m -> Forall (fun o => p_of o < 64) m ->
    let d := map (fun o => p_of o) m in
    act pos m f =
      if forallb (fun p => negb (N.testbit f (N.of_nat p))) d
      then Some (sgn_of f d, fold_right (fun p g => N.setbit g (N.of_nat p)) f d) else None.
  Proof.
    intros [Hd Hs] Hb. induction m as [|o m IH]; cbn [map].
    - simpl. f_equal. f_equal. symmetry. apply xsum_false. intros i _. unfold above. simpl. apply andb_false_r.
    - inversion_clear Hd as [|? ? Hdo Hd']. inversion_clear Hb as [|? ? Hbo Hb'].
      apply StronglySorted_inv in Hs. destruct Hs as [Hs Hlt].
      cbn [act]. rewrite IH by assumption. clear IH. set (d := map (fun o => p_of o) m).
      cbn [forallb fold_right].
      assert (Hd : forall p, In p d -> p_of o < p).
      { intros p Hp. apply in_map_iff in Hp. destruct Hp as (o' & <- & Ho'). rewrite Forall_forall in Hlt. auto. }
      set (p := p_of o) in *.
      assert (Hset : forall k, N.testbit (fold_right (fun p g => N.setbit g (N.of_nat p)) f d) (N.of_nat k)
                     = existsb (Nat.eqb k) d || N.testbit f (N.of_nat k)).
      { intros k. clear. induction d as [|q d IH]; simpl; [reflexivity|]. rewrite setbit_nat, IH, (Nat.eqb_sym q k).
        destruct (k =? q); simpl; reflexivity. }
      assert (Hpd : existsb (Nat.eqb p) d = false).
      { apply existsb_nIn. intros H. apply Hd in H. lia. }
      destruct (forallb (fun p0 => negb (N.testbit f (N.of_nat p0))) d) eqn:Ef; [|rewrite andb_false_r; reflexivity].
      unfold act_cop. fold p. rewrite Hdo. rewrite Hset, Hpd. rewrite orb_false_l.
      destruct (N.testbit f (N.of_nat p)) eqn:Ep; [reflexivity|]. simpl. f_equal. f_equal.
      rewrite par_below_xsum.
      rewrite (xsum_ext p _ (fun i => N.testbit f (N.of_nat i))).
      2:{ intros i Hi. rewrite Hset. assert (E : existsb (Nat.eqb i) d = false) by (apply existsb_nIn; intros H; apply Hd in H; lia).
          rewrite E. reflexivity. }
      rewrite <- (xsum_cut p 64) by lia. unfold sgn_of. rewrite <- xsum_xor. apply xsum_ext. intros i Hi.
      rewrite above_cons. simpl existsb.
      destruct (Nat.eqb_spec i p) as [->|Hn].
      + simpl. rewrite Nat.ltb_irrefl, Ep. reflexivity.
      + simpl. destruct (Nat.ltb_spec i p) as [Hl|Hl]; simpl.
        * assert (E : existsb (Nat.eqb i) d = false) by (apply existsb_nIn; intros H; apply Hd in H; lia). rewrite E.
          destruct (N.testbit f (N.of_nat i)), (Nat.odd (above d i)); reflexivity.
        * destruct (N.testbit f (N.of_nat i)), (existsb (Nat.eqb i) d), (Nat.odd (above d i)); reflexivity.
  Qed.
End Sorted.

(** ---- the bubble sort of lines 108-121 ---- *)
Section Sort.
  Variable pos : indices -> nat.
  Notation p_of o := (pos (ind o)).
  Notation gt := (greater pos).
  Definition leq (a b : cop) : Prop := gt a b = false.
  (** no swap exchanges two operators of the same mode *)
  Definition swappable (a b : cop) : Prop := gt a b = true -> p_of a <> p_of b.
  Definition swap_ok (m : list cop) : Prop := ForallOrdPairs swappable m.
  Definition modes_once (m : list cop) : Prop := NoDup (map (fun o => (dag o, p_of o)) m).

  Lemma gt_asym a b : gt a b = true -> gt b a = false.
  Proof. unfold greater. destruct (dag a), (dag b); simpl; try congruence; intros H; apply Nat.ltb_lt in H; apply Nat.ltb_ge; lia. Qed.
  Lemma leq_trans a b c : leq a b -> leq b c -> leq a c.
  Proof.
    unfold leq, greater. destruct (dag a), (dag b), (dag c); simpl; try congruence; intros H1 H2;
      apply Nat.ltb_ge in H1; apply Nat.ltb_ge in H2; apply Nat.ltb_ge; lia.
  Qed.

  Lemma bpass_perm k x rest l w s : bpass pos k x rest = (l, w, s) -> Permutation (x :: rest) l.
  Proof.
    revert x rest l w s. induction k as [|k IH]; intros x rest l w s; cbn [bpass].
    - intros H; injection H as <- <- <-. reflexivity.
    - destruct rest as [|y rest]; [intros H; injection H as <- <- <-; reflexivity|].
      destruct (gt x y).
      + destruct (bpass pos k x rest) as [[l' w'] s'] eqn:E. intros H; injection H as <- <- <-.
        rewrite perm_swap. constructor. eauto.
      + destruct (bpass pos k y rest) as [[l' w'] s'] eqn:E. intros H; injection H as <- <- <-.
        constructor. eauto.
  Qed.

  Definition sg_res (s : bool) (r : option (bool * N)) : option (bool * N) :=
    match r with Some (s0, f) => Some (xorb s0 s, f) | None => None end.
  Lemma neg_sg r : neg_res r = sg_res true r.
  Proof. destruct r as [[[] f]|]; reflexivity. Qed.
  Lemma sg_sg a b r : sg_res a (sg_res b r) = sg_res (xorb b a) r.
  Proof. destruct r as [[[] f]|]; destruct a, b; reflexivity. Qed.
  Lemma sg_false r : sg_res false r = r.
  Proof. destruct r as [[[] f]|]; reflexivity. Qed.

  Lemma act_cons_sg o m s f r : act pos m f = sg_res s r -> act pos (o :: m) f = sg_res s
     (match r with None => None | Some (s0, f1) => match act_cop pos o f1 with None => None | Some (s', f2) => Some (xorb s0 s', f2) end end).
  Proof.
    intros E. cbn [act]. rewrite E. destruct r as [[s0 f1]|]; simpl; [|reflexivity].
    destruct (act_cop pos o f1) as [[s' f2]|]; simpl; [|reflexivity]. destruct s0, s, s'; reflexivity.
  Qed.

  Lemma swap_ok_perm_cons y l l' : Forall (swappable y) l -> Permutation l l' -> Forall (swappable y) l'.
  Proof. intros H P. rewrite Forall_forall in *. intros z Hz. apply H. eapply Permutation_in; [symmetry; exact P|exact Hz]. Qed.

  Lemma bpass_act k x rest l w s : bpass pos k x rest = (l, w, s) -> swap_ok (x :: rest) ->
    swap_ok l /\ forall f, act pos l f = sg_res s (act pos (x :: rest) f).
  Proof.
    revert x rest l w s. induction k as [|k IH]; intros x rest l w s; cbn [bpass].
    - intros H; injection H as <- <- <-. intros Hs. split; [exact Hs|]. intros f. rewrite sg_false. reflexivity.
    - destruct rest as [|y rest].
      { intros H; injection H as <- <- <-. intros Hs. split; [exact Hs|]. intros f. rewrite sg_false. reflexivity. }
      destruct (gt x y) eqn:G.
      + destruct (bpass pos k x rest) as [[l' w'] s'] eqn:E. intros H; injection H as <- <- <-. intros Hs.
        inversion Hs as [|? ? Hx Hs1]; subst. inversion Hs1 as [|? ? Hy Hs2]; subst.
        inversion Hx as [|? ? Hxy Hxr]; subst.
        destruct (IH _ _ _ _ _ E) as [IH1 IH2]; [constructor; assumption|].
        split.
        * constructor; [|exact IH1]. eapply swap_ok_perm_cons; [|eapply bpass_perm; exact E].
          constructor; [|exact Hy]. intros G2. rewrite (gt_asym _ _ G) in G2. discriminate.
        * intros f. rewrite (act_cons_sg y l' s' f _ (IH2 f)).
          change (match act pos (x :: rest) f with None => None | Some (s0, f1) => match act_cop pos y f1 with None => None | Some (s', f2) => Some (xorb s0 s', f2) end end)
            with (act pos (y :: x :: rest) f).
          change (y :: x :: rest) with ([y; x] ++ rest). change (x :: y :: rest) with ([x; y] ++ rest).
          rewrite !act_app. destruct (act pos rest f) as [[s0 f0]|]; [|reflexivity].
          rewrite (act_anticommute pos x y) by (apply Hxy; exact G).
          destruct (act pos [y; x] f0) as [[s1 f1]|]; simpl; [|reflexivity].
          destruct s0, s1, s'; reflexivity.
      + destruct (bpass pos k y rest) as [[l' w'] s'] eqn:E. intros H; injection H as <- <- <-. intros Hs.
        inversion Hs as [|? ? Hx Hs1]; subst.
        destruct (IH _ _ _ _ _ E Hs1) as [IH1 IH2]. split.
        * constructor; [|exact IH1]. eapply swap_ok_perm_cons; [exact Hx|eapply bpass_perm; exact E].
        * intros f. rewrite (act_cons_sg x l' s' f _ (IH2 f)). reflexivity.
  Qed.

  Lemma bpass_sort k x front tail l w s : length front = k -> bpass pos k x (front ++ tail) = (l, w, s) ->
    exists l1 z, l = l1 ++ z :: tail /\ Permutation (x :: front) (l1 ++ [z]) /\ Forall (fun a => leq a z) l1.
  Proof.
    revert x front l w s. induction k as [|k IH]; intros x front l w s Hk; cbn [bpass].
    - destruct front; [|discriminate]. intros H; injection H as <- <- <-. exists [], x. repeat split; auto.
    - destruct front as [|y front]; [discriminate|]. injection Hk as Hk. cbn [app].
      destruct (gt x y) eqn:G.
      + destruct (bpass pos k x (front ++ tail)) as [[l' w'] s'] eqn:E. intros H; injection H as <- <- <-.
        destruct (IH x front l' w' s' Hk E) as (l1 & z & -> & HP & HF).
        exists (y :: l1), z. split; [reflexivity|]. split.
        * rewrite perm_swap. simpl. constructor. exact HP.
        * constructor; [|exact HF].
          assert (Hin : In x (l1 ++ [z])) by (eapply Permutation_in; [exact HP|now left]).
          apply in_app_or in Hin. destruct Hin as [Hin|[->|[]]].
          -- rewrite Forall_forall in HF. eapply leq_trans; [apply gt_asym; exact G|auto].
          -- apply gt_asym; exact G.
      + destruct (bpass pos k y (front ++ tail)) as [[l' w'] s'] eqn:E. intros H; injection H as <- <- <-.
        destruct (IH y front l' w' s' Hk E) as (l1 & z & -> & HP & HF).
        exists (x :: l1), z. split; [reflexivity|]. split.
        * simpl. constructor. exact HP.
        * constructor; [|exact HF].
          assert (Hin : In y (l1 ++ [z])) by (eapply Permutation_in; [exact HP|now left]).
          apply in_app_or in Hin. destruct Hin as [Hin|[->|[]]].
          -- rewrite Forall_forall in HF. eapply leq_trans; [exact G|auto].
          -- exact G.
  Qed.

  Lemma bpass_noswap k x front tail l s : length front = k -> bpass pos k x (front ++ tail) = (l, false, s) ->
    l = x :: front ++ tail /\ s = false /\ StronglySorted leq (x :: front).
  Proof.
    revert x front l s. induction k as [|k IH]; intros x front l s Hk; cbn [bpass].
    - destruct front; [|discriminate]. intros H; injection H as <- <-. repeat split; auto. constructor; constructor.
    - destruct front as [|y front]; [discriminate|]. injection Hk as Hk. cbn [app].
      destruct (gt x y) eqn:G.
      + destruct (bpass pos k x (front ++ tail)) as [[l' w'] s'] eqn:E. intros H. discriminate.
      + destruct (bpass pos k y (front ++ tail)) as [[l' w'] s'] eqn:E. intros H; injection H as <- -> <-.
        destruct (IH y front l' s' Hk E) as (-> & -> & HS). repeat split.
        constructor; [exact HS|]. constructor; [exact G|].
        apply StronglySorted_inv in HS. destruct HS as [_ HF]. rewrite Forall_forall in *.
        intros z Hz. eapply leq_trans; [exact G|auto].
  Qed.

  Lemma SS_app (l1 l2 : list cop) : StronglySorted leq l1 -> StronglySorted leq l2 ->
    (forall a b, In a l1 -> In b l2 -> leq a b) -> StronglySorted leq (l1 ++ l2).
  Proof.
    induction 1 as [|a l1 HS IH HF]; intros H2 H; simpl; [exact H2|].
    constructor.
    - apply IH; [exact H2|]. intros; apply H; [now right|assumption].
    - apply Forall_app. split; [exact HF|]. apply Forall_forall. intros b Hb. apply H; [now left|exact Hb].
  Qed.

  Lemma bsort_spec fuel front tail s : length front <= fuel -> fuel <> 0 -> (front = [] -> tail = []) ->
    StronglySorted leq tail -> (forall a b, In a front -> In b tail -> leq a b) ->
    swap_ok (front ++ tail) ->
    exists m' s', bsort pos fuel (length front) (front ++ tail) s = Some (m', xorb s s') /\
      Permutation (front ++ tail) m' /\ StronglySorted leq m' /\ swap_ok m' /\
      forall f, act pos m' f = sg_res s' (act pos (front ++ tail) f).
  Proof.
    revert front tail s. induction fuel as [|fuel IH]; intros front tail s Hf H0 Hft Ht Hle Hok; [congruence|].
    cbn [bsort]. destruct front as [|x front].
    - rewrite (Hft eq_refl) in *. simpl. exists [], false. rewrite xorb_false_r. repeat split; auto.
    - cbn [app length]. replace (S (length front) - 1) with (length front) by lia.
      destruct (bpass pos (length front) x (front ++ tail)) as [[l w] s'] eqn:E.
      destruct (bpass_act _ _ _ _ _ _ E Hok) as [Hok' Hact].
      destruct w.
      + destruct (bpass_sort _ _ _ _ _ _ _ eq_refl E) as (l1 & z & -> & HP & HF).
        assert (Hl1 : length l1 = length front).
        { apply Permutation_length in HP. rewrite app_length in HP. simpl in HP. lia. }
        rewrite <- Hl1.
        assert (Hne : l1 <> []).
        { intros ->. destruct front; [|discriminate]. cbn in E. discriminate. }
        assert (Hin : forall a, In a (l1 ++ [z]) -> In a (x :: front)).
        { intros a Ha. eapply Permutation_in; [symmetry; exact HP|exact Ha]. }
        destruct (IH l1 (z :: tail) (xorb s s')) as (m' & s2 & -> & HP2 & HS2 & Hok2 & Hact2).
        * simpl in Hf. lia.
        * destruct l1; [congruence|]. simpl in Hl1, Hf. lia.
        * congruence.
        * constructor; [exact Ht|]. apply Forall_forall. intros b Hb. apply Hle; [|exact Hb].
          apply Hin. apply in_or_app. right. now left.
        * intros a b Ha [<-|Hb]; [rewrite Forall_forall in HF; auto|].
          apply Hle; [|exact Hb]. apply Hin. apply in_or_app. now left.
        * exact Hok'.
        * exists m', (xorb s' s2). split; [rewrite xorb_assoc_reverse; reflexivity|]. split; [|split; [exact HS2|split; [exact Hok2|]]].
          -- eapply perm_trans; [|exact HP2]. eapply bpass_perm; exact E.
          -- intros f. rewrite Hact2, Hact, sg_sg. reflexivity.
      + destruct (bpass_noswap _ _ _ _ _ _ eq_refl E) as (-> & -> & HS).
        exists (x :: front ++ tail), false. split; [reflexivity|]. split; [reflexivity|]. split.
        * apply (SS_app (x :: front) tail); assumption.
        * split; [exact Hok|]. intros f. rewrite sg_false. reflexivity.
  Qed.

  Lemma fsort_spec m : swap_ok m -> exists m' s, fsort pos m = Some (m', s) /\ Permutation m m' /\
    StronglySorted leq m' /\ forall f, act pos m' f = sg_res s (act pos m f).
  Proof.
    intros Hok. unfold fsort.
    destruct (bsort_spec (S (length m)) m [] false) as (m' & s & E & HP & HS & _ & HA); rewrite ?app_nil_r in *; auto.
    - constructor.
    - intros a b _ [].
    - exists m', s. rewrite xorb_false_l in E. auto.
  Qed.

  (** a sorted monomial splits into creation and annihilation parts *)
  Notation D m := (filter (fun o => Bool.eqb (dag o) true) m).
  Notation A m := (filter (fun o => Bool.eqb (dag o) false) m).
  Lemma sorted_split m : StronglySorted leq m -> m = D m ++ A m.
  Proof.
    induction 1 as [|o m HS IH HF]; simpl; [reflexivity|].
    destruct (dag o) eqn:Ed; simpl; [f_equal; exact IH|].
    assert (E : D m = []).
    { clear - HF Ed. induction m as [|a m IHm]; simpl; [reflexivity|]. inversion_clear HF as [|? ? Ha HF'].
      unfold leq, greater in Ha. rewrite Ed in Ha. destruct (dag a); simpl in *; [discriminate|auto]. }
    rewrite E in *. simpl in *. f_equal. exact IH.
  Qed.
  Lemma sorted_cre m : StronglySorted leq m -> modes_once m -> cre_sorted pos (D m).
  Proof.
    intros HS HN. split; [apply Forall_forall; intros o Ho; apply filter_In in Ho; destruct (dag o); [reflexivity|destruct Ho; discriminate]|].
    induction HS as [|o m HS IH HF]; simpl; [constructor|]. inversion_clear HN as [|? ? Hn HN'].
    destruct (dag o) eqn:Ed; simpl; [|auto]. constructor; [auto|].
    apply Forall_forall. intros a Ha. apply filter_In in Ha. destruct Ha as [Ha Hd]. destruct (dag a) eqn:Eda; [|discriminate].
    rewrite Forall_forall in HF. specialize (HF a Ha). unfold leq, greater in HF. rewrite Ed, Eda in HF. simpl in HF.
    apply Nat.ltb_ge in HF. destruct (Nat.eq_dec (p_of o) (p_of a)) as [Eq|]; [|lia].
    exfalso. apply Hn. apply in_map_iff. exists a. split; [congruence|exact Ha].
  Qed.
  Lemma sorted_ann m : StronglySorted leq m -> modes_once m -> ann_sorted pos (A m).
  Proof.
    intros HS HN. split; [apply Forall_forall; intros o Ho; apply filter_In in Ho; destruct (dag o); [destruct Ho; discriminate|reflexivity]|].
    induction HS as [|o m HS IH HF]; simpl; [constructor|]. inversion_clear HN as [|? ? Hn HN'].
    destruct (dag o) eqn:Ed; simpl; [auto|]. constructor; [auto|].
    apply Forall_forall. intros a Ha. apply filter_In in Ha. destruct Ha as [Ha Hd]. destruct (dag a) eqn:Eda; [discriminate|].
    rewrite Forall_forall in HF. specialize (HF a Ha). unfold leq, greater in HF. rewrite Ed, Eda in HF. simpl in HF.
    apply Nat.ltb_ge in HF. destruct (Nat.eq_dec (p_of o) (p_of a)) as [Eq|]; [|lia].
    exfalso. apply Hn. apply in_map_iff. exists a. split; [congruence|exact Ha].
  Qed.

  Lemma SS_map_NoDup (R : nat -> nat -> Prop) (HR : forall a, ~ R a a) (l : list cop) :
    StronglySorted (fun a b => R (p_of a) (p_of b)) l -> NoDup (map (fun o => p_of o) l).
  Proof.
    induction 1 as [|o l HS IH HF]; simpl; constructor; [|exact IH].
    intros H. apply in_map_iff in H. destruct H as (a & E & Ha). rewrite Forall_forall in HF.
    specialize (HF a Ha). simpl in HF. rewrite E in HF. exact (HR _ HF).
  Qed.
End Sort.

(** ---- one term against the Fock-space action ---- *)
Lemma subset_mask f d : (forall p, In p d -> p < 64) ->
  (N.land f (mask_of d) =? mask_of d)%N = forallb (fun p => N.testbit f (N.of_nat p)) d.
Proof.
  intros _. apply eq_true_iff_eq. rewrite N.eqb_eq, forallb_forall. split.
  - intros H p Hp. assert (E : N.testbit (N.land f (mask_of d)) (N.of_nat p) = N.testbit (mask_of d) (N.of_nat p)) by (rewrite H; reflexivity).
    rewrite N.land_spec, mask_of_spec in E. apply existsb_In in Hp. rewrite Hp, andb_true_r in E. exact E.
  - intros H. apply testbit_eq_N. intros k. rewrite N.land_spec, mask_of_spec.
    destruct (existsb (Nat.eqb k) d) eqn:E; [|apply andb_false_r]. apply existsb_In in E. rewrite (H k E). reflexivity.
Qed.
Lemma disjoint_mask f d :
  (N.land (N.lxor f (mask_of d)) (mask_of d) =? mask_of d)%N = forallb (fun p => negb (N.testbit f (N.of_nat p))) d.
Proof.
  apply eq_true_iff_eq. rewrite N.eqb_eq, forallb_forall. split.
  - intros H p Hp. assert (E : N.testbit (N.land (N.lxor f (mask_of d)) (mask_of d)) (N.of_nat p) = N.testbit (mask_of d) (N.of_nat p)) by (rewrite H; reflexivity).
    rewrite N.land_spec, N.lxor_spec, mask_of_spec in E. apply existsb_In in Hp. rewrite Hp, andb_true_r, xorb_true_r in E. exact E.
  - intros H. apply testbit_eq_N. intros k. rewrite N.land_spec, N.lxor_spec, mask_of_spec.
    destruct (existsb (Nat.eqb k) d) eqn:E; [|apply andb_false_r]. apply existsb_In in E. specialize (H k E).
    rewrite xorb_true_r, H. reflexivity.
Qed.
Lemma clear_fold f d k : N.testbit (fold_right (fun p g => N.clearbit g (N.of_nat p)) f d) (N.of_nat k)
                     = negb (existsb (Nat.eqb k) d) && N.testbit f (N.of_nat k).
Proof. induction d as [|q d IH]; simpl; [reflexivity|]. rewrite clearbit_nat, IH, (Nat.eqb_sym q k). destruct (k =? q); simpl; reflexivity. Qed.
Lemma set_fold f d k : N.testbit (fold_right (fun p g => N.setbit g (N.of_nat p)) f d) (N.of_nat k)
                     = existsb (Nat.eqb k) d || N.testbit f (N.of_nat k).
Proof. induction d as [|q d IH]; simpl; [reflexivity|]. rewrite setbit_nat, IH, (Nat.eqb_sym q k). destruct (k =? q); simpl; reflexivity. Qed.

Section Term.
  Context {S : scalar_ops}.
  Variable pos : indices -> nat.
  Notation p_of o := (pos (ind o)).

  (** masks of a sorted monomial act as the monomial, up to which bits the parity counts *)
  Lemma term_act_sorted (c : S) D A f :
    cre_sorted pos D -> ann_sorted pos A -> Forall (fun o => p_of o < 64) (D ++ A) -> (f < 2 ^ 64)%N ->
    let dD := map (fun o => p_of o) D in let dA := map (fun o => p_of o) A in
    let M := mkTerm c (mask_of dA) (mask_of dD) (count_mask dA) (count_mask dD) in
    match term_act M f, act pos (D ++ A) f with
    | None, None => True
    | Some (b, g), Some (b', g') => g = g' /\ (g < 2 ^ 64)%N /\
        ((f < 2 ^ 16)%N \/ Forall (fun o => p_of o <= 16) (D ++ A) -> b = b')
    | _, _ => False
    end.
  Proof.
    intros HD HA Hb Hf dD dA M. apply Forall_app in Hb. destruct Hb as [HbD HbA].
    rewrite act_app, (act_ann pos A f HA HbA). fold dA.
    assert (HdA : forall p, In p dA -> p < 64).
    { intros p Hp. apply in_map_iff in Hp. destruct Hp as (o & <- & Ho). rewrite Forall_forall in HbA. auto. }
    assert (HdD : forall p, In p dD -> p < 64).
    { intros p Hp. apply in_map_iff in Hp. destruct Hp as (o & <- & Ho). rewrite Forall_forall in HbD. auto. }
    assert (NA : NoDup dA).
    { apply (SS_map_NoDup pos (fun a b => b < a)); [intros; lia|]. exact (proj2 HA). }
    assert (ND : NoDup dD).
    { apply (SS_map_NoDup pos (fun a b => a < b)); [intros; lia|]. exact (proj2 HD). }
    unfold term_act. cbn [M coeff d_mask dag_mask d_count dag_count].
    rewrite subset_mask by exact HdA.
    destruct (forallb (fun p => N.testbit f (N.of_nat p)) dA) eqn:EA; cbn [negb]; [|exact I].
    set (f2 := N.land f (not64 (mask_of dA))).
    assert (Ef2 : f2 = fold_right (fun p g => N.clearbit g (N.of_nat p)) f dA).
    { apply testbit_eq_N. intros k. unfold f2. rewrite N.land_spec, clear_fold.
      destruct (Nat.lt_ge_cases k 64) as [Hk|Hk].
      - rewrite not64_spec, mask_of_spec by exact Hk. apply andb_comm.
      - rewrite (high_bits f 64 k) by assumption. rewrite andb_false_r. reflexivity. }
    rewrite <- Ef2. rewrite disjoint_mask. rewrite (act_cre pos D f2 HD HbD). fold dD.
    destruct (forallb (fun p => negb (N.testbit f2 (N.of_nat p))) dD) eqn:ED; cbn [negb]; [|exact I].
    set (f3 := not64 (N.land (not64 f2) (not64 (mask_of dD)))).
    assert (Hf2 : forall k, 64 <= k -> N.testbit f2 (N.of_nat k) = false).
    { intros k Hk. unfold f2. rewrite N.land_spec, (high_bits f 64 k) by assumption. reflexivity. }
    assert (Ef3 : forall k, N.testbit f3 (N.of_nat k) = existsb (Nat.eqb k) dD || N.testbit f2 (N.of_nat k)).
    { intros k. unfold f3. destruct (Nat.lt_ge_cases k 64) as [Hk|Hk].
      - rewrite not64_spec, N.land_spec, !not64_spec, mask_of_spec by exact Hk.
        destruct (N.testbit f2 (N.of_nat k)), (existsb (Nat.eqb k) dD); reflexivity.
      - rewrite not64_high, N.land_spec, !not64_high, mask_of_spec, Hf2 by exact Hk.
        rewrite orb_false_r. destruct (existsb (Nat.eqb k) dD) eqn:E; [|reflexivity].
        apply existsb_In in E. apply HdD in E. lia. }
    split; [|split].
    - apply testbit_eq_N. intros k. rewrite Ef3, set_fold. reflexivity.
    - change 64%N with (N.of_nat 64). apply bits_low. intros k Hk. rewrite Ef3, Hf2 by exact Hk.
      destruct (existsb (Nat.eqb k) dD) eqn:E; [|reflexivity]. apply existsb_In in E. apply HdD in E. lia.
    - intros Hf16. rewrite parity_bits_16, par_below_xsum. rewrite <- (xsum_cut 16 64) by lia.
      unfold sgn_of. rewrite <- xsum_xor. apply xsum_ext. intros i Hi.
      rewrite N.lxor_spec, !N.land_spec, !count_mask_spec, Ef3 by assumption.
      assert (E2 : N.testbit f2 (N.of_nat i) = negb (existsb (Nat.eqb i) dA) && N.testbit f (N.of_nat i)).
      { rewrite Ef2. apply clear_fold. }
      destruct (Nat.ltb_spec i 16) as [Hl|Hl]; cbn [andb].
      + rewrite E2. destruct (existsb (Nat.eqb i) dA), (existsb (Nat.eqb i) dD), (N.testbit f (N.of_nat i)),
          (Nat.odd (above dA i)), (Nat.odd (above dD i)); reflexivity.
      + destruct Hf16 as [Hf16|Hp16].
        * assert (E : N.testbit f (N.of_nat i) = false) by (apply (high_bits f 16); assumption).
          rewrite E2, E. rewrite !andb_false_r. reflexivity.
        * apply Forall_app in Hp16. destruct Hp16 as [HpD HpA].
          rewrite (above_zero dA i), (above_zero dD i).
          -- simpl. rewrite !andb_false_r. reflexivity.
          -- intros p Hp. apply in_map_iff in Hp. destruct Hp as (o & <- & Ho). rewrite Forall_forall in HpD. specialize (HpD o Ho). simpl in HpD. lia.
          -- intros p Hp. apply in_map_iff in Hp. destruct Hp as (o & <- & Ho). rewrite Forall_forall in HpA. specialize (HpA o Ho). simpl in HpA. lia.
  Qed.
End Term.
