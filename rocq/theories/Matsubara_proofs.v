From Coq Require Import ZArith Reals List Bool Lia Lra String Sorted.
From Verif Require Import Base Matsubara.
Import ListNotations.
Local Open Scope Z_scope.

Ltac bits :=
  repeat match goal with
  | |- context [Z.land ?a ?b] => let v := eval vm_compute in (Z.land a b) in change (Z.land a b) with v
  | |- context [stat_int ?a] => let v := eval vm_compute in (stat_int a) in change (stat_int a) with v
  | |- context [stat_xor ?a ?b] => let v := eval vm_compute in (stat_xor a b) in change (stat_xor a b) with v
  | |- context [stat_eqb ?a ?b] => let v := eval vm_compute in (stat_eqb a b) in change (stat_eqb a b) with v
  end; cbv iota.

Lemma thm_fr_add x y : fr_beta x = fr_beta y -> fr_beta x <> 0%R ->
  fr_value (fr_add x y) = (fr_value x + fr_value y)%R /\ fr_beta (fr_add x y) = fr_beta x /\
  (fr_stat (fr_add x y) = Boson <-> fr_stat x = fr_stat y).
Proof.
  destruct x as [n b s], y as [n' b' s']; unfold fr_value; cbn [fr_n fr_beta fr_stat fr_add]. intros <- Hb. split; [|split; [reflexivity|]].
  - assert (E : 2 * (n + n' + Z.land (stat_int s) (stat_int s')) + stat_int (stat_xor s s') = (2 * n + stat_int s) + (2 * n' + stat_int s')).
    { destruct s, s'; bits; lia. }
    rewrite E, plus_IZR. field. exact Hb.
  - destruct s, s'; cbn; intuition discriminate.
Qed.
Lemma thm_fr_sub x y : fr_beta x = fr_beta y -> fr_beta x <> 0%R ->
  fr_value (fr_sub x y) = (fr_value x - fr_value y)%R /\ fr_beta (fr_sub x y) = fr_beta x /\
  (fr_stat (fr_sub x y) = Boson <-> fr_stat x = fr_stat y).
Proof.
  destruct x as [n b s], y as [n' b' s']; unfold fr_value; cbn [fr_n fr_beta fr_stat fr_sub]. intros <- Hb. split; [|split; [reflexivity|]].
  - assert (E : 2 * (n - n' - Z.land (Z.lnot (stat_int s)) (stat_int s')) + stat_int (stat_xor s s') = (2 * n + stat_int s) - (2 * n' + stat_int s')).
    { destruct s, s'; bits; lia. }
    rewrite E, minus_IZR. field. exact Hb.
  - destruct s, s'; cbn; intuition discriminate.
Qed.
Lemma thm_fr_neg x : fr_beta x <> 0%R ->
  fr_value (fr_neg x) = (- fr_value x)%R /\ fr_beta (fr_neg x) = fr_beta x /\ fr_stat (fr_neg x) = fr_stat x.
Proof.
  destruct x as [n b s]; unfold fr_value, fr_neg; cbn [fr_n fr_beta fr_stat]. intros Hb. split; [|split; reflexivity].
  assert (E : 2 * - (n + (if stat_eqb s Fermion then 1 else 0)) + stat_int s = - (2 * n + stat_int s)) by (destruct s; cbn -[Z.mul Z.add]; lia).
  rewrite E, opp_IZR. field. exact Hb.
Qed.
Lemma thm_fr_laws x y : fr_beta x = fr_beta y ->
  fr_add (fr_sub x y) y = x /\ fr_sub (fr_add x y) y = x /\ fr_add x (fr_neg y) = fr_sub x y /\ fr_neg (fr_neg x) = x /\ fr_add x y = fr_add y x.
Proof.
  destruct x as [n b s], y as [n' b' s']. unfold fr_add, fr_sub, fr_neg. cbn [fr_n fr_beta fr_stat]. intros <-.
  repeat split; destruct s, s'; bits; f_equal; lia.
Qed.
Lemma thm_fr_value_inj x y : fr_beta x = fr_beta y -> (0 < fr_beta x)%R -> (fr_value x = fr_value y <-> x = y).
Proof.
  destruct x as [n b s], y as [n' b' s']. unfold fr_value. cbn [fr_n fr_beta fr_stat]. intros <- Hb. split; [|intros E; injection E as <- <-; reflexivity].
  intros H. assert (E : IZR (2 * n + stat_int s) = IZR (2 * n' + stat_int s')).
  { apply (Rmult_eq_reg_l (PI / b)).
    - transitivity (PI * IZR (2 * n + stat_int s) / b)%R; [field; lra|]. rewrite H. field. lra.
    - apply Rgt_not_eq. apply Rdiv_lt_0_compat; [apply PI_RGT_0|exact Hb]. }
  apply eq_IZR in E. assert (n = n' /\ s = s') as [-> ->]; [|reflexivity]. destruct s, s'; cbn [stat_int] in E; split; try lia; reflexivity.
Qed.

Lemma cex_fr_div : exists x y, fr_beta x = fr_beta y /\ fr_value y <> 0%R /\ fr_div x y <> (fr_value x / fr_value y)%R.
Proof.
  exists (mkFreq 0 1 Fermion), (mkFreq 0 1 Fermion). unfold fr_div, fr_value. cbn [fr_n fr_beta fr_stat stat_int].
  change (2 * 0 + 1) with 1. replace (PI * 1 / 1)%R with PI by field. pose proof PI_RGT_0. split; [reflexivity|]. split; [lra|].
  replace (PI / PI)%R with 1%R by (field; lra). assert (0 <= PI * PI)%R by nra. lra.
Qed.
Lemma cex_kron : exists x y, fr_beta x = fr_beta y /\ fr_kron2 x y = true /\ fr_value x <> fr_value y /\ fr_kron x = true /\ fr_value x <> 0%R.
Proof.
  exists (mkFreq 0 1 Fermion), (mkFreq 0 1 Boson). unfold fr_value. cbn [fr_n fr_beta fr_stat stat_int].
  change (2 * 0 + 1) with 1. change (2 * 0 + 0) with 0. replace (PI * 1 / 1)%R with PI by field. replace (PI * 0 / 1)%R with 0%R by field.
  pose proof PI_RGT_0. repeat split; try reflexivity; lra.
Qed.
Lemma thm_kron x y : fr_beta x = fr_beta y -> (0 < fr_beta x)%R -> fr_stat x = fr_stat y -> (fr_kron2 x y = true <-> fr_value x = fr_value y).
Proof.
  intros Hb Hp Hs. rewrite thm_fr_value_inj by assumption. unfold fr_kron2. rewrite Z.eqb_eq.
  destruct x as [n b s], y as [n' b' s']; cbn [fr_n fr_beta fr_stat] in *. split; [intros; subst; reflexivity|intros H; injection H; auto].
Qed.

(** ---- imfreq ---- *)
Definition if_ok (m : imfreq) : Prop := 1 <= if_n m.

Lemma if_size_val m : if_size m = if if_pos m then if_n m else match if_stat m with Fermion => 2 * if_n m | Boson => 2 * if_n m - 1 end.
Proof. unfold if_size, if_first, if_last. destruct m as [b s n p]; cbn [if_beta if_stat if_n if_pos]. destruct p, s; cbn [stat_eqb]; lia. Qed.

Lemma valid_iff m i : if_valid m i = true <-> if_first m <= i <= if_last m.
Proof. unfold if_valid. rewrite andb_true_iff, !Z.leb_le. tauto. Qed.

Lemma thm_if_index m i d :
  (if_valid m i = true <-> 0 <= if_to_data m i < if_size m) /\ if_to_index m (if_to_data m i) = i /\
  (0 <= d < if_size m <-> if_valid m (if_to_index m d) = true) /\ if_to_data m (if_to_index m d) = d.
Proof. rewrite !valid_iff. unfold if_to_data, if_to_index, if_size. repeat split; lia. Qed.

Lemma thm_if_points m : if_ok m ->
  Z.of_nat (List.length (if_points m)) = if_size m /\ StronglySorted Z.lt (if_points m) /\
  forall i, In i (if_points m) <-> if_valid m i = true.
Proof.
  intros Hm. unfold if_points. rewrite map_length, seq_length.
  assert (Hs : 0 <= if_size m) by (rewrite if_size_val; unfold if_ok in Hm; destruct (if_pos m), (if_stat m); lia).
  split; [lia|]. split.
  - generalize (Z.to_nat (if_size m)) as k. generalize 0%nat as a. intros a k; revert a. induction k as [|k IH]; intros a; cbn [seq map]; [constructor|].
    constructor; [apply IH|]. apply Forall_forall. intros z Hz. apply in_map_iff in Hz. destruct Hz as (j & <- & Hj). apply in_seq in Hj. unfold if_to_index. lia.
  - intros i. rewrite in_map_iff. split.
    + intros (j & <- & Hj). apply in_seq in Hj. apply (thm_if_index m 0 (Z.of_nat j)). lia.
    + intros H. exists (Z.to_nat (if_to_data m i)). apply (thm_if_index m i 0) in H. rewrite Z2Nat.id by lia.
      split; [apply (thm_if_index m i 0)|apply in_seq; lia].
Qed.

Lemma fr_value_nonneg m i : (0 < if_beta m)%R -> ((0 <= fr_value (if_freq m i))%R <-> 0 <= i).
Proof.
  intros Hb. unfold fr_value, if_freq. cbn [fr_n fr_beta fr_stat].
  assert (H0 : (0 < PI / if_beta m)%R) by (apply Rdiv_lt_0_compat; [apply PI_RGT_0|exact Hb]).
  replace (PI * IZR (2 * i + stat_int (if_stat m)) / if_beta m)%R with (PI / if_beta m * IZR (2 * i + stat_int (if_stat m)))%R by (field; lra).
  split; intros H.
  - destruct (Z_lt_le_dec i 0) as [Hi|Hi]; [exfalso|exact Hi].
    assert (IZR (2 * i + stat_int (if_stat m)) <= -1)%R by (apply IZR_le; destruct (if_stat m); cbn [stat_int]; lia). nra.
  - assert (0 <= IZR (2 * i + stat_int (if_stat m)))%R by (apply IZR_le; destruct (if_stat m); cbn [stat_int]; lia). nra.
Qed.

Lemma thm_if_symmetric m i : if_pos m = false ->
  (if_valid m i = true <-> if_valid m (fr_n (fr_neg (if_freq m i))) = true).
Proof.
  intros Hp. rewrite !valid_iff. unfold if_first, if_last. rewrite Hp. cbn [fr_neg if_freq fr_n fr_stat]. destruct (if_stat m); cbn [stat_eqb]; lia.
Qed.
Lemma thm_if_positive m i : (0 < if_beta m)%R -> if_ok m ->
  (if_valid (if_positive m) i = true <-> if_valid m i = true /\ (0 <= fr_value (if_freq m i))%R).
Proof.
  intros Hb Hm. rewrite (fr_value_nonneg m i Hb), !valid_iff. unfold if_ok in Hm. unfold if_positive, if_first, if_last. cbn [if_pos if_n if_stat].
  destruct (if_pos m); [lia|]. destruct (if_stat m); cbn [stat_eqb]; lia.
Qed.
Lemma thm_if_h5 m : 0 <= if_n m -> if_read (if_write m) = m.
Proof.
  intros Hn. destruct m as [b s n p]. unfold if_read, if_write. cbn [h_beta h_stat h_size h_pos if_beta if_stat if_pos if_n]. rewrite if_size_val.
  cbn [if_beta if_stat if_n if_pos] in *.
  assert (E : (if (if p then 1 else 0) =? 0 then (if p then n else match s with Boson => 2 * n - 1 | Fermion => 2 * n end) + 1 else 0) = 
              (if p then 0 else match s with Boson => 2 * n | Fermion => 2 * n + 1 end)) by (destruct p, s; cbn -[Z.mul Z.add]; lia).
  f_equal.
  - destruct s; reflexivity.
  - destruct p; cbn -[Z.mul Z.add Z.sub]; [reflexivity|]. destruct s.
    + replace (2 * n - 1 + 1) with (n * 2) by lia. apply Z.quot_mul. lia.
    + rewrite Z.quot_div_nonneg by lia. symmetry. apply (Z.div_unique _ 2 n 1); lia.
  - destruct p; reflexivity.
Qed.

Lemma trunc_nonneg x : (0 <= x)%R -> (IZR (trunc x) <= x < IZR (trunc x) + 1)%R /\ 0 <= trunc x.
Proof.
  intros Hx. unfold trunc. destruct (Rle_dec 0 x) as [_|H]; [|contradiction]. destruct (base_Int_part x) as [H1 H2]. split; [lra|].
  assert (-1 < IZR (Int_part x))%R by lra. apply (lt_IZR (-1)) in H. lia.
Qed.
(** the mesh made from an energy window leaves out a frequency of the window *)
Lemma thm_if_window beta wmax pos : (0 < beta)%R -> (PI / beta <= wmax)%R ->
  let m := if_of_window beta Fermion wmax pos in
  exists i, (0 <= fr_value (if_freq m i) <= wmax)%R /\ if_valid m i = false.
Proof.
  intros Hb Hw m. exists (if_n m). pose proof PI_RGT_0 as HP.
  assert (H1 : (1 <= wmax * beta / PI)%R).
  { apply (Rmult_le_reg_r (PI / beta)); [apply Rdiv_lt_0_compat; lra|]. replace (wmax * beta / PI * (PI / beta))%R with wmax by (field; lra). lra. }
  assert (H2 : (0 <= (wmax * beta / PI - 1) / 2)%R) by lra. destruct (trunc_nonneg _ H2) as [H3 H4].
  split.
  - split; [apply fr_value_nonneg; [exact Hb|exact H4]|]. unfold fr_value, if_freq. cbn [fr_n fr_beta fr_stat stat_int m if_of_window if_n if_beta if_stat].
    rewrite plus_IZR, mult_IZR. set (t := IZR (trunc ((wmax * beta / PI - 1) / 2))) in *.
    assert (H5 : (2 * t + 1 <= wmax * beta / PI)%R) by lra.
    apply (Rmult_le_reg_r (beta / PI)); [apply Rdiv_lt_0_compat; lra|].
    replace (PI * (2 * t + 1) / beta * (beta / PI))%R with (2 * t + 1)%R by (field; lra). lra.
  - apply not_true_iff_false. rewrite valid_iff. clearbody m. unfold if_last. intros [_ Hl]. lia.
Qed.
Lemma thm_if_eval m f i : if_valid m i = true -> if_eval m f (if_freq m i) = f (if_to_data m i).
Proof. intros H. unfold if_eval. cbn [if_freq fr_n]. rewrite H. reflexivity. Qed.
