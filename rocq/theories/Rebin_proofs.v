(** Proofs about rebinning. *)
From Coq Require Import ZArith Reals List Bool Arith Lia Lra Permutation.
From Coquelicot Require Import Coquelicot.
From Verif Require Import Base Matsubara LinMesh ThermalSpec Csum Fourier FourierSpec Fourier_dft Fourier_lat Fourier_mats Rebin RebinSpec.
Import ListNotations.
Local Open Scope R_scope.

Lemma int_part_eq x k : IZR k <= x < IZR k + 1 -> Int_part x = k.
Proof.
  intros [H1 H2]. destruct (base_Int_part x) as [B1 B2]. assert (IZR (Int_part x) < IZR (k + 1)) by (rewrite plus_IZR; lra). assert (IZR k < IZR (Int_part x + 1)) by (rewrite plus_IZR; lra). apply lt_IZR in H, H0. lia.
Qed.
(** the index as an integer quotient *)
Definition ix (n n' k : nat) : Z := ((2 * Z.of_nat k * Z.of_nat n' + Z.of_nat n) / (2 * Z.of_nat n))%Z.
Lemma ix_round beta n n' k : 0 < beta -> (0 < n)%nat -> (0 < n')%nat -> round_pos (tau_pt beta n k / (beta / INR n')) = ix n n' k.
Proof.
  intros Hb Hn Hn'. assert (Pn : 0 < INR n) by (apply lt_0_INR; exact Hn). assert (Pn' : 0 < INR n') by (apply lt_0_INR; exact Hn'). unfold round_pos, ix. apply int_part_eq.
  set (q := ((2 * Z.of_nat k * Z.of_nat n' + Z.of_nat n) / (2 * Z.of_nat n))%Z). set (a := (2 * Z.of_nat k * Z.of_nat n' + Z.of_nat n)%Z) in *.
  assert (E : tau_pt beta n k / (beta / INR n') + 1 / 2 = IZR a / (2 * INR n)). { unfold tau_pt, a. rewrite plus_IZR, !mult_IZR, <- !INR_IZR_INZ. field. repeat split; lra. }
  rewrite E. assert (B : (2 * Z.of_nat n * q <= a < 2 * Z.of_nat n * q + 2 * Z.of_nat n)%Z). { unfold q. pose proof (Z.div_mod a (2 * Z.of_nat n) ltac:(lia)). pose proof (Z.mod_pos_bound a (2 * Z.of_nat n) ltac:(lia)). lia. }
  destruct B as [B1 B2]. apply IZR_le in B1. apply IZR_lt in B2. rewrite plus_IZR in B2. rewrite !mult_IZR, <- INR_IZR_INZ in B1, B2. split.
  - apply (Rmult_le_reg_r (2 * INR n)); [lra|]. unfold Rdiv. rewrite Rmult_assoc, Rinv_l by lra. lra.
  - apply (Rmult_lt_reg_r (2 * INR n)); [lra|]. unfold Rdiv. rewrite Rmult_assoc, Rinv_l by lra. lra.
Qed.
Lemma ix_nearest beta n n' k i : 0 < beta -> (0 < n)%nat -> (0 < n')%nat -> (nearest (beta / INR n') (tau_pt beta n k) i <-> ix n n' k = Z.of_nat i).
Proof.
  intros Hb Hn Hn'. assert (Pn' : 0 < INR n') by (apply lt_0_INR; exact Hn'). assert (Ph : 0 < beta / INR n') by (apply Rdiv_lt_0_compat; lra). rewrite <- (ix_round beta n n' k Hb Hn Hn'). set (h := beta / INR n') in *. set (t := tau_pt beta n k). unfold nearest, round_pos. split.
  - intros [H1 H2]. apply int_part_eq. rewrite <- INR_IZR_INZ. split.
    + apply (Rmult_le_reg_r h); [exact Ph|]. replace ((t / h + 1 / 2) * h) with (t + h / 2) by (field; lra). lra.
    + apply (Rmult_lt_reg_r h); [exact Ph|]. replace ((t / h + 1 / 2) * h) with (t + h / 2) by (field; lra). lra.
  - intros E. destruct (base_Int_part (t / h + 1 / 2)) as [B1 B2]. rewrite E, <- INR_IZR_INZ in B1, B2. split.
    + apply (Rmult_le_compat_r h) in B1; [|lra]. replace ((t / h + 1 / 2) * h) with (t + h / 2) in B1 by (field; lra). lra.
    + assert (B3 : t / h + 1 / 2 < INR i + 1) by lra. apply (Rmult_lt_compat_r h) in B3; [|exact Ph]. replace ((t / h + 1 / 2) * h) with (t + h / 2) in B3 by (field; lra). lra.
Qed.
Lemma ix_0 n n' : (0 < n)%nat -> ix n n' 0 = 0%Z.
Proof. intros H. unfold ix. apply Z.div_small. lia. Qed.
Lemma ix_last n n' : (0 < n)%nat -> ix n n' n = Z.of_nat n'.
Proof. intros H. unfold ix. symmetry. apply (Z.div_unique _ _ _ (Z.of_nat n)); nia. Qed.
Lemma ix_mono n n' k : (0 < n)%nat -> (ix n n' k <= ix n n' (S k))%Z.
Proof. intros H. unfold ix. apply Z.div_le_mono; nia. Qed.
Lemma ix_mono' n n' k k' : (0 < n)%nat -> (k <= k')%nat -> (ix n n' k <= ix n n' k')%Z.
Proof. intros H L. unfold ix. apply Z.div_le_mono; nia. Qed.
Lemma ix_step n n' k : (0 < n)%nat -> (ix n n' (S k) <= ix n n' k + 1)%Z \/ (forall k, ix n n' k + 1 <= ix n n' (S k))%Z.
Proof.
  intros H. destruct (le_lt_dec n' n) as [L|L].
  - left. unfold ix. replace (_ / _ + 1)%Z with ((2 * Z.of_nat k * Z.of_nat n' + Z.of_nat n + 1 * (2 * Z.of_nat n)) / (2 * Z.of_nat n))%Z by (rewrite Z.div_add by lia; reflexivity). apply Z.div_le_mono; nia.
  - right. intros k0. unfold ix. replace (_ / _ + 1)%Z with ((2 * Z.of_nat k0 * Z.of_nat n' + Z.of_nat n + 1 * (2 * Z.of_nat n)) / (2 * Z.of_nat n))%Z by (rewrite Z.div_add by lia; reflexivity). apply Z.div_le_mono; nia.
Qed.

(** the loop *)
Section Loop.
  Variables (n n' : nat) (Hn : (0 < n)%nat) (g : data).
  Definition sel (k : nat) (i : Z) : list nat := filter (fun j => (ix n n' j =? i)%Z) (seq 0 k).
  Lemma sel_S k i : sel (S k) i = sel k i ++ (if (ix n n' k =? i)%Z then [k] else []).
  Proof. unfold sel. rewrite seq_S, filter_app. cbn [Nat.add filter]. reflexivity. Qed.
  Definition smean (k : nat) (i : Z) (c : nat) : C := Cdiv (csum (sel k i) (fun j => g j c)) (RtoC (IZR (Z.of_nat (length (sel k i))))).
  Definition inv (k : nat) (st : rb_state) : Prop :=
    rb_prev st = ix n n' (k - 1) /\ rb_norm st = Z.of_nat (length (sel k (rb_prev st))) /\
    (forall i c, i <> rb_prev st -> rb_g st i c = smean k i c) /\ (forall c, rb_g st (rb_prev st) c = csum (sel k (rb_prev st)) (fun j => g j c)).
  Lemma sel_none k i : (forall j, (j < k)%nat -> ix n n' j <> i) -> sel k i = [].
  Proof.
    intros H. unfold sel. assert (G : forall l, (forall j, In j l -> (j < k)%nat) -> filter (fun j => (ix n n' j =? i)%Z) l = []).
    { induction l as [|x l IH]; intros Hl; [reflexivity|]. cbn [filter]. destruct (Z.eqb_spec (ix n n' x) i) as [E|_]; [exfalso; apply (H x); [apply Hl; left; reflexivity|exact E]|]. apply IH. intros j Hj. apply Hl. right. exact Hj. }
    apply G. intros j Hj. apply in_seq in Hj. lia.
  Qed.
  Lemma smean_none k i c : sel k i = [] -> smean k i c = RtoC 0.
  Proof. intros E. unfold smean. rewrite E. unfold csum, Cdiv. cbn [fold_right]. ring. Qed.
  Lemma loop_step new_m tau k st : inv k st -> (0 < k)%nat -> round_pos (tau / li_delta (it_lin new_m)) = ix n n' k -> (0 <= ix n n' k < li_L (it_lin new_m))%Z ->
    exists st', rb_step new_m tau (g k) st = Ok st' /\ inv (S k) st'.
  Proof.
    intros (I1 & I2 & I3 & I4) Hk E R. unfold rb_step. cbv zeta. rewrite E. replace ((0 <=? ix n n' k) && (ix n n' k <? li_L (it_lin new_m)))%Z with true by (symmetry; apply andb_true_iff; split; [apply Z.leb_le|apply Z.ltb_lt]; lia). cbn [negb].
    pose proof (ix_mono n n' (k - 1) Hn) as M. replace (S (k - 1)) with k in M by lia. rewrite <- I1 in M.
    destruct (Z.eqb_spec (ix n n' k) (rb_prev st)) as [Q|Q].
    - cbn [bind rb_g rb_prev rb_norm]. eexists. split; [reflexivity|]. unfold inv. cbn [rb_g rb_prev rb_norm]. replace (S k - 1)%nat with k by lia. split; [symmetry; exact Q|].
      rewrite sel_S, Q, Z.eqb_refl, app_length. cbn [length]. split; [lia|]. split.
      + intros i c Hi. unfold rb_upd. destruct (Z.eqb_spec i (rb_prev st)); [contradiction|]. rewrite I3 by exact Hi. unfold smean. rewrite sel_S, Q. destruct (Z.eqb_spec (rb_prev st) i); [congruence|]. rewrite app_nil_r. reflexivity.
      + intros c. unfold rb_upd. rewrite Z.eqb_refl, I4, csum_app. unfold csum at 3. cbn [fold_right]. ring.
    - assert (Q1 : (rb_prev st < ix n n' k)%Z) by lia. assert (P0 : (0 <= rb_prev st)%Z). { rewrite I1. rewrite <- (ix_0 n n' Hn). apply ix_mono'; [exact Hn|lia]. }
      replace ((0 <=? ix n n' k - 1) && (ix n n' k - 1 <? li_L (it_lin new_m)))%Z with true by (symmetry; apply andb_true_iff; split; [apply Z.leb_le|apply Z.ltb_lt]; lia). cbn [bind rb_g rb_prev rb_norm].
      eexists. split; [reflexivity|]. unfold inv. cbn [rb_g rb_prev rb_norm]. replace (S k - 1)%nat with k by lia. split; [reflexivity|].
      assert (None : forall i, (rb_prev st < i)%Z -> sel k i = []). { intros i Hi. apply sel_none. intros j Hj E2. pose proof (ix_mono' n n' j (k - 1) Hn ltac:(lia)). lia. }
      rewrite sel_S, Z.eqb_refl, (None (ix n n' k) Q1). split; [reflexivity|].
      (* the division concerns the previous bin, or its sum has one term *)
      assert (Div : forall i c, i <> ix n n' k -> rb_div (rb_g st) (ix n n' k - 1) (rb_norm st) i c = smean k i c).
      { intros i c Hi. unfold rb_div, rb_upd. destruct (Z.eqb_spec i (ix n n' k - 1)) as [->|N1].
        - destruct (Z.eq_dec (ix n n' k - 1) (rb_prev st)) as [W|W]; [rewrite W, I4, I2; reflexivity|]. rewrite I3 by exact W. rewrite smean_none by (apply None; lia). unfold Cdiv. ring.
        - destruct (Z.eq_dec i (rb_prev st)) as [->|W]; [|apply I3; exact W]. rewrite I4. unfold smean.
          assert (L1 : length (sel k (rb_prev st)) = 1%nat).
          { destruct (ix_step n n' (k - 1) Hn) as [F|F]; [replace (S (k - 1)) with k in F by lia; lia|].
            assert (Inj : forall j, (j < k - 1)%nat -> ix n n' j <> rb_prev st). { intros j Hj E2. pose proof (F j). pose proof (ix_mono' n n' (S j) (k - 1) Hn ltac:(lia)). lia. }
            replace k with (S (k - 1)) at 1 by lia. rewrite sel_S, (sel_none (k - 1) _ Inj), <- I1, Z.eqb_refl. reflexivity. }
          rewrite L1. change (IZR (Z.of_nat 1)) with 1. unfold Cdiv. rewrite <- RtoC_inv by lra. rewrite Rinv_1. ring. }
      split.
      + intros i c Hi. unfold rb_upd at 1. destruct (Z.eqb_spec i (ix n n' k)); [contradiction|]. rewrite Div by exact Hi. unfold smean. rewrite sel_S. destruct (Z.eqb_spec (ix n n' k) i); [congruence|]. rewrite app_nil_r. reflexivity.
      + intros c. unfold rb_upd at 1. rewrite Z.eqb_refl. unfold rb_div, rb_upd. destruct (Z.eqb_spec (ix n n' k) (ix n n' k - 1)); [lia|]. rewrite I3 by lia. rewrite smean_none by (apply None; exact Q1). cbn. ring.
  Qed.
  Lemma loop_first new_m tau : round_pos (tau / li_delta (it_lin new_m)) = 0%Z -> (0 < li_L (it_lin new_m))%Z ->
    exists st', rb_step new_m tau (g 0%nat) (mkRb (fun _ _ => RtoC 0) 0 0) = Ok st' /\ inv 1 st'.
  Proof.
    intros E R. unfold rb_step. cbv zeta. rewrite E. replace ((0 <=? 0) && (0 <? li_L (it_lin new_m)))%Z with true by (symmetry; apply andb_true_iff; split; [apply Z.leb_le|apply Z.ltb_lt]; lia). cbn [negb rb_prev rb_norm rb_g Z.eqb bind].
    eexists. split; [reflexivity|]. unfold inv. cbn [rb_g rb_prev rb_norm]. replace (1 - 1)%nat with 0%nat by lia. rewrite ix_0 by exact Hn. split; [reflexivity|].
    assert (S0 : forall i, sel 1 i = if (0 =? i)%Z then [0%nat] else []) by (intros i; rewrite sel_S, ix_0 by exact Hn; reflexivity). rewrite S0. cbn [Z.eqb length]. split; [reflexivity|]. split.
    - intros i c Hi. unfold rb_upd. destruct (Z.eqb_spec i 0); [contradiction|]. symmetry. apply smean_none. rewrite S0. destruct (Z.eqb_spec 0 i); [congruence|reflexivity].
    - intros c. unfold rb_upd. cbn. ring.
  Qed.
  Lemma loop_all new_m (tau : nat -> R) : (forall k, (k <= n)%nat -> round_pos (tau k / li_delta (it_lin new_m)) = ix n n' k) -> li_L (it_lin new_m) = (Z.of_nat n' + 1)%Z ->
    forall k a st, (0 < a)%nat -> (a + k <= S n)%nat -> inv a st -> exists st', rb_loop new_m (map (fun j => (tau j, g j)) (seq a k)) st = Ok st' /\ inv (a + k) st'.
  Proof.
    intros Ht HL. induction k as [|k IH]; intros a st Ha Hk Hi; [exists st; rewrite Nat.add_0_r; split; [reflexivity|exact Hi]|]. cbn [seq map rb_loop].
    assert (R : (0 <= ix n n' a < li_L (it_lin new_m))%Z). { rewrite HL. pose proof (ix_mono' n n' 0 a Hn ltac:(lia)). rewrite ix_0 in H by exact Hn. pose proof (ix_mono' n n' a n Hn ltac:(lia)). rewrite ix_last in H0 by exact Hn. lia. }
    destruct (loop_step new_m (tau a) a st Hi Ha (Ht a ltac:(lia)) R) as (st' & E & I'). rewrite E. cbn [bind]. destruct (IH (S a) st' ltac:(lia) ltac:(lia) I') as (st'' & E' & I''). exists st''. split; [exact E'|]. replace (a + S k)%nat with (S a + k)%nat by lia. exact I''.
  Qed.
End Loop.

Lemma tau_n1 beta s n k : (0 < n)%nat -> it_pt (tau_mesh beta s n) k = tau_pt beta n k.
Proof. intros H. apply it_pt_eq. exact H. Qed.
Lemma delta_n beta s n : (0 < n)%nat -> li_delta (it_lin (it_make beta s (Z.of_nat (S n)))) = beta / INR n.
Proof. intros H. unfold it_make, li_make. cbn [it_lin li_delta]. destruct (Z.eqb_spec (Z.of_nat (S n)) 1); [lia|]. rewrite <- INR_IZR_INZ, S_INR. f_equal; ring. Qed.
Lemma thm_rebin beta s n n' g : 0 < beta -> (0 < n)%nat -> (0 < n')%nat ->
  exists r, rebinning_tau (tau_mesh beta s n) g (S n') = Ok (tau_mesh beta s n', r) /\
    forall i c ks, (i <= n')%nat -> bin beta n n' i ks -> r i c = mean ks (fun k => g k c).
Proof.
  intros Hb Hn Hn'. unfold rebinning_tau. cbv zeta. destruct (Nat.leb_spec (S n') 1); [lia|]. rewrite it_rows_eq. destruct (Nat.eqb_spec (n + 1) 0); [lia|]. change (it_beta (tau_mesh beta s n)) with beta. change (it_stat (tau_mesh beta s n)) with s.
  set (new_m := it_make beta s (Z.of_nat (S n'))). assert (HL : li_L (it_lin new_m) = (Z.of_nat n' + 1)%Z) by (unfold new_m; cbn [it_make it_lin li_make li_L]; lia).
  assert (Ht : forall k, (k <= n)%nat -> round_pos (it_pt (tau_mesh beta s n) k / li_delta (it_lin new_m)) = ix n n' k). { intros k _. rewrite tau_n1 by exact Hn. unfold new_m. rewrite delta_n by exact Hn'. apply ix_round; assumption. }
  replace (n + 1)%nat with (S n) by lia. cbn [seq map rb_loop]. destruct (loop_first n n' Hn g new_m (it_pt (tau_mesh beta s n) 0)) as (s1 & E1 & I1). { rewrite (Ht 0%nat ltac:(lia)). apply ix_0. exact Hn. } { lia. }
  rewrite E1. cbn [bind]. destruct (loop_all n n' Hn g new_m (it_pt (tau_mesh beta s n)) Ht HL n 1 s1 ltac:(lia) ltac:(lia) I1) as (s2 & E2 & (J1 & J2 & J3 & J4)). rewrite E2. cbn [bind].
  replace (1 + n - 1)%nat with n in J1 by lia. rewrite ix_last in J1 by exact Hn. eexists. split.
  { replace (tau_mesh beta s n') with new_m by (unfold new_m, tau_mesh; f_equal; lia). reflexivity. }
  intros i c ks Hi [Nd Hks].
  assert (Pm : Permutation ks (sel n n' (1 + n) (Z.of_nat i))).
  { apply NoDup_Permutation; [exact Nd|unfold sel; apply NoDup_filter; apply seq_NoDup|]. intros k. rewrite Hks. unfold sel. rewrite filter_In, in_seq, Z.eqb_eq, (ix_nearest beta n n' k i Hb Hn Hn'). intuition lia. }
  assert (Val : (if (rb_norm s2 =? 1)%Z then rb_g s2 else rb_div (rb_g s2) (li_L (it_lin new_m) - 1) (rb_norm s2)) (Z.of_nat i) c = smean n n' g (1 + n) (Z.of_nat i) c).
  { rewrite HL. replace (Z.of_nat n' + 1 - 1)%Z with (rb_prev s2) by lia. destruct (Z.eqb_spec (rb_norm s2) 1) as [N1|N1].
    - destruct (Z.eq_dec (Z.of_nat i) (rb_prev s2)) as [W|W]; [|apply J3; exact W]. rewrite W, J4. unfold smean. rewrite <- J2, N1. unfold Cdiv. rewrite <- RtoC_inv by lra. rewrite Rinv_1. ring.
    - unfold rb_div, rb_upd. destruct (Z.eqb_spec (Z.of_nat i) (rb_prev s2)) as [W|W]; [|apply J3; exact W]. rewrite W, J4, J2. reflexivity. }
  rewrite Val. unfold smean. rewrite <- (csum_perm _ _ _ Pm), <- (Permutation_length Pm), <- INR_IZR_INZ. unfold mean. destruct ks as [|k ks]; [|reflexivity]. unfold csum, Cdiv. cbn [fold_right]. ring.
Qed.
Lemma thm_bins beta n n' i : 0 < beta -> (0 < n)%nat -> (0 < n')%nat -> exists ks, bin beta n n' i ks.
Proof.
  intros Hb Hn Hn'. exists (sel n n' (1 + n) (Z.of_nat i)). split; [unfold sel; apply NoDup_filter; apply seq_NoDup|]. intros k. unfold sel. rewrite filter_In, in_seq, Z.eqb_eq, (ix_nearest beta n n' k i Hb Hn Hn'). intuition lia.
Qed.
(** every point belongs to one bin *)
Lemma thm_partition beta n n' k : 0 < beta -> (0 < n)%nat -> (0 < n')%nat -> (k <= n)%nat -> exists i, (i <= n')%nat /\ forall i', nearest (beta / INR n') (tau_pt beta n k) i' <-> i' = i.
Proof.
  intros Hb Hn Hn' Hk. pose proof (ix_mono' n n' 0 k Hn ltac:(lia)) as A. rewrite ix_0 in A by exact Hn. pose proof (ix_mono' n n' k n Hn Hk) as B. rewrite ix_last in B by exact Hn.
  exists (Z.to_nat (ix n n' k)). split; [lia|]. intros i'. rewrite (ix_nearest beta n n' k i' Hb Hn Hn'). lia.
Qed.
Lemma thm_same beta s n g : 0 < beta -> (0 < n)%nat -> exists r, rebinning_tau (tau_mesh beta s n) g (S n) = Ok (tau_mesh beta s n, r) /\ forall i c, (i <= n)%nat -> r i c = g i c.
Proof.
  intros Hb Hn. destruct (thm_rebin beta s n n g Hb Hn Hn) as (r & E & V). exists r. split; [exact E|]. intros i c Hi. rewrite (V i c [i] Hi).
  - unfold mean, csum. cbn [fold_right length]. change (INR 1) with 1. unfold Cdiv. rewrite <- RtoC_inv by lra. rewrite Rinv_1. ring.
  - split; [repeat constructor; intros []|]. intros k. rewrite (ix_nearest beta n n k i Hb Hn Hn). assert (Q : ix n n k = Z.of_nat k). { unfold ix. symmetry. apply (Z.div_unique _ _ _ (Z.of_nat n)); nia. } rewrite Q. cbn [In]. intuition lia.
Qed.
Lemma bins_full n n' i : (0 < n)%nat -> (n' <= n)%nat -> (i <= n')%nat -> exists k, (k <= n)%nat /\ ix n n' k = Z.of_nat i.
Proof.
  intros Hn L Hi. (* the first k with ix k >= i *)
  assert (W : forall m, (Z.of_nat i <= ix n n' m)%Z -> exists k, (k <= m)%nat /\ ix n n' k = Z.of_nat i).
  { induction m as [|m IH]; intros Hm; [exists 0%nat; rewrite ix_0 in * by exact Hn; split; lia|]. destruct (Z_le_gt_dec (Z.of_nat i) (ix n n' m)) as [A|A]; [destruct (IH A) as (k & H1 & H2); exists k; split; [lia|exact H2]|].
    exists (S m). split; [lia|]. assert (ix n n' (S m) <= ix n n' m + 1)%Z; [|lia].
    unfold ix. replace (_ / _ + 1)%Z with ((2 * Z.of_nat m * Z.of_nat n' + Z.of_nat n + 1 * (2 * Z.of_nat n)) / (2 * Z.of_nat n))%Z by (rewrite Z.div_add by lia; reflexivity). apply Z.div_le_mono; nia. }
  destruct (W n) as (k & H1 & H2); [rewrite ix_last by exact Hn; lia|]. exists k. split; assumption.
Qed.
Lemma thm_constant beta s n n' g v : 0 < beta -> (0 < n' <= n)%nat -> (forall k c, (k <= n)%nat -> g k c = v c) ->
  exists r, rebinning_tau (tau_mesh beta s n) g (S n') = Ok (tau_mesh beta s n', r) /\ forall i c, (i <= n')%nat -> r i c = v c.
Proof.
  intros Hb Hn Hg. assert (Hn0 : (0 < n)%nat) by lia. destruct (thm_rebin beta s n n' g Hb Hn0 (proj1 Hn)) as (r & E & V). exists r. split; [exact E|]. intros i c Hi.
  destruct (thm_bins beta n n' i Hb Hn0 (proj1 Hn)) as (ks & B). rewrite (V i c ks Hi B). destruct B as [_ B]. destruct (bins_full n n' i Hn0 (proj2 Hn) Hi) as (k & K1 & K2).
  assert (In k ks) by (apply B; split; [exact K1|apply ix_nearest; try assumption; lia]). destruct ks as [|k0 ks]; [contradiction|]. unfold mean.
  assert (Sum : forall l, (forall j, In j l -> (j <= n)%nat) -> csum l (fun k => g k c) = Cmult (RtoC (INR (length l))) (v c)).
  { induction l as [|x l IH]; intros Hl; [unfold csum; cbn; ring|]. rewrite csum_cons, IH by (intros j Hj; apply Hl; right; exact Hj). rewrite Hg by (apply Hl; left; reflexivity). cbn [length]. rewrite S_INR, RtoC_plus. ring. }
  rewrite Sum by (intros j Hj; apply B; exact Hj). assert (INR (length (k0 :: ks)) <> 0) by (apply not_0_INR; cbn; lia). field. apply RtoC_nz. exact H0.
Qed.
Lemma thm_one_point beta s n g : rebinning_tau (tau_mesh beta s n) g 1 = UB.
Proof. reflexivity. Qed.
