(** Histories, Matsubara meshes, evaluation outside the mesh *)
From Coq Require Import ZArith Reals List Bool Arith Lia Lra.
From Coquelicot Require Import Complex.
From Verif Require Import Base ThermalSpec Csum Matsubara LinMesh Fourier FourierSpec Fourier_dft Fourier_lat LegGfSpec LegGf_tail TailFit TailFitSpec TailFit_alg TailFit_hist TailFit_proofs.
Import ListNotations.
Local Open Scope R_scope.

Lemma unused_made us : exists a b c, get_tail_fitter (unused us) = make_fitter a b c.
Proof.
  unfold unused. assert (G : forall p, (exists a b c, get_tail_fitter p = make_fitter a b c) -> exists a b c, get_tail_fitter (fold_left (fun p u => match u with UseSet a b c => set_tail_fit_parameters a b c | _ => p end) us p) = make_fitter a b c).
  { induction us as [|u us IH]; intros p Hp; [exact Hp|]. cbn [fold_left]. apply IH. destruct u; [exact Hp|]. eexists _, _, _. reflexivity. }
  apply G. eexists _, _, _. reflexivity.
Qed.
Lemma history_Inv smin solve m us : Inv smin (get_tail_fitter (unused us)) m (get_tail_fitter (history smin solve m us)).
Proof.
  unfold unused, history.
  assert (G : forall p hd, Inv smin (get_tail_fitter p) m (get_tail_fitter hd) ->
    Inv smin (get_tail_fitter (fold_left (fun p u => match u with UseSet a b c => set_tail_fit_parameters a b c | _ => p end) us p)) m (get_tail_fitter (fold_left (after_use smin solve m) us hd))).
  { induction us as [|u us IH]; intros p hd H; [exact H|]. cbn [fold_left]. apply IH. destruct u as [h n g nz km nk inner|a b c]; cbn [after_use].
    - pose proof (fit_pure smin solve _ m _ h n g nz km nk inner H) as F. destruct (fit smin solve h (get_tail_fitter hd) m n g nz km nk inner) as [f' r]. cbn [fst get_tail_fitter]. apply F.
    - apply Inv_make. }
  apply G. apply Inv_make.
Qed.
Lemma unused_Inv smin m us : Inv smin (get_tail_fitter (unused us)) m (get_tail_fitter (unused us)).
Proof. destruct (unused_made us) as [a [b [c ->]]]. apply Inv_make. Qed.
Lemma snd_fit smin solve m us h n g nz km nk inner : snd (fit smin solve h (get_tail_fitter (history smin solve m us)) m n g nz km nk inner) = fit_value smin solve h (get_tail_fitter (unused us)) m n g nz km nk inner.
Proof. pose proof (fit_pure smin solve _ m _ h n g nz km nk inner (history_Inv smin solve m us)) as F. destruct (fit _ _ _ _ _ _ _ _ _ _ _). apply F. Qed.
Lemma snd_fit0 smin solve m us h n g nz km nk inner : snd (fit smin solve h (get_tail_fitter (unused us)) m n g nz km nk inner) = fit_value smin solve h (get_tail_fitter (unused us)) m n g nz km nk inner.
Proof. pose proof (fit_pure smin solve _ m _ h n g nz km nk inner (unused_Inv smin m us)) as F. destruct (fit _ _ _ _ _ _ _ _ _ _ _). apply F. Qed.
Lemma fit_tail_value smin solve m us n g km nk : snd (fit_tail smin solve (history smin solve m us) m n g km nk) = fit_value smin solve false (get_tail_fitter (unused us)) m n g true km nk None.
Proof. unfold fit_tail. rewrite <- (snd_fit smin solve m us). destruct (fit _ _ _ _ _ _ _ _ _ _ _). reflexivity. Qed.
Lemma fit_tail_value0 smin solve m us n g km nk : snd (fit_tail smin solve (unused us) m n g km nk) = fit_value smin solve false (get_tail_fitter (unused us)) m n g true km nk None.
Proof. unfold fit_tail. rewrite <- (snd_fit0 smin solve m us). destruct (fit _ _ _ _ _ _ _ _ _ _ _). reflexivity. Qed.
Lemma fit_hermitian_value smin solve m us d g km nk : snd (fit_hermitian_tail smin solve (history smin solve m us) m [d; d] g km nk) = fit_value smin solve true (get_tail_fitter (unused us)) m (d * d) g true km nk (Some d).
Proof. unfold fit_hermitian_tail. rewrite Nat.eqb_refl, <- (snd_fit smin solve m us). destruct (fit _ _ _ _ _ _ _ _ _ _ _). reflexivity. Qed.
Lemma fit_raw_value smin solve m us n g : snd (fit_tail_no_normalize smin solve (history smin solve m us) m n g) = fit_value smin solve false (get_tail_fitter (unused us)) m n g false [] 0 None.
Proof. unfold fit_tail_no_normalize. rewrite <- (snd_fit smin solve m us). destruct (fit _ _ _ _ _ _ _ _ _ _ _). reflexivity. Qed.

(** a fit that is not made *)
Lemma fit_value_order smin solve h f0 m n g nz km nk inner : fm_pos m = false -> (h = false \/ inner <> None) -> (tf_order f0 < Z.of_nat (length km))%Z ->
  fit_value smin solve h f0 m n g nz km nk inner = Ok (km, 0).
Proof.
  intros Hp Hh Ho. unfold fit_value. rewrite Hp. replace (h && _) with false by (destruct h; [destruct inner; [reflexivity|destruct Hh; congruence]|reflexivity]).
  apply Z.ltb_lt in Ho. rewrite Ho. reflexivity.
Qed.

(** * Matsubara meshes *)
Lemma fr_value_inj m a b : 0 < if_beta m -> fr_value (if_freq m a) = fr_value (if_freq m b) -> a = b.
Proof.
  intros Hb. unfold fr_value, if_freq. cbn [fr_n fr_stat fr_beta]. intros H. pose proof PI_RGT_0. assert (H1 : IZR (2 * a + stat_int (if_stat m)) = IZR (2 * b + stat_int (if_stat m))).
  { apply (Rmult_eq_reg_l (PI / if_beta m)); [transitivity (PI * IZR (2 * a + stat_int (if_stat m)) / if_beta m); [field; lra|]; rewrite H; field; lra|]. apply Rgt_not_eq. unfold Rdiv. apply Rmult_lt_0_compat; [lra|apply Rinv_0_lt_compat; exact Hb]. }
  apply eq_IZR in H1. lia.
Qed.
Lemma fr_value_nz m a : 0 < if_beta m -> (if_stat m = Boson -> a <> 0%Z) -> fr_value (if_freq m a) <> 0.
Proof.
  intros Hb Ha. unfold fr_value, if_freq. cbn [fr_n fr_stat fr_beta]. pose proof PI_RGT_0. assert (IZR (2 * a + stat_int (if_stat m)) <> 0).
  { apply IZR_neq. destruct (if_stat m); cbn [stat_int]; [|lia]. specialize (Ha eq_refl). lia. }
  unfold Rdiv. apply Rmult_integral_contrapositive. split; [apply Rmult_integral_contrapositive; split; [lra|assumption]|]. apply Rinv_neq_0_compat. lra.
Qed.
Lemma fm_value_nodup m idx : 0 < if_beta m -> NoDup idx -> NoDup (map (fm_value (fm_imfreq m)) idx).
Proof.
  intros Hb. induction 1 as [|x xs Hx Hd IH]; [constructor|]. cbn [map]. constructor; [|exact IH]. intros Hin. apply in_map_iff in Hin. destruct Hin as [y [E Hy]].
  apply Hx. replace x with y; [exact Hy|]. apply (fr_value_inj m); [exact Hb|]. apply (f_equal snd) in E. exact E.
Qed.
Lemma window_good m r idx : 0 < if_beta m -> if_pos m = false -> (0 < r < if_last m)%Z ->
  (forall n, In n idx -> (if_first m <= n < if_first m + r \/ if_last m - r <= n < if_last m)%Z) ->
  bad (fm_imfreq m) idx = false /\ existsb (fun i => negb (fm_valid (fm_imfreq m) i)) idx = false.
Proof.
  intros Hb Hp Hr Hw. assert (Hf : (if_first m <= - if_last m)%Z) by (unfold if_first; rewrite Hp; destruct (stat_eqb _ _); lia).
  assert (Hf' : (- if_last m - 1 <= if_first m)%Z) by (unfold if_first; rewrite Hp; destruct (stat_eqb _ _); lia).
  assert (Hz : forall n, In n idx -> n <> 0%Z). { intros n Hn. specialize (Hw n Hn). assert (if_stat m = Fermion \/ if_first m = - if_last m)%Z. { unfold if_first. rewrite Hp. destruct (if_stat m); cbn; [right; lia|left; reflexivity]. } lia. }
  assert (Cm : forall y, Cmod (0, y) <> 0 <-> y <> 0).
  { intros y. split; intros H E; apply H.
    - rewrite E. apply Cmod_0.
    - apply Cmod_eq_0 in E. apply (f_equal snd) in E. exact E. }
  split.
  - unfold bad. apply orb_false_intro.
    + destruct (existsb _ idx) eqn:E; [|reflexivity]. apply existsb_exists in E. destruct E as [n [Hn E]]. destruct (Req_EM_T _ 0) as [E0|]; [|discriminate].
      exfalso. revert E0. apply (proj2 (Cm _)). apply fr_value_nz; [exact Hb|]. intros _. apply Hz. exact Hn.
    + destruct (Req_EM_T _ 0) as [E0|]; [|reflexivity]. exfalso. revert E0. apply (proj2 (Cm _)). apply fr_value_nz; [exact Hb|]. intros _. lia.
  - destruct (existsb _ idx) eqn:E; [|reflexivity]. apply existsb_exists in E. destruct E as [n [Hn E]]. specialize (Hw n Hn).
    unfold fm_valid in E. cbn [fm_imfreq fm_first fm_last] in E. apply negb_true_iff, andb_false_iff in E. rewrite !Z.leb_gt in E. lia.
Qed.

Lemma True_closed : forall (Y : nat -> nat -> C) (k : nat) (s : nat -> R), (fun _ : nat -> nat -> C => True) Y -> (fun _ : nat -> nat -> C => True) (fun j c => Cmult (Y (k + j)%nat c) (RtoC (s j))).
Proof. intros; exact I. Qed.
Lemma hermitian_closed d : forall (Y : nat -> nat -> C) (k : nat) (s : nat -> R), hermitian_rows d Y -> hermitian_rows d (fun j c => Cmult (Y (k + j)%nat c) (RtoC (s j))).
Proof. intros Y k s H j a b Ha Hb. rewrite (H (k + j)%nat a b Ha Hb). apply Ceq; cbn; ring. Qed.

(** the number of moments *)
Lemma fit_order smin solve h f0 m n g nz km nk inner t err idx : (Z.of_nat (length km) <= tf_order f0)%Z ->
  fit_value smin solve h f0 m n g nz km nk inner = Ok (t, err) -> fit_indices f0 m = Ok idx ->
  (length km + 1 <= length idx / 2)%nat /\
  if tf_adjust f0 then (length km < length t)%nat /\ (length t <= 10)%nat /\ (length t <= length idx / 2 + 1)%nat else Z.of_nat (length t) = (tf_order f0 + 1)%Z.
Proof.
  intros Hk. unfold fit_value. destruct (h && _); [discriminate|]. destruct (fm_pos m); [discriminate|].
  destruct (tf_order f0 <? Z.of_nat (length km))%Z eqn:E; [apply Z.ltb_lt in E; lia|]. destruct (10 <=? length km)%nat; [discriminate|].
  intros HF Hi. rewrite Hi in HF. cbn [bind] in HF. destruct (bad m idx) eqn:Hb; [discriminate|].
  destruct (core smin h _ _ m (length km) idx) as [w| |] eqn:Hc; [|discriminate|discriminate]. cbn [bind] in HF. unfold finish in HF.
  destruct (existsb _ idx); [discriminate|]. destruct ((0 <? length km)%nat && negb (n =? nk)%nat); [discriminate|].
  destruct (solve h w n _ inner) as [X e]. injection HF as <- <-. rewrite app_length, map_length, seq_length.
  apply core_ok in Hc. destruct Hc as [N [-> [Hl Hc]]]. split; [exact Hl|]. cbn [columns m_cols]. destruct (tf_adjust f0); lia.
Qed.

(** * evaluation outside the mesh *)
Lemma fit_raw smin solve f0 m n g t err : fit_value smin solve false f0 m n g true [] 0 None = Ok (t, err) -> (0 <= tf_order f0)%Z ->
  exists t', fit_value smin solve false f0 m n g false [] 0 None = Ok (t', err) /\ length t' = length t /\ Cmod (fm_wmax m) <> 0 /\
    forall j c, (j < length t)%nat -> row t j c = Cmult (row t' j c) (RtoC (Cmod (fm_wmax m) ^ j)).
Proof.
  unfold fit_value. cbn [andb length]. destruct (fm_pos m); [discriminate|]. intros HF Ho.
  destruct (tf_order f0 <? Z.of_nat 0)%Z eqn:E; [apply Z.ltb_lt in E; lia|]. cbn [Nat.leb] in HF |- *.
  destruct (fit_indices f0 m) as [idx| |]; [|discriminate|discriminate]. cbn [bind] in HF |- *. destruct (bad m idx) eqn:Hb; [discriminate|].
  destruct (core smin false _ _ m 0 idx) as [w| |]; [|discriminate|discriminate]. cbn [bind] in HF |- *. unfold finish in HF |- *.
  destruct (existsb _ idx); [discriminate|]. cbn [length Nat.ltb Nat.leb andb] in HF |- *.
  destruct (solve false w n _ None) as [X e]. injection HF as <- <-. eexists. split; [reflexivity|]. cbn [app]. rewrite !map_length, seq_length. split; [reflexivity|].
  split; [apply (bad_false m idx Hb)|]. intros j c Hj. unfold row.
  rewrite (nth_indep _ (fun _ => RtoC 0) ((fun i c => Cmult (X i c) (RtoC (acc_pow (Cmod (fm_wmax m)) (0 + i)))) 0%nat)) by (rewrite map_length, seq_length; exact Hj).
  rewrite map_nth with (f := fun i c => Cmult (X i c) (RtoC (acc_pow (Cmod (fm_wmax m)) (0 + i)))).
  rewrite (nth_indep _ (fun _ => RtoC 0) ((fun i c => X i c) 0%nat)) by (rewrite map_length, seq_length; exact Hj).
  rewrite map_nth with (f := fun i c => X i c). rewrite seq_nth by exact Hj. rewrite acc_pow_pow. reflexivity.
Qed.
Lemma eval_acc (A : rows) x c : forall s z, fst (fold_left (fun st (a : nat -> C) => (Cplus (fst st) (Cmult (a c) (snd st)), Cmult (snd st) x)) A (s, z)) =
  Cplus s (Cmult z (total (length A) (fun k => Cmult (row A k c) (power x k)))).
Proof.
  induction A as [|a A IH]; intros s z; [cbn [fold_left fst length]; change (total 0 (fun k => Cmult (row [] k c) (power x k))) with (RtoC 0); ring|].
  cbn [fold_left fst snd]. rewrite IH. cbn [length]. rewrite total_shift. change (row (a :: A) 0) with a. change (power x 0) with (RtoC 1).
  replace (total (length A) (fun j => Cmult (row (a :: A) (S j) c) (power x (S j)))) with (Cmult x (total (length A) (fun k => Cmult (row A k c) (power x k)))); [ring|].
  unfold total. rewrite <- csum_l. apply csum_ext. intros j _. change (row (a :: A) (S j)) with (row A j). rewrite power_S. ring.
Qed.
Lemma eval_outside smin solve us m n g f t err : if_pos m = false -> if_valid m (fr_n f) = false -> fr_value f <> 0 ->
  (0 <= tf_order (get_tail_fitter (unused us)))%Z ->
  snd (fit_tail smin solve (history smin solve (fm_imfreq m) us) (fm_imfreq m) n g [] 0) = Ok (t, err) ->
  exists v, snd (eval_iw smin solve (history smin solve (fm_imfreq m) us) m n g f) = Ok v /\ forall c, v c = expansion (length t) (row t) (0, fr_value f) c.
Proof.
  intros Hp Hv Hf Ho HF. rewrite fit_tail_value in HF. destruct (fit_raw _ _ _ _ _ _ _ _ HF Ho) as [t' (HR & HL & Hom & Hrow)].
  unfold eval_iw. rewrite Hv, Hp. rewrite <- (fit_raw_value smin solve (fm_imfreq m) us n g) in HR.
  destruct (fit_tail_no_normalize smin solve (history smin solve (fm_imfreq m) us) (fm_imfreq m) n g) as [hd r]. cbn [snd] in HR |- *. subst r. cbn [bind].
  destruct (Req_EM_T (fr_value f) 0); [contradiction|]. eexists. split; [reflexivity|]. intros c. cbn [fst]. rewrite eval_acc, HL, Cplus_0_l, Cmult_1_l. unfold expansion.
  apply total_ext. intros j Hj. rewrite Hrow by exact Hj. assert (Hc : (0, fr_value f) <> RtoC 0) by (intros E; apply Hf; apply (f_equal snd) in E; exact E).
  rewrite power_div, power_R by exact Hc. field. apply power_nz; exact Hc.
Qed.

(** * hermitian least-squares solutions exist *)
Lemma Cmod_conj z : Cmod (Cconj z) = Cmod z.
Proof. unfold Cmod, Cconj. cbn. f_equal. ring. Qed.
Lemma Cconj_conj z : Cconj (Cconj z) = z. Proof. apply Ceq; cbn; ring. Qed.
Lemma Cplus_conj x y : Cconj (Cplus x y) = Cplus (Cconj x) (Cconj y). Proof. apply Ceq; cbn; ring. Qed.
Lemma Copp_conj x : Cconj (Copp x) = Copp (Cconj x). Proof. apply Ceq; cbn; ring. Qed.
Definition stack (n : nat) (A : nat -> nat -> C) : nat -> nat -> C := fun i j => if (i <? n)%nat then A i j else Cconj (A (i - n)%nat j).
Definition stackB (n d : nat) (B : nat -> nat -> C) (a b : nat) : nat -> C := fun i => if (i <? n)%nat then B i (a * d + b)%nat else Cconj (B (i - n)%nat (b * d + a)%nat).
Definition hsq (n p d : nat) (A B : nat -> nat -> C) (a b : nat) (x : nat -> C) : R :=
  rsum n (fun i => Cmod (Cminus (comb p A x i) (B i (a * d + b)%nat)) ^ 2) + rsum n (fun i => Cmod (Cminus (comb p A (fun j => Cconj (x j)) i) (B i (b * d + a)%nat)) ^ 2).
Lemma rsum_app n k f : rsum (n + k) f = rsum n f + rsum k (fun i => f (n + i)%nat).
Proof. induction k as [|k IH]; [rewrite Nat.add_0_r; cbn; lra|]. rewrite Nat.add_succ_r. cbn [rsum]. rewrite IH. lra. Qed.
Lemma comb_conj p A x i : Cconj (comb p A x i) = comb p (fun i j => Cconj (A i j)) (fun j => Cconj (x j)) i.
Proof. unfold comb, total. rewrite csum_conj. apply csum_ext. intros j _. apply Ceq; cbn; ring. Qed.
Lemma hsq_stack n p d A B a b x : rsum (n + n) (fun i => Cmod (Cminus (comb p (stack n A) x i) (stackB n d B a b i)) ^ 2) = hsq n p d A B a b x.
Proof.
  rewrite rsum_app. unfold hsq. f_equal; apply rsum_ext; intros i Hi; f_equal.
  - unfold comb, stack, stackB. apply Nat.ltb_lt in Hi. rewrite Hi. reflexivity.
  - rewrite <- Cmod_conj. f_equal. unfold stackB, comb, stack. replace (n + i <? n)%nat with false by (symmetry; apply Nat.ltb_ge; lia). replace (n + i - n)%nat with i by lia.
    unfold Cminus. rewrite Cplus_conj, Copp_conj, Cconj_conj. f_equal. unfold total. rewrite csum_conj. apply csum_ext. intros j _. apply Ceq; cbn; ring.
Qed.
Lemma rsum_prod d e f : rsum (d * e) f = rsum d (fun a => rsum e (fun b => f (a * e + b)%nat)).
Proof. induction d as [|d IH]; [reflexivity|]. cbn [rsum]. rewrite <- IH. replace (S d * e)%nat with (d * e + e)%nat by lia. apply rsum_app. Qed.
Lemma hsq_sym n p d A B a b x : hsq n p d A B a b (fun j => Cconj (x j)) = hsq n p d A B b a x.
Proof.
  unfold hsq. rewrite Rplus_comm. f_equal. apply rsum_ext. intros i _. do 3 f_equal. unfold comb. apply total_ext. intros j _. rewrite Cconj_conj. reflexivity.
Qed.
Lemma half_sq u v : Cmod (Cmult (RtoC (1 / 2)) (Cplus u v)) ^ 2 <= (Cmod u ^ 2 + Cmod v ^ 2) / 2.
Proof. rewrite !Cmod_sq2. destruct u as [u1 u2], v as [v1 v2]. cbn [fst snd Cmult Cplus RtoC].
  pose proof (pow2_ge_0 (u1 - v1)). pose proof (pow2_ge_0 (u2 - v2)). match goal with |- ?l <= _ => replace l with (((u1 + v1) ^ 2 + (u2 + v2) ^ 2) / 4) by field end. lra. Qed.
Definition mid (x y : nat -> C) (j : nat) : C := Cmult (RtoC (1 / 2)) (Cplus (x j) (y j)).
Lemma comb_mid p A x y i z : Cminus (comb p A (mid x y) i) z = Cmult (RtoC (1 / 2)) (Cplus (Cminus (comb p A x i) z) (Cminus (comb p A y i) z)).
Proof.
  replace (comb p A (mid x y) i) with (Cmult (RtoC (1 / 2)) (Cplus (comb p A x i) (comb p A y i))).
  - apply Ceq; cbn; field.
  - unfold comb, total. rewrite <- csum_add, <- csum_l. apply csum_ext. intros j _. unfold mid. ring.
Qed.
Lemma rsum_half n f g h : (forall i, (i < n)%nat -> f i <= (g i + h i) / 2) -> rsum n f <= (rsum n g + rsum n h) / 2.
Proof. induction n as [|n IH]; intros H; [cbn; lra|]. cbn [rsum]. specialize (H n (le_n _)) as Hn. assert (rsum n f <= (rsum n g + rsum n h) / 2) by (apply IH; intros; apply H; lia). lra. Qed.
Lemma hsq_mid n p d A B a b x y : hsq n p d A B a b (mid x y) <= (hsq n p d A B a b x + hsq n p d A B a b y) / 2.
Proof.
  unfold hsq.
  assert (H1 : rsum n (fun i => Cmod (Cminus (comb p A (mid x y) i) (B i (a * d + b)%nat)) ^ 2) <=
     (rsum n (fun i => Cmod (Cminus (comb p A x i) (B i (a * d + b)%nat)) ^ 2) + rsum n (fun i => Cmod (Cminus (comb p A y i) (B i (a * d + b)%nat)) ^ 2)) / 2).
  { apply rsum_half. intros i _. rewrite comb_mid. apply half_sq. }
  assert (H2 : rsum n (fun i => Cmod (Cminus (comb p A (fun j => Cconj (mid x y j)) i) (B i (b * d + a)%nat)) ^ 2) <=
     (rsum n (fun i => Cmod (Cminus (comb p A (fun j => Cconj (x j)) i) (B i (b * d + a)%nat)) ^ 2) + rsum n (fun i => Cmod (Cminus (comb p A (fun j => Cconj (y j)) i) (B i (b * d + a)%nat)) ^ 2)) / 2).
  { apply rsum_half. intros i _.
    replace (comb p A (fun j => Cconj (mid x y j)) i) with (comb p A (mid (fun j => Cconj (x j)) (fun j => Cconj (y j))) i); [rewrite comb_mid; apply half_sq|].
    unfold comb. apply total_ext. intros j _. f_equal. unfold mid. apply Ceq; cbn; ring. }
  lra.
Qed.
Definition hsol (n p d : nat) (A B : nat -> nat -> C) (j c : nat) : C :=
  let x a b := lsq (n + n) p (stack n A) (stackB n d B a b) in
  mid (x (c / d)%nat (c mod d)%nat) (fun j => Cconj (x (c mod d)%nat (c / d)%nat j)) j.
Lemma hsol_at n p d A B j a b : (b < d)%nat ->
  hsol n p d A B j (a * d + b) = mid (lsq (n + n) p (stack n A) (stackB n d B a b)) (fun j => Cconj (lsq (n + n) p (stack n A) (stackB n d B b a) j)) j.
Proof. intros Hb. unfold hsol. replace ((a * d + b) / d)%nat with a by (rewrite Nat.div_add_l, Nat.div_small by lia; lia).
  replace ((a * d + b) mod d)%nat with b by (rewrite (Nat.add_comm (a * d) b), Nat.mod_add, Nat.mod_small by lia; reflexivity). reflexivity. Qed.
Lemma hsq_double n p d A B Y : hermitian_rows d Y -> rsum d (fun a => rsum d (fun b => hsq n p d A B a b (fun j => Y j (a * d + b)%nat))) = 2 * residual n p (d * d) A B Y.
Proof.
  intros H. unfold residual. rewrite (rsum_swap n (d * d)), rsum_prod.
  set (r := fun a b => rsum n (fun i => Cmod (Cminus (total p (fun j => Cmult (A i j) (Y j (a * d + b)%nat))) (B i (a * d + b)%nat)) ^ 2)).
  transitivity (rsum d (fun a => rsum d (fun b => r a b)) + rsum d (fun a => rsum d (fun b => r b a))).
  - rewrite <- rsum_plus. apply rsum_ext. intros a Ha. rewrite <- rsum_plus. apply rsum_ext. intros b Hb. unfold hsq. f_equal. apply rsum_ext. intros i _. do 3 f_equal.
    unfold comb. apply total_ext. intros j _. rewrite (H j b a Hb Ha). reflexivity.
  - rewrite (rsum_swap d d (fun a b => r b a)). unfold r. lra.
Qed.
Lemma hermitian_exist n p d A B : least_squares (hermitian_rows d) n p (d * d) A B (hsol n p d A B).
Proof.
  assert (HX : hermitian_rows d (hsol n p d A B)).
  { intros j a b Ha Hb. rewrite !hsol_at by assumption. unfold mid. apply Ceq; cbn; ring. }
  split; [exact HX|]. intros Y HY.
  enough (2 * residual n p (d * d) A B (hsol n p d A B) <= 2 * residual n p (d * d) A B Y) by lra.
  rewrite <- !hsq_double by assumption. apply rsum_le. intros a Ha. apply rsum_le. intros b Hb.
  set (y := fun j => Y j (a * d + b)%nat). set (x := lsq (n + n) p (stack n A) (stackB n d B a b)). set (x' := lsq (n + n) p (stack n A) (stackB n d B b a)).
  assert (H1 : hsq n p d A B a b x <= hsq n p d A B a b y) by (rewrite <- !hsq_stack; apply lsq_best).
  assert (H2 : hsq n p d A B a b (fun j => Cconj (x' j)) <= hsq n p d A B a b y).
  { rewrite hsq_sym. replace (hsq n p d A B a b y) with (hsq n p d A B b a (fun j => Cconj (y j))) by apply hsq_sym. rewrite <- !hsq_stack. apply lsq_best. }
  replace (hsq n p d A B a b (fun j => hsol n p d A B j (a * d + b))) with (hsq n p d A B a b (mid x (fun j => Cconj (x' j)))).
  - pose proof (hsq_mid n p d A B a b x (fun j => Cconj (x' j))). lra.
  - unfold hsq. f_equal; apply rsum_ext; intros i _; do 3 f_equal; unfold comb; apply total_ext; intros j _; rewrite hsol_at by exact Hb; reflexivity.
Qed.

(** * success of a fit with a given order *)
Lemma fit_succeeds smin solve h m n g nz km nk inner fr mx e r : 0 < if_beta m -> if_pos m = false ->
  n_fit_range (make_fitter fr mx (Some e)) (fm_imfreq m) = r -> (0 < r < if_last m)%Z -> (h = false \/ inner <> None) ->
  (Z.of_nat (length km) <= e)%Z -> (length km < 10)%nat -> (Z.of_nat (length km) + 1 <= Z.min r mx)%Z -> (km = [] \/ n = nk) ->
  exists t err, fit_value smin solve h (make_fitter fr mx (Some e)) (fm_imfreq m) n g nz km nk inner = Ok (t, err) /\ Z.of_nat (length t) = (e + 1)%Z.
Proof.
  intros Hb Hp Hr H0 Hh Hk Hk9 Hn Hc.
  destruct (window_facts (make_fitter fr mx (Some e)) m r Hp Hr ltac:(lia) ltac:(lia) ltac:(cbn [make_fitter tf_max]; lia)) as [idx (Hi & Hd & Hl & Hw & _)].
  destruct (window_good m r idx Hb Hp H0 Hw) as [Hbad Hval].
  assert (HF : exists t err, fit_value smin solve h (make_fitter fr mx (Some e)) (fm_imfreq m) n g nz km nk inner = Ok (t, err)).
  { unfold fit_value. replace (h && _) with false by (destruct h; [destruct inner; [reflexivity|destruct Hh; congruence]|reflexivity]).
    cbn [fm_imfreq fm_pos]. rewrite Hp. cbn [make_fitter tf_order tf_adjust]. replace (e <? Z.of_nat (length km))%Z with false by (symmetry; apply Z.ltb_ge; exact Hk).
    replace (10 <=? length km)%nat with false by (symmetry; apply Nat.leb_gt; exact Hk9). rewrite Hi. cbn [bind]. fold (fm_imfreq m). rewrite Hbad.
    unfold core. replace (length idx / 2 <? length km + 1)%nat with false.
    2: { symmetry. apply Nat.ltb_ge. rewrite Hl. cbn [make_fitter tf_max]. rewrite Nat.mul_comm, Nat.div_mul by lia. lia. }
    replace (10 <=? length km)%nat with false by (symmetry; apply Nat.leb_gt; exact Hk9). cbn [andb negb bind]. unfold finish. rewrite Hval.
    replace ((0 <? length km)%nat && negb (n =? nk)%nat) with false by (destruct Hc as [->| ->]; [reflexivity|rewrite Nat.eqb_refl, andb_false_r; reflexivity]).
    destruct (solve h _ n _ inner) as [X err]. eexists _, _. reflexivity. }
  destruct HF as [t [err HF]]. exists t, err. split; [exact HF|]. destruct (fit_order smin solve h (make_fitter fr mx (Some e)) _ _ _ _ _ _ _ _ _ _ Hk HF Hi) as [_ Ho]. exact Ho.
Qed.
Lemma fit_few_points smin solve h f0 m n g nz km nk inner r : 0 < if_beta m -> if_pos m = false ->
  n_fit_range f0 (fm_imfreq m) = r -> (0 < r < if_last m)%Z -> (0 < tf_max f0)%Z ->
  (Z.of_nat (length km) <= tf_order f0)%Z -> (length km < 10)%nat -> (Z.min r (tf_max f0) < Z.of_nat (length km) + 1)%Z ->
  fit_value smin solve h f0 (fm_imfreq m) n g nz km nk inner = Throw.
Proof.
  intros Hb Hp Hr H0 Hmx Hk Hk9 Hn.
  destruct (window_facts f0 m r Hp Hr ltac:(lia) ltac:(lia) Hmx) as [idx (Hi & Hd & Hl & Hw & _)].
  destruct (window_good m r idx Hb Hp H0 Hw) as [Hbad Hval].
  unfold fit_value. destruct (h && _); [reflexivity|]. cbn [fm_imfreq fm_pos]. rewrite Hp.
  replace (tf_order f0 <? Z.of_nat (length km))%Z with false by (symmetry; apply Z.ltb_ge; exact Hk).
  replace (10 <=? length km)%nat with false by (symmetry; apply Nat.leb_gt; exact Hk9). fold (fm_imfreq m). rewrite Hi. cbn [bind]. rewrite Hbad.
  unfold core. replace (length idx / 2 <? length km + 1)%nat with true; [reflexivity|].
  symmetry. apply Nat.ltb_lt. rewrite Hl, Nat.mul_comm, Nat.div_mul by lia. lia.
Qed.
Lemma fit_shape smin solve h f0 m n g nz km nk inner : km <> [] -> n <> nk -> (Z.of_nat (length km) <= tf_order f0)%Z ->
  forall x, fit_value smin solve h f0 m n g nz km nk inner <> Ok x.
Proof.
  intros Hkm Hn Hk x. unfold fit_value. destruct (h && _); [discriminate|]. destruct (fm_pos m); [discriminate|].
  replace (tf_order f0 <? Z.of_nat (length km))%Z with false by (symmetry; apply Z.ltb_ge; exact Hk).
  destruct (10 <=? length km)%nat; [discriminate|]. destruct (fit_indices f0 m); [|discriminate|discriminate]. cbn [bind]. destruct (bad m _); [discriminate|].
  destruct (core _ _ _ _ _ _ _); [|discriminate|discriminate]. cbn [bind]. unfold finish. destruct (existsb _ _); [discriminate|].
  replace ((0 <? length km)%nat && negb (n =? nk)%nat) with true; [discriminate|]. destruct km; [contradiction|]. apply Nat.eqb_neq in Hn. rewrite Hn. reflexivity.
Qed.
Lemma i_omega_value m i : i_omega (if_beta m) (if_stat m) i = (0, fr_value (if_freq m i)).
Proof. unfold i_omega, fr_value, if_freq. cbn [fr_n fr_stat fr_beta]. apply Ceq; cbn [fst snd Cmult Ci RtoC]; destruct (if_stat m); cbn [stat_int]; ring. Qed.

(** recovery of an expansion on a Matsubara mesh *)
Lemma recovers smin solve h f m n g km nk inner t err r (P : (nat -> nat -> C) -> Prop) mu :
  (forall Y k (s : nat -> R), P Y -> P (fun j c => Cmult (Y (k + j)%nat c) (RtoC (s j)))) ->
  (forall w B, least_squares P (m_rows w) (m_cols w) n (m_at w) B (fst (solve h w n B inner))) ->
  0 < if_beta m -> if_pos m = false -> n_fit_range f (fm_imfreq m) = r -> (0 < r < if_last m)%Z -> (0 < tf_max f)%Z ->
  (Z.of_nat (length km) <= tf_order f)%Z ->
  fit_value smin solve h f (fm_imfreq m) n g true km nk inner = Ok (t, err) ->
  (tf_adjust f = true \/ (Z.of_nat (length t) <= Z.of_nat (length km) + 2 * Z.min r (tf_max f))%Z) ->
  P mu -> (forall j c, (j < length km)%nat -> mu j c = row km j c) ->
  (forall i c, (if_first m <= i < if_first m + r \/ if_last m - r <= i < if_last m)%Z -> (c < n)%nat ->
     g (Z.to_nat (if_to_data m i)) c = expansion (length t) mu (i_omega (if_beta m) (if_stat m) i) c) ->
  forall j c, (j < length t)%nat -> (c < n)%nat -> row t j c = mu j c.
Proof.
  intros HP HS Hb Hp Hr H0 Hmx Hk HF Hc Pm Hm Hg.
  destruct (window_facts f m r Hp Hr ltac:(lia) ltac:(lia) Hmx) as [idx (Hi & Hd & Hl & Hw & _)].
  apply (fit_exact smin solve h f (fm_imfreq m) n g km nk inner t err P mu idx HP HS Hk HF Hi); [apply fm_value_nodup; assumption| |exact Pm|exact Hm|].
  - destruct (fit_order _ _ _ _ _ _ _ _ _ _ _ _ _ _ Hk HF Hi) as [Hle Ho]. destruct (tf_adjust f).
    + rewrite Hl in Ho, Hle. rewrite Nat.mul_comm, Nat.div_mul in Ho, Hle by lia. lia.
    + destruct Hc as [Hc|Hc]; [discriminate|]. lia.
  - intros i c Hin Hcn. specialize (Hw i Hin). specialize (Hg i c Hw Hcn). rewrite i_omega_value in Hg. exact Hg.
Qed.
