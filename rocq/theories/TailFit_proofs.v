(** Fits of high-frequency expansions: fitted frequencies, optimality and exactness *)
From Coq Require Import ZArith Reals List Bool Arith Lia Lra.
From Coquelicot Require Import Complex.
From Verif Require Import Base ThermalSpec Csum Matsubara LinMesh Fourier FourierSpec Fourier_dft Fourier_lat LegGfSpec LegGf_tail TailFit TailFitSpec TailFit_alg TailFit_hist.
Import ListNotations.
Local Open Scope R_scope.

(** * the fitted frequencies *)
Lemma int_part_bounds x : IZR (Int_part x) <= x < IZR (Int_part x) + 1.
Proof. pose proof (base_Int_part x). lra. Qed.
Lemma int_part_unique x z : IZR z <= x < IZR z + 1 -> Int_part x = z.
Proof.
  intros H. pose proof (int_part_bounds x). assert (IZR (Int_part x) < IZR (z + 1)) by (rewrite plus_IZR; lra). assert (IZR z < IZR (Int_part x + 1)) by (rewrite plus_IZR; lra).
  apply lt_IZR in H1. apply lt_IZR in H2. lia.
Qed.
Lemma trunc_neg x : x <= 0 -> x <= IZR (trunc x) < x + 1.
Proof.
  intros H. unfold trunc. destruct (Rle_dec 0 x) as [H0|H0].
  - assert (x = 0) as -> by lra. rewrite (int_part_unique 0 0) by lra. lra.
  - pose proof (int_part_bounds (- x)). rewrite opp_IZR. lra.
Qed.
Lemma trunc_pos x : 0 <= x -> IZR (trunc x) <= x < IZR (trunc x) + 1.
Proof. intros H. unfold trunc. destruct (Rle_dec 0 x); [apply int_part_bounds|lra]. Qed.

Lemma idx_length n : forall s a b, length (idx_loop n s a b) = (2 * n)%nat.
Proof. induction n as [|n IH]; intros s a b; [reflexivity|]. cbn [idx_loop length]. rewrite IH. lia. Qed.
Lemma idx_in n : forall s a b x, In x (idx_loop n s a b) -> exists j, (j < n)%nat /\ (x = trunc (a + INR j * s) \/ x = trunc (b + INR j * s)).
Proof.
  induction n as [|n IH]; intros s a b x H; [destruct H|]. destruct H as [<-|[<-|H]].
  - exists 0%nat. split; [lia|]. left. f_equal. cbn. lra.
  - exists 0%nat. split; [lia|]. right. f_equal. cbn. lra.
  - destruct (IH _ _ _ _ H) as [j [Hj E]]. exists (S j). split; [lia|]. rewrite S_INR. destruct E as [->| ->]; [left|right]; f_equal; lra.
Qed.
Lemma step_le n j s : (j < n)%nat -> 1 <= s -> INR j * s + 1 <= INR n * s.
Proof. intros H Hs. assert (INR j + 1 <= INR n) by (rewrite <- S_INR; apply le_INR; lia). assert (0 <= INR j) by apply pos_INR. nra. Qed.
Lemma idx_range n s a b lo hi x : 1 <= s -> a + INR n * s = IZR lo -> (lo <= 0)%Z -> 0 <= b -> b + INR n * s = IZR hi ->
  In x (idx_loop n s a b) -> (a <= IZR x /\ (x < lo)%Z) \/ (b - 1 < IZR x /\ (x < hi)%Z).
Proof.
  intros Hs Ha Hlo Hb Hhi H. apply idx_in in H. destruct H as [j [Hj E]]. pose proof (step_le n j s Hj Hs). assert (0 <= INR j * s) by (assert (0 <= INR j) by apply pos_INR; nra).
  apply IZR_le in Hlo as Hlo'. cbn in Hlo'. destruct E as [->| ->].
  - left. pose proof (trunc_neg (a + INR j * s)). split; [lra|]. apply lt_IZR. lra.
  - right. pose proof (trunc_pos (b + INR j * s)). split; [lra|]. apply lt_IZR. lra.
Qed.
Lemma idx_nodup n : forall s a b lo, 1 <= s -> a + INR n * s <= IZR lo -> (lo <= 0)%Z -> IZR lo <= b -> 0 <= b -> NoDup (idx_loop n s a b).
Proof.
  induction n as [|n IH]; intros s a b lo Hs Ha Hlo Hlb Hb; [constructor|].
  rewrite S_INR in Ha. assert (Pn : 0 <= INR n) by apply pos_INR. apply IZR_le in Hlo as Hlo'. cbn in Hlo'.
  assert (Na : a <= 0) by nra. pose proof (trunc_neg a Na) as Ta. pose proof (trunc_pos b Hb) as Tb.
  assert (Hin : forall x, In x (idx_loop n s (a + s) (b + s)) -> (a + s <= IZR x) /\ (IZR x < IZR lo \/ b + s - 1 < IZR x)).
  { intros x Hx. apply idx_in in Hx. destruct Hx as [j [Hj E]]. pose proof (step_le n j s Hj Hs). assert (0 <= INR j * s) by (assert (0 <= INR j) by apply pos_INR; nra).
    destruct E as [->| ->].
    - pose proof (trunc_neg (a + s + INR j * s)). split; [lra|]. left. lra.
    - pose proof (trunc_pos (b + s + INR j * s)). split; [lra|]. right. lra. }
  assert (Pns : 0 <= INR n * s) by nra. assert (La : IZR (trunc a) < IZR lo) by lra.
  cbn [idx_loop]. constructor; [|constructor].
  - intros [E|H].
    + apply (f_equal IZR) in E. assert (IZR (trunc a) < IZR (trunc b + 1)) by (rewrite plus_IZR; lra). 
      assert (lo <= trunc b)%Z. { assert (IZR lo < IZR (trunc b + 1)) by (rewrite plus_IZR; lra). apply lt_IZR in H0. lia. } apply IZR_le in H0. lra.
    + apply Hin in H. destruct H as [H _]. lra.
  - intros H. apply Hin in H. destruct H as [_ [H|H]].
    + assert (lo <= trunc b)%Z. { assert (IZR lo < IZR (trunc b + 1)) by (rewrite plus_IZR; lra). apply lt_IZR in H0. lia. } apply IZR_le in H0. lra.
    + lra.
  - apply (IH s (a + s) (b + s) lo); try assumption; lra.
Qed.

(** a Matsubara mesh with negative and positive frequencies; [r] frequencies at each end are in the window *)
Lemma window_facts f m r : if_pos m = false -> n_fit_range f (fm_imfreq m) = r -> (0 < r)%Z -> (r < if_last m)%Z -> (0 < tf_max f)%Z ->
  exists idx, fit_indices f (fm_imfreq m) = Ok idx /\ NoDup idx /\ length idx = (2 * Z.to_nat (Z.min r (tf_max f)))%nat /\
    (forall n, In n idx -> (if_first m <= n < if_first m + r \/ if_last m - r <= n < if_last m)%Z) /\
    hd_error idx = Some (if_first m).
Proof.
  intros Hp Hr H0 Hl Hm. unfold fit_indices, n_pts_in_tail. rewrite Hr. set (t := Z.min r (tf_max f)).
  assert (Ht : (0 < t <= r)%Z) by (unfold t; lia).
  destruct (t <? 0)%Z eqn:E; [apply Z.ltb_lt in E; lia|]. clear E. cbn [fm_imfreq fm_first fm_last].
  set (s := IZR r / IZR t).
  assert (Ti : INR (Z.to_nat t) = IZR t) by (rewrite INR_IZR_INZ, Z2Nat.id by lia; reflexivity).
  assert (Pt : 0 < IZR t) by (apply (IZR_lt 0); lia).
  assert (Hs : 1 <= s). { unfold s. apply (Rmult_le_reg_r (IZR t)); [exact Pt|]. unfold Rdiv. rewrite Rmult_assoc, Rinv_l by lra. assert (IZR t <= IZR r) by (apply IZR_le; lia). lra. }
  assert (Es : INR (Z.to_nat t) * s = IZR r) by (rewrite Ti; unfold s; field; lra).
  assert (Hf : (if_first m + r <= 0)%Z). { unfold if_first. rewrite Hp. unfold if_last in *. destruct (stat_eqb _ _); lia. }
  assert (Hb : 0 <= IZR (if_last m - r)) by (apply (IZR_le 0); lia).
  eexists. split; [reflexivity|]. split; [|split; [|split]].
  - apply (idx_nodup _ s _ _ (if_first m + r)%Z); [exact Hs|rewrite Es, plus_IZR; lra|exact Hf| |exact Hb]. apply IZR_le. lia.
  - apply idx_length.
  - intros n Hn. apply (idx_range _ s _ _ (if_first m + r) (if_last m)) in Hn; [|exact Hs|rewrite Es, plus_IZR; lra|exact Hf|exact Hb|rewrite Es, minus_IZR; lra].
    destruct Hn as [[H1 H2]|[H1 H2]].
    + left. apply le_IZR in H1. lia.
    + right. split; [|exact H2]. assert (IZR (if_last m - r - 1) < IZR n) by (rewrite (minus_IZR _ 1); lra). apply lt_IZR in H. lia.
  - destruct (Z.to_nat t) as [|q] eqn:Eq; [lia|]. cbn [idx_loop hd_error]. f_equal.
    assert (IZR (if_first m) <= 0) by (apply IZR_le; lia). pose proof (trunc_neg (IZR (if_first m)) H) as [A B].
    apply le_IZR in A. assert (IZR (trunc (IZR (if_first m))) < IZR (if_first m + 1)) by (rewrite plus_IZR; lra). apply lt_IZR in H1. lia.
Qed.

(** * sums of the expansion *)
Lemma acc_mul_power p n : acc_mul p n = power p n.
Proof. induction n as [|n IH]; [reflexivity|]. cbn [acc_mul]. rewrite IH, power_S. ring. Qed.
Lemma acc_pow_pow x n : acc_pow x n = x ^ n.
Proof. induction n as [|n IH]; [reflexivity|]. cbn [acc_pow pow]. rewrite IH. ring. Qed.
Lemma acc_div_pow x n : x <> 0 -> acc_div x n = / x ^ n.
Proof. intros Hx. induction n as [|n IH]; [cbn; field|]. cbn [acc_div pow]. rewrite IH. field. split; [apply pow_nonzero; exact Hx|exact Hx]. Qed.
Lemma power_plus z a b : power z (a + b) = Cmult (power z a) (power z b).
Proof. induction a as [|a IH]; [change (power z 0) with (RtoC 1); change (0 + b)%nat with b; ring|]. change (S a + b)%nat with (S (a + b)). rewrite !power_S, IH. ring. Qed.
Lemma power_div a b n : b <> RtoC 0 -> power (Cdiv a b) n = Cdiv (power a n) (power b n).
Proof. intros Hb. induction n as [|n IH]; [change (RtoC 1 = Cdiv (RtoC 1) (RtoC 1)); field; apply RtoC_nz; lra|]. rewrite !power_S, IH. field. split; [apply power_nz; exact Hb|exact Hb]. Qed.
Lemma power_R x n : power (RtoC x) n = RtoC (x ^ n).
Proof. induction n as [|n IH]; [reflexivity|]. rewrite power_S, IH. cbn [pow]. rewrite RtoC_mult. reflexivity. Qed.
Lemma total_split k n f : total (k + n) f = Cplus (total k f) (total n (fun j => f (k + j)%nat)).
Proof.
  revert f. induction k as [|k IH]; intros f; [change (total 0 f) with (RtoC 0); change (0 + n)%nat with n; change (fun j => f (0 + j)%nat) with (fun j => f j); rewrite Cplus_0_l; reflexivity|]. change (S k + n)%nat with (S (k + n)). rewrite !total_shift, IH. rewrite <- !Cplus_assoc. reflexivity.
Qed.
Lemma tail_eval_acc (A : rows) om c : om <> RtoC 0 -> forall s z, fst (fold_left (fun st (a : nat -> C) => (Cplus (fst st) (Cmult (a c) (snd st)), Cdiv (snd st) om)) A (s, z)) =
  Cplus s (Cmult z (total (length A) (fun k => Cdiv (row A k c) (power om k)))).
Proof.
  intros Ho. induction A as [|a A IH]; intros s z; [cbn [fold_left fst length]; change (total 0 (fun k => Cdiv (row [] k c) (power om k))) with (RtoC 0); ring|]. cbn [fold_left fst snd]. rewrite IH. cbn [length]. rewrite total_shift.
  change (row (a :: A) 0) with a. change (power om 0) with (RtoC 1).
  replace (total (length A) (fun j => Cdiv (row (a :: A) (S j) c) (power om (S j)))) with (Cdiv (total (length A) (fun k => Cdiv (row A k c) (power om k))) om).
  - field. split; [exact Ho|]. apply RtoC_nz. lra.
  - unfold Cdiv at 1. unfold total. rewrite <- csum_r. apply csum_ext. intros j _. change (row (a :: A) (S j)) with (row A j). rewrite power_S. field. split; [apply power_nz; exact Ho|exact Ho].
Qed.
Lemma tail_eval_expansion A om c : om <> RtoC 0 -> tail_eval A om c = expansion (length A) (row A) om c.
Proof. intros Ho. unfold tail_eval. rewrite tail_eval_acc by exact Ho. unfold expansion. ring. Qed.
Lemma fold_csum {A} (f : A -> C) xs : forall s, fold_left (fun s o => Cplus s (f o)) xs s = Cplus s (csum xs f).
Proof. induction xs as [|x xs IH]; intros s; [change (csum [] f) with (RtoC 0); cbn [fold_left]; ring|]. cbn [fold_left]. rewrite IH, csum_cons. ring. Qed.

Lemma expansion_ext k t t' w c : (forall j, (j < k)%nat -> t j c = t' j c) -> expansion k t w c = expansion k t' w c.
Proof. intros H. unfold expansion. apply total_ext. intros j Hj. rewrite H by exact Hj. reflexivity. Qed.

(** * optimality *)
Definition at_points (m : fmesh) (g : data) (idx : list Z) : list (C * (nat -> C)) := map (fun n => (fm_value m n, g (fm_to_data m n))) idx.
Lemma bad_false m idx : bad m idx = false -> (forall n, In n idx -> fm_value m n <> RtoC 0) /\ Cmod (fm_wmax m) <> 0.
Proof.
  unfold bad. intros H. apply orb_false_elim in H. destruct H as [H H']. split.
  - intros n Hn E. assert (existsb (fun n => if Req_EM_T (Cmod (fm_value m n)) 0 then true else false) idx = true); [|congruence].
    apply existsb_exists. exists n. split; [exact Hn|]. rewrite E, Cmod_0. destruct (Req_EM_T 0 0); [reflexivity|contradiction].
  - destruct (Req_EM_T _ 0); [discriminate|assumption].
Qed.

Section Best.
  Variable smin : bool -> cmat -> R.
  Variable solve : bool -> cmat -> nat -> data -> option nat -> data * R.

  (** the solver that is used *)
  Lemma core_ok h adj order m k idx w : core smin h adj order m k idx = Ok w ->
    exists n, w = columns (matrix m order idx) k n /\ (k + 1 <= length idx / 2)%nat /\
      (if adj then (Z.of_nat k <= n <= 9)%Z /\ (n <= Z.of_nat (length idx / 2))%Z /\ / 10 ^ 8 < smin h w else n = order).
  Proof.
    unfold core. destruct (length idx / 2 <? k + 1)%nat eqn:E1; [discriminate|]. apply Nat.ltb_ge in E1. destruct (10 <=? k)%nat; [discriminate|].
    destruct (adj && _); [discriminate|]. destruct adj; cbn [negb].
    - unfold search. destruct (find _ _) as [x|] eqn:Ef; [|discriminate]. intros E. injection E as <-.
      apply find_some in Ef. destruct Ef as [Hin Hs]. apply in_map_iff in Hin. destruct Hin as [i [<- Hi]]. apply in_seq in Hi.
      eexists. split; [reflexivity|]. split; [exact E1|]. unfold max_order in Hi |- *. split; [lia|]. split; [lia|]. destruct (Rlt_dec _ _) as [Hlt|]; [exact Hlt|discriminate].
    - intros E. injection E as <-. exists order. split; [reflexivity|]. split; [exact E1|reflexivity].
  Qed.

  Lemma nth_points m idx i : (i < length idx)%nat -> nth i (points m idx) (RtoC 0) = Cdiv (RtoC (Cmod (fm_wmax m))) (fm_value m (nth i idx 0%Z)).
  Proof.
    intros Hi. unfold points. rewrite (nth_indep _ (RtoC 0) (Cdiv (RtoC (Cmod (fm_wmax m))) (fm_value m 0))) by (rewrite map_length; exact Hi).
    rewrite map_nth with (f := fun n => Cdiv (RtoC (Cmod (fm_wmax m))) (fm_value m n)). reflexivity.
  Qed.

  (** data minus the known part *)
  Definition shifted (m : fmesh) (g : data) (km : rows) (idx : list Z) (i c : nat) : C :=
    Cminus (g (fm_to_data m (nth i idx 0%Z)) c) (expansion (length km) (row km) (fm_value m (nth i idx 0%Z)) c).

  Lemma residual_deviation m g n k cols idx v (B : data) (t X : nat -> nat -> C) order :
    bad m idx = false -> v = matrix m order idx ->
    (forall i c, (i < length idx)%nat -> B i c = Cminus (g (fm_to_data m (nth i idx 0%Z)) c) (expansion k t (fm_value m (nth i idx 0%Z)) c)) ->
    (forall j c, (j < cols)%nat -> t (k + j)%nat c = Cmult (X j c) (RtoC (Cmod (fm_wmax m) ^ (k + j)))) ->
    residual (length idx) cols n (fun i j => m_at v i (k + j)%nat) B X = deviation (at_points m g idx) n (k + cols) t.
  Proof.
    intros Hb -> HB HX. destruct (bad_false m idx Hb) as [Hv Ho]. unfold residual, deviation, at_points. rewrite map_length. apply rsum_ext. intros i Hi.
    rewrite (nth_indep _ (RtoC 0, fun _ => RtoC 0) (fm_value m 0%Z, g (fm_to_data m 0%Z))) by (rewrite map_length; exact Hi).
    rewrite map_nth with (f := fun n => (fm_value m n, g (fm_to_data m n))). apply rsum_ext. intros c _. f_equal. f_equal.
    rewrite HB by exact Hi. set (w := fm_value m (nth i idx 0%Z)). assert (Hw : w <> RtoC 0) by (apply Hv; apply nth_In; exact Hi).
    unfold expansion at 2. rewrite total_split. fold (expansion k t w c).
    replace (total cols (fun j => Cmult (m_at (matrix m order idx) i (k + j)) (X j c))) with (total cols (fun j => Cdiv (t (k + j)%nat c) (power w (k + j)))); [ring|].
    apply total_ext. intros j Hj. rewrite HX by exact Hj. unfold matrix, vander. cbn [m_at]. rewrite acc_mul_power, nth_points by exact Hi. fold w.
    rewrite power_div, power_R by exact Hw. field. apply power_nz; exact Hw.
  Qed.

  Lemma fit_best h f0 m n g km nk inner t err (P : (nat -> nat -> C) -> Prop) :
    (forall Y k (s : nat -> R), P Y -> P (fun j c => Cmult (Y (k + j)%nat c) (RtoC (s j)))) ->
    (forall w B, least_squares P (m_rows w) (m_cols w) n (m_at w) B (fst (solve h w n B inner))) ->
    (Z.of_nat (length km) <= tf_order f0)%Z ->
    fit_value smin solve h f0 m n g true km nk inner = Ok (t, err) ->
    exists idx w, fit_indices f0 m = Ok idx /\ bad m idx = false /\ core smin h (tf_adjust f0) (tf_order f0) m (length km) idx = Ok w /\
      (length t = length km + m_cols w)%nat /\ firstn (length km) t = km /\
      (exists X, P X /\ forall j c, (j < m_cols w)%nat -> row t (length km + j) c = Cmult (X j c) (RtoC (Cmod (fm_wmax m) ^ (length km + j)))) /\
      (forall t', P t' -> (forall j c, (j < length km)%nat -> t' j c = row km j c) -> deviation (at_points m g idx) n (length t) (row t) <= deviation (at_points m g idx) n (length t) t').
  Proof.
    intros HP HS Hk. unfold fit_value. destruct (h && _); [discriminate|]. destruct (fm_pos m); [discriminate|].
    destruct (tf_order f0 <? Z.of_nat (length km))%Z eqn:E; [apply Z.ltb_lt in E; lia|]. destruct (10 <=? length km)%nat; [discriminate|].
    destruct (fit_indices f0 m) as [idx| |]; [|discriminate|discriminate]. cbn [bind]. destruct (bad m idx) eqn:Hb; [discriminate|].
    destruct (core smin h _ _ m (length km) idx) as [w| |] eqn:Hc; [|discriminate|discriminate]. cbn [bind]. unfold finish.
    destruct (existsb _ idx); [discriminate|]. destruct ((0 <? length km)%nat && negb (n =? nk)%nat); [discriminate|].
    set (B := if (0 <? length km)%nat then _ else _). destruct (solve h w n B inner) as [X e] eqn:Es. intros E0. injection E0 as <- <-.
    exists idx, w. split; [reflexivity|]. split; [exact Hb|]. split; [exact Hc|].
    destruct (bad_false m idx Hb) as [Hv Ho]. set (om := Cmod (fm_wmax m)) in *. set (k := length km) in *.
    set (fitted := map (fun i c => Cmult (X i c) (RtoC (acc_pow om (k + i)))) (seq 0 (m_cols w))).
    assert (Lt : length (km ++ fitted) = (k + m_cols w)%nat) by (unfold fitted; rewrite app_length, map_length, seq_length; reflexivity).
    split; [exact Lt|]. split; [rewrite firstn_app, Nat.sub_diag, firstn_O, app_nil_r; apply firstn_all|].
    destruct (core_ok _ _ _ _ _ _ _ Hc) as [N [Hw [Hlen _]]].
    assert (Rw : m_rows w = length idx) by (rewrite Hw; unfold columns, matrix, vander, points; cbn [m_rows]; apply map_length).
    assert (Aw : m_at w = fun i j => m_at (matrix m (tf_order f0) idx) i (k + j)%nat) by (rewrite Hw; reflexivity).
    pose proof (HS w B) as [HX Hmin]. rewrite Es in HX, Hmin. cbn [fst] in HX, Hmin.
    assert (Rt : forall j c, (j < m_cols w)%nat -> row (km ++ fitted) (k + j) c = Cmult (X j c) (RtoC (om ^ (k + j)))).
    { intros j c Hj. unfold row, fitted. rewrite app_nth2 by (fold k; lia). fold k. replace (k + j - k)%nat with j by lia.
      rewrite (nth_indep _ _ ((fun i c => Cmult (X i c) (RtoC (acc_pow om (k + i)))) 0%nat)) by (rewrite map_length, seq_length; exact Hj).
      rewrite map_nth with (f := fun i c => Cmult (X i c) (RtoC (acc_pow om (k + i)))). rewrite seq_nth by exact Hj. cbn [plus]. rewrite acc_pow_pow. reflexivity. }
    assert (Rk : forall j c, (j < k)%nat -> row (km ++ fitted) j c = row km j c).
    { intros j c Hj. unfold row. rewrite app_nth1 by exact Hj. reflexivity. }
    assert (HB : forall i c, (i < length idx)%nat -> B i c = Cminus (g (fm_to_data m (nth i idx 0%Z)) c) (expansion k (row km) (fm_value m (nth i idx 0%Z)) c)).
    { intros i c Hi. unfold B, expansion, total. destruct (0 <? k)%nat eqn:E0.
      - f_equal. rewrite (fold_csum (fun o => Cmult (m_at (matrix m (tf_order f0) idx) i o) (Cmult (RtoC (acc_div om o)) (row km o c)))). rewrite Cplus_0_l. apply csum_ext. intros o _.
        unfold matrix, vander. cbn [m_at]. rewrite acc_mul_power, nth_points by exact Hi. fold om. assert (Hwi : fm_value m (nth i idx 0%Z) <> RtoC 0) by (apply Hv; apply nth_In; exact Hi).
        rewrite power_div, power_R, acc_div_pow, RtoC_inv by (try apply pow_nonzero; assumption). field. split; [apply power_nz; exact Hwi|apply RtoC_nz; apply pow_nonzero; exact Ho].
      - apply Nat.ltb_ge in E0. assert (k = 0%nat) as -> by lia. change (csum (seq 0 0) _) with (RtoC 0). ring. }
    split; [exists X; split; [exact HX|exact Rt]|].
    intros t' Pt' Ht'. rewrite Lt.
    rewrite <- (residual_deviation m g n k (m_cols w) idx _ B (row (km ++ fitted)) X (tf_order f0) Hb eq_refl).
    2: { intros i c Hi. rewrite HB by exact Hi. f_equal. apply expansion_ext. intros j Hj. symmetry. apply Rk; exact Hj. }
    2: { exact Rt. }
    rewrite <- (residual_deviation m g n k (m_cols w) idx _ B t' (fun j c => Cmult (t' (k + j)%nat c) (RtoC (/ om ^ (k + j)))) (tf_order f0) Hb eq_refl).
    2: { intros i c Hi. rewrite HB by exact Hi. f_equal. apply expansion_ext. intros j Hj. symmetry. apply Ht'; exact Hj. }
    2: { intros j c _. fold om. rewrite RtoC_inv by (apply pow_nonzero; exact Ho). field. apply RtoC_nz; apply pow_nonzero; exact Ho. }
    rewrite <- Aw, <- Rw. apply Hmin. apply (HP t' k (fun j => / om ^ (k + j))). exact Pt'.
  Qed.
End Best.

Lemma csum_l_sub {A} (f g : A -> C) xs : csum xs (fun x => Cminus (f x) (g x)) = Cminus (csum xs f) (csum xs g).
Proof. induction xs as [|x xs IH]; [change (RtoC 0 = Cminus (RtoC 0) (RtoC 0)); ring|]. rewrite !csum_cons, IH. ring. Qed.

(** * exactness *)
Lemma deviation_zero pts n K t : deviation pts n K t <= 0 -> forall w g c, In (w, g) pts -> (c < n)%nat -> expansion K t w c = g c.
Proof.
  intros H w g c Hin Hc. destruct (In_nth pts (w, g) (RtoC 0, fun _ => RtoC 0) Hin) as [i [Hi Ei]].
  unfold deviation in H.
  assert (N : forall i, (i < length pts)%nat -> 0 <= (let (w, g) := nth i pts (RtoC 0, fun _ => RtoC 0) in rsum n (fun c => Cmod (Cminus (expansion K t w c) (g c)) ^ 2))).
  { intros j _. destruct (nth j pts _). apply rsum_nonneg. intros; apply pow2_ge_0. }
  pose proof (rsum_zero _ _ N H i Hi) as Z. cbv beta in Z. rewrite Ei in Z.
  pose proof (rsum_zero n _ (fun k _ => pow2_ge_0 _) (Req_le _ _ Z) c Hc) as Z'. cbv beta in Z'. apply Cmod2_zero in Z'.
  replace (expansion K t w c) with (Cplus (Cminus (expansion K t w c) (g c)) (g c)) by ring. rewrite Z'. ring.
Qed.
Lemma deviation_exact pts n K t : (forall w g c, In (w, g) pts -> (c < n)%nat -> expansion K t w c = g c) -> deviation pts n K t = 0.
Proof.
  intros H. unfold deviation. apply rsum_zeros. intros i Hi. destruct (nth i pts _) as [w g] eqn:E. apply rsum_zeros. intros c Hc.
  rewrite (H w g c); [|rewrite <- E; apply nth_In; exact Hi|exact Hc]. replace (Cminus (g c) (g c)) with (RtoC 0) by ring. rewrite Cmod_0. ring.
Qed.
Lemma expansion_pol K t w c : w <> RtoC 0 -> expansion K t w c = pol K (fun j => t j c) (Cinv w).
Proof.
  intros Hw. unfold expansion, pol. apply total_ext. intros j _. unfold Cdiv. f_equal.
  induction j as [|j IH]; [change (Cinv (RtoC 1) = RtoC 1); field; apply RtoC_nz; lra|]. rewrite !power_S, <- IH. field. split; [apply power_nz; exact Hw|exact Hw].
Qed.
(** two expansions with the same first [k] moments that agree at enough frequencies are the same *)
Lemma expansions_agree k q t t' c ws : NoDup ws -> (forall w, In w ws -> w <> RtoC 0) -> (q <= length ws)%nat ->
  (forall j, (j < k)%nat -> t j c = t' j c) -> (forall w, In w ws -> expansion (k + q) t w c = expansion (k + q) t' w c) ->
  forall j, (j < k + q)%nat -> t j c = t' j c.
Proof.
  intros Hd Hnz Hq Hk Hw j Hj. destruct (Nat.lt_ge_cases j k) as [Hjk|Hjk]; [apply Hk; exact Hjk|].
  set (a := fun i => Cminus (t (k + i)%nat c) (t' (k + i)%nat c)).
  assert (Inj : forall w w', w <> RtoC 0 -> w' <> RtoC 0 -> Cinv w = Cinv w' -> w = w').
  { intros w w' H H' E. transitivity (Cmult w (Cmult (Cinv w') w')); [field; exact H'|]. rewrite <- E. field. exact H. }
  assert (Hd' : NoDup (map Cinv ws)).
  { clear - Hd Hnz Inj. induction ws as [|w ws IH]; [constructor|]. inversion Hd; subst. cbn [map]. constructor.
    - intros Hin. apply in_map_iff in Hin. destruct Hin as [w' [E Hw']]. apply H1. replace w with w'; [exact Hw'|]. apply Inj; [apply Hnz; right; exact Hw'|apply Hnz; left; reflexivity|exact E].
    - apply IH; [assumption|]. intros x Hx. apply Hnz. right. exact Hx. }
  assert (Z : forall i, (i < q)%nat -> a i = RtoC 0).
  { apply (pol_roots q a (map Cinv ws) Hd'); [rewrite map_length; exact Hq|]. intros x Hx. apply in_map_iff in Hx. destruct Hx as [w [<- Hin]]. specialize (Hnz w Hin). specialize (Hw w Hin).
    unfold expansion in Hw. rewrite !total_split in Hw. replace (total k (fun j => Cdiv (t j c) (power w j))) with (total k (fun j => Cdiv (t' j c) (power w j))) in Hw by (apply total_ext; intros; rewrite Hk by assumption; reflexivity).
    assert (E : total q (fun j => Cdiv (a j) (power w (k + j))) = RtoC 0).
    { unfold total in *. apply (f_equal (fun z => Cminus z (csum (seq 0 k) (fun j => Cdiv (t' j c) (power w j))))) in Hw.
      replace (csum (seq 0 q) (fun j => Cdiv (a j) (power w (k + j)))) with (Cminus (csum (seq 0 q) (fun j => Cdiv (t (k + j)%nat c) (power w (k + j)))) (csum (seq 0 q) (fun j => Cdiv (t' (k + j)%nat c) (power w (k + j))))).
      - match type of Hw with Cminus (Cplus ?u ?v) _ = Cminus (Cplus _ ?z) _ => replace v with (Cminus (Cplus u v) u) by ring; replace z with (Cminus (Cplus u z) u) by ring end. rewrite Hw. ring.
      - rewrite <- csum_l_sub. apply csum_ext. intros i _. unfold a. field. apply power_nz; exact Hnz. }
    rewrite <- (Cmult_1_l (pol q a (Cinv w))).
    assert (Pz : power w k <> RtoC 0) by (apply power_nz; exact Hnz).
    replace (RtoC 1) with (Cmult (power w k) (Cinv (power w k))) by (field; exact Pz). rewrite <- Cmult_assoc.
    replace (Cmult (Cinv (power w k)) (pol q a (Cinv w))) with (RtoC 0); [ring|]. rewrite <- E. symmetry.
    pose proof (expansion_pol q (fun i _ => a i) w c Hnz) as Ep. unfold expansion in Ep. change (fun j : nat => a j) with a in Ep. rewrite <- Ep. unfold total. rewrite <- csum_l. apply csum_ext. intros i _. rewrite power_plus. field. split; [apply power_nz; exact Hnz|exact Pz]. }
  specialize (Z (j - k)%nat ltac:(lia)). unfold a in Z. replace (k + (j - k))%nat with j in Z by lia.
  replace (t j c) with (Cplus (Cminus (t j c) (t' j c)) (t' j c)) by ring. rewrite Z. ring.
Qed.

Lemma fit_exact smin solve h f0 m n g km nk inner t err (P : (nat -> nat -> C) -> Prop) mu idx :
  (forall Y k (s : nat -> R), P Y -> P (fun j c => Cmult (Y (k + j)%nat c) (RtoC (s j)))) ->
  (forall w B, least_squares P (m_rows w) (m_cols w) n (m_at w) B (fst (solve h w n B inner))) ->
  (Z.of_nat (length km) <= tf_order f0)%Z ->
  fit_value smin solve h f0 m n g true km nk inner = Ok (t, err) ->
  fit_indices f0 m = Ok idx -> NoDup (map (fm_value m) idx) -> (length t <= length km + length idx)%nat ->
  P mu -> (forall j c, (j < length km)%nat -> mu j c = row km j c) ->
  (forall i c, In i idx -> (c < n)%nat -> g (fm_to_data m i) c = expansion (length t) mu (fm_value m i) c) ->
  forall j c, (j < length t)%nat -> (c < n)%nat -> row t j c = mu j c.
Proof.
  intros HP HS Hk HF Hi Hd Hl Pm Hm Hg j c Hj Hc.
  destruct (fit_best smin solve h f0 m n g km nk inner t err P HP HS Hk HF) as [idx' [w (Hi' & Hb & Hco & Lt & Fk & _ & Hbest)]].
  rewrite Hi in Hi'. injection Hi' as <-.
  assert (Hz : deviation (at_points m g idx) n (length t) (row t) <= 0).
  { eapply Rle_trans; [apply (Hbest mu Pm Hm)|]. right. apply deviation_exact. intros w0 g0 c0 Hin Hc0. apply in_map_iff in Hin. destruct Hin as [i [E Hin]]. injection E as <- <-. symmetry. apply Hg; assumption. }
  rewrite Lt in Hj. apply (expansions_agree (length km) (m_cols w) (row t) mu c (map (fm_value m) idx)); [exact Hd| | | | |exact Hj].
  - intros x Hx. apply in_map_iff in Hx. destruct Hx as [i [<- Hin]]. apply (bad_false m idx Hb). exact Hin.
  - rewrite map_length. lia.
  - intros i Hik. rewrite Hm by exact Hik. unfold row. rewrite <- (firstn_skipn (length km) t). rewrite Fk, app_nth1 by exact Hik. reflexivity.
  - intros x Hx. apply in_map_iff in Hx. destruct Hx as [i [<- Hin]]. rewrite <- Lt.
    rewrite (deviation_zero _ n _ _ Hz (fm_value m i) (g (fm_to_data m i)) c); [|apply in_map_iff; exists i; split; [reflexivity|exact Hin]|exact Hc].
    apply Hg; assumption.
Qed.
