From Coq Require Import ZArith List Bool Lia FinFun.
From Verif Require Import Base Mesh.
Import ListNotations.
Local Open Scope Z_scope.

Lemma range_ok L : 0 <= L -> mesh_ok (range_mesh L).
Proof.
  intros HL. unfold mesh_ok, range_mesh; cbn [ms_size ms_valid ms_data ms_index]. split; [exact HL|]. split.
  - intros i. unfold range_valid. destruct i as [|x [|y i]]; try discriminate. rewrite andb_true_iff, Z.leb_le, Z.ltb_lt. intros H. split; [lia|reflexivity].
  - intros d Hd. unfold range_valid. rewrite andb_true_iff, Z.leb_le, Z.ltb_lt. split; [lia|reflexivity].
Qed.

Definition cyc_ok (m : cyc) : Prop := 1 <= cy_d0 m /\ 1 <= cy_d1 m /\ 1 <= cy_d2 m.

Lemma pos_mod r d : 1 <= d -> positive_modulo r d = r mod d.
Proof.
  intros Hd. unfold positive_modulo. destruct (Z.leb_spec 0 (Z.rem r d)) as [H|H].
  - destruct (Z_le_gt_dec 0 r) as [Hr|Hr]; [apply Z.rem_mod_nonneg; lia|].
    assert (Hneg : Z.rem r d <= 0) by (apply Z.rem_nonpos; lia). assert (E : Z.rem r d = 0) by lia. rewrite E. symmetry.
    apply Z.mod_divide; [lia|]. apply Z.rem_divide; [lia|exact E].
  - pose proof (Z.quot_rem r d ltac:(lia)) as E. pose proof (Z.rem_bound_abs r d ltac:(lia)) as B.
    apply (Z.mod_unique r d (Z.quot r d - 1)); lia.
Qed.

Lemma cy_valid_iff m a b c : cy_valid m [a; b; c] = true <-> 0 <= a < cy_d0 m /\ 0 <= b < cy_d1 m /\ 0 <= c < cy_d2 m.
Proof. unfold cy_valid. rewrite !andb_true_iff, !negb_true_iff, !orb_false_iff, !Z.ltb_ge, !Z.leb_gt. tauto. Qed.

Lemma cyc_mesh_ok m : cyc_ok m -> mesh_ok (cyc_mesh m).
Proof.
  intros (H0 & H1 & H2). destruct m as [d0 d1 d2]; cbn [cy_d0 cy_d1 cy_d2] in *.
  unfold mesh_ok, cyc_mesh; cbn [ms_size ms_valid ms_data ms_index]. unfold cy_size, cy_data, cy_index, cy_stride0, cy_stride1; cbn [cy_d0 cy_d1 cy_d2].
  split; [nia|]. split.
  - intros i Hi. destruct i as [|a [|b [|c [|x i]]]]; try discriminate. apply cy_valid_iff in Hi. cbn [cy_d0 cy_d1 cy_d2] in Hi. destruct Hi as (Ha & Hb & Hc).
    assert (Hbc : 0 <= b * d2 + c < d1 * d2) by nia.
    assert (Hall : 0 <= a * (d1 * d2) + b * d2 + c) by nia.
    assert (E0 : Z.quot (a * (d1 * d2) + b * d2 + c) (d1 * d2) = a).
    { rewrite Z.quot_div_nonneg by nia. symmetry. apply (Z.div_unique _ _ a (b * d2 + c)); [left; exact Hbc|ring]. }
    assert (E1 : Z.rem (a * (d1 * d2) + b * d2 + c) (d1 * d2) = b * d2 + c).
    { rewrite Z.rem_mod_nonneg by nia. symmetry. apply (Z.mod_unique _ _ a); [left; exact Hbc|ring]. }
    assert (E2 : Z.quot (b * d2 + c) d2 = b).
    { rewrite Z.quot_div_nonneg by nia. symmetry. apply (Z.div_unique _ _ b c); [left; exact Hc|ring]. }
    assert (E3 : Z.rem (b * d2 + c) d2 = c).
    { rewrite Z.rem_mod_nonneg by nia. symmetry. apply (Z.mod_unique _ _ b); [left; exact Hc|ring]. }
    split; [|rewrite E0, E1, E2, E3; reflexivity]. split; [exact Hall|].
    assert (a * (d1 * d2) <= (d0 - 1) * (d1 * d2)) by (apply Z.mul_le_mono_nonneg_r; nia). nia.
  - intros d Hd. set (s0 := d1 * d2) in *. assert (Hs : 1 <= s0) by (unfold s0; nia).
    assert (E : d0 * d1 * d2 = d0 * s0) by (unfold s0; ring).
    rewrite Z.quot_div_nonneg, Z.rem_mod_nonneg by lia.
    pose proof (Z.mod_pos_bound d s0 ltac:(lia)) as Hr. rewrite Z.quot_div_nonneg, Z.rem_mod_nonneg by lia.
    pose proof (Z.mod_pos_bound (d mod s0) d2 ltac:(lia)) as Hr2.
    pose proof (Z.div_mod d s0 ltac:(lia)) as D1. pose proof (Z.div_mod (d mod s0) d2 ltac:(lia)) as D2.
    split; [|nia]. apply cy_valid_iff; cbn [cy_d0 cy_d1 cy_d2].
    split; [|split; [|lia]].
    + split; [apply Z.div_pos; lia|]. apply Z.div_lt_upper_bound; nia.
    + split; [apply Z.div_pos; lia|]. apply Z.div_lt_upper_bound; unfold s0 in *; nia.
Qed.

(** index_modulo: the unique valid index congruent to the given one *)
Definition congruent (m : cyc) (r r' : idx) : Prop :=
  match r, r' with
  | [a; b; c], [a'; b'; c'] => (exists k, a' = a + k * cy_d0 m) /\ (exists k, b' = b + k * cy_d1 m) /\ (exists k, c' = c + k * cy_d2 m)
  | _, _ => False
  end.

Lemma mod_cong a d : 1 <= d -> exists k, a mod d = a + k * d.
Proof. intros Hd. exists (- (a / d)). rewrite Z.mod_eq by lia. ring. Qed.
Lemma cong_mod a a' d k : 1 <= d -> a' = a + k * d -> 0 <= a' < d -> a' = a mod d.
Proof. intros Hd -> Hr. apply (Z.mod_unique a d (- k)); lia. Qed.

Lemma thm_modulo m a b c : cyc_ok m ->
  cy_valid m (cy_modulo m [a; b; c]) = true /\ congruent m [a; b; c] (cy_modulo m [a; b; c]) /\
  forall r', cy_valid m r' = true -> congruent m [a; b; c] r' -> r' = cy_modulo m [a; b; c].
Proof.
  intros (H0 & H1 & H2). unfold cy_modulo. rewrite !pos_mod by assumption. split; [|split].
  - apply cy_valid_iff. repeat split; apply Z.mod_pos_bound; lia.
  - repeat split; apply mod_cong; assumption.
  - intros r' Hv Hc. destruct r' as [|a' [|b' [|c' [|x r']]]]; try discriminate. apply cy_valid_iff in Hv. destruct Hc as ((k & Ea) & (k' & Eb) & (k'' & Ec)).
    f_equal; [|f_equal; [|f_equal]]; eapply cong_mod; eauto; tauto.
Qed.
Lemma thm_modulo_valid m r : cyc_ok m -> cy_valid m r = true -> cy_modulo m r = r.
Proof.
  intros Hm Hv. destruct r as [|a [|b [|c [|x r]]]]; try discriminate. symmetry. apply thm_modulo; [exact Hm|exact Hv|].
  repeat split; exists 0; ring.
Qed.
Lemma congruent_modulo m r r' : cyc_ok m -> congruent m r r' -> cy_modulo m r = cy_modulo m r'.
Proof.
  intros (H0 & H1 & H2) Hc. destruct r as [|a [|b [|c [|x r]]]], r' as [|a' [|b' [|c' [|x' r']]]]; try contradiction.
  destruct Hc as ((k & ->) & (k' & ->) & (k'' & ->)). unfold cy_modulo. rewrite !pos_mod by assumption. rewrite !Z.mod_add by lia. reflexivity.
Qed.
Lemma thm_eval_periodic A m (f : idx -> A) r r' : cyc_ok m -> congruent m r r' -> cy_eval m f r = cy_eval m f r'.
Proof. intros Hm Hc. unfold cy_eval. rewrite (congruent_modulo m r r' Hm Hc). reflexivity. Qed.
Lemma thm_eval_on_mesh A m (f : idx -> A) r : cyc_ok m -> cy_valid m r = true -> cy_eval m f r = f r.
Proof. intros Hm Hv. unfold cy_eval. rewrite thm_modulo_valid; auto. Qed.

(** mesh-point arithmetic: modular arithmetic in each direction *)
Fixpoint k_len (e : kexpr) : Prop :=
  match e with
  | KPt i => exists a b c, i = [a; b; c]
  | KNeg a | KMul _ a => k_len a
  | KAdd a b | KSub a b => k_len a /\ k_len b
  end.
Fixpoint k_coord (j : nat) (e : kexpr) : Z :=
  match e with
  | KPt i => nth j i 0
  | KNeg a => - k_coord j a
  | KAdd a b => k_coord j a + k_coord j b
  | KSub a b => k_coord j a - k_coord j b
  | KMul z a => z * k_coord j a
  end.
Lemma k_index_coord e : k_len e -> k_index e = [k_coord 0 e; k_coord 1 e; k_coord 2 e].
Proof.
  induction e as [i|e IH|e1 IH1 e2 IH2|e1 IH1 e2 IH2|z e IH]; cbn [k_len k_index].
  - intros (a & b & c & ->). reflexivity.
  - intros H. rewrite IH by exact H. reflexivity.
  - intros [H1 H2]. rewrite IH1, IH2 by assumption. reflexivity.
  - intros [H1 H2]. rewrite IH1, IH2 by assumption. reflexivity.
  - intros H. rewrite IH by exact H. reflexivity.
Qed.
Lemma thm_kexpr m e : cyc_ok m -> k_len e ->
  0 <= k_data m e < cy_size m /\
  cy_index m (k_data m e) = [k_coord 0 e mod cy_d0 m; k_coord 1 e mod cy_d1 m; k_coord 2 e mod cy_d2 m].
Proof.
  intros Hm He. unfold k_data. rewrite (k_index_coord e He).
  destruct (thm_modulo m (k_coord 0 e) (k_coord 1 e) (k_coord 2 e) Hm) as (Hv & _).
  destruct (cyc_mesh_ok m Hm) as (_ & H1 & _). destruct (H1 _ Hv) as [H2 H3]. cbn [cyc_mesh ms_size ms_data ms_index] in H2, H3.
  split; [exact H2|]. rewrite H3. unfold cy_modulo. destruct Hm as (? & ? & ?). rewrite !pos_mod by assumption. reflexivity.
Qed.

(** equality of cyclic meshes *)
Lemma cex_cy_eq : exists m m', cyc_ok m /\ cyc_ok m' /\ cy_size m = cy_size m' /\
    (forall hl hu, cy_eqb hl hu m hu m' = true) /\ m <> m' /\
    exists r, cy_valid m r = true /\ cy_valid m' r = false.
Proof.
  exists (mkCyc 2 3 1), (mkCyc 3 2 1). unfold cyc_ok. cbn [cy_d0 cy_d1 cy_d2]. repeat split; try lia.
  - intros hl hu. unfold cy_eqb, cy_hash. cbn [cy_d0 cy_d1 cy_d2]. apply Z.eqb_eq. f_equal. lia.
  - discriminate.
  - exists [0; 2; 0]. split; reflexivity.
Qed.
Lemma thm_cy_eq_refl hl hu m : cy_eqb hl hu m hu m = true.
Proof. unfold cy_eqb. apply Z.eqb_refl. Qed.
(** with the identity hash of integers (libstdc++), sizes of different shape collide too *)
Lemma cex_cy_eq_size : exists m m', cyc_ok m /\ cyc_ok m' /\ cy_size m <> cy_size m' /\
    forall hu, cy_eqb (fun z => z) hu m hu m' = true.
Proof.
  exists (mkCyc 4 4 1), (mkCyc 5 3 1). unfold cyc_ok, cy_size. cbn [cy_d0 cy_d1 cy_d2]. repeat split; lia || (intros hu; unfold cy_eqb, cy_hash; cbn [cy_d0 cy_d1 cy_d2]; apply Z.eqb_eq; f_equal; lia).
Qed.

(** ---- iteration ---- *)
Lemma thm_points m : mesh_ok m ->
  Z.of_nat (length (ms_points m)) = ms_size m /\ NoDup (ms_points m) /\
  (forall i, In i (ms_points m) <-> ms_valid m i = true) /\
  (forall d i, nth_error (ms_points m) d = Some i -> ms_data m i = Z.of_nat d).
Proof.
  intros (Hs & H1 & H2). unfold ms_points. rewrite map_length, seq_length. split; [lia|]. split; [|split].
  - apply NoDup_nth_error. intros i j Hi E. rewrite map_length, seq_length in Hi.
    assert (Hj : (j < Z.to_nat (ms_size m))%nat).
    { destruct (nth_error_None (map (fun d => ms_index m (Z.of_nat d)) (seq 0 (Z.to_nat (ms_size m)))) j) as [_ Hn].
      destruct (le_lt_dec (Z.to_nat (ms_size m)) j) as [Hl|Hl]; [|exact Hl]. rewrite Hn in E by (rewrite map_length, seq_length; exact Hl).
      apply nth_error_None in E. rewrite map_length, seq_length in E. lia. }
    assert (Hn : forall k, (k < Z.to_nat (ms_size m))%nat -> nth_error (map (fun d => ms_index m (Z.of_nat d)) (seq 0 (Z.to_nat (ms_size m)))) k = Some (ms_index m (Z.of_nat k))).
    { intros k Hk. rewrite nth_error_map. replace (nth_error (seq 0 (Z.to_nat (ms_size m))) k) with (Some k); [reflexivity|].
      symmetry. rewrite (nth_error_nth' _ 0%nat) by (rewrite seq_length; exact Hk). rewrite seq_nth by exact Hk. reflexivity. }
    rewrite !Hn in E by assumption. injection E as E.
    destruct (H2 (Z.of_nat i) ltac:(lia)) as [_ Ei], (H2 (Z.of_nat j) ltac:(lia)) as [_ Ej]. rewrite E in Ei. lia.
  - intros i. rewrite in_map_iff. split.
    + intros (d & <- & Hd). apply in_seq in Hd. apply H2. lia.
    + intros Hv. destruct (H1 i Hv) as [Hd E]. exists (Z.to_nat (ms_data m i)). rewrite Z2Nat.id by lia. split; [exact E|apply in_seq; lia].
  - intros d i E. assert (Hd : (d < Z.to_nat (ms_size m))%nat).
    { assert (Hb : nth_error (map (fun d => ms_index m (Z.of_nat d)) (seq 0 (Z.to_nat (ms_size m)))) d <> None) by congruence.
      apply nth_error_Some in Hb. rewrite map_length, seq_length in Hb. exact Hb. }
    rewrite nth_error_map in E. rewrite (nth_error_nth' _ 0%nat) in E by (rewrite seq_length; exact Hd). rewrite seq_nth in E by exact Hd.
    cbn [option_map Nat.add] in E. injection E as <-. apply H2. lia.
Qed.

(** ---- products ---- *)
Lemma NoDup_app_intro {A} (a b : list A) : NoDup a -> NoDup b -> (forall x, In x a -> ~ In x b) -> NoDup (a ++ b).
Proof.
  intros Ha Hb Hd. induction Ha as [|x a Hx Ha IH]; [exact Hb|]. cbn [app]. constructor.
  - rewrite in_app_iff. intros [H|H]; [contradiction|]. apply (Hd x); [left; reflexivity|exact H].
  - apply IH. intros y Hy. apply Hd. right. exact Hy.
Qed.
Lemma pr_size_cons m ms : pr_size (m :: ms) = ms_size m * pr_size ms.
Proof.
  unfold pr_size. cbn [fold_left]. assert (G : forall ms a, fold_left (fun r m => r * ms_size m) ms a = a * fold_left (fun r m => r * ms_size m) ms 1).
  { induction ms0 as [|m0 ms0 IH]; intros a; cbn [fold_left]; [ring|]. rewrite (IH (a * ms_size m0)), (IH (1 * ms_size m0)). ring. }
  rewrite (G ms (1 * ms_size m)). ring.
Qed.
Lemma thm_prod_index ms : Forall mesh_ok ms ->
  (forall is_, pr_valid ms is_ = true -> Forall2 (fun m d => 0 <= d < ms_size m) ms (pr_data ms is_) /\ pr_index ms (pr_data ms is_) = is_) /\
  (forall ds, Forall2 (fun m d => 0 <= d < ms_size m) ms ds -> pr_valid ms (pr_index ms ds) = true /\ pr_data ms (pr_index ms ds) = ds).
Proof.
  intros HF. induction HF as [|m ms (Hs & H1 & H2) HF [IH1 IH2]]; split.
  - intros [|i is_] H; [|discriminate]. split; [constructor|reflexivity].
  - intros ds H. inversion H; subst. split; reflexivity.
  - intros [|i is_] H; [discriminate|]. cbn [pr_valid] in H. apply andb_true_iff in H. destruct H as [Hi His].
    destruct (H1 i Hi) as [Hd E]. destruct (IH1 is_ His) as [Hds E']. cbn [pr_data pr_index]. split; [constructor; assumption|]. rewrite E, E'. reflexivity.
  - intros ds H. inversion H as [|? d ? ds' Hd Hds]; subst. destruct (H2 d Hd) as [Hv E]. destruct (IH2 ds' Hds) as [Hv' E'].
    cbn [pr_index pr_valid pr_data]. rewrite Hv, Hv', E, E'. split; reflexivity.
Qed.
Lemma thm_prod_points ms : Forall mesh_ok ms ->
  Z.of_nat (length (pr_points ms)) = pr_size ms /\ NoDup (pr_points ms) /\ (forall is_, In is_ (pr_points ms) <-> pr_valid ms is_ = true).
Proof.
  intros HF. induction HF as [|m ms Hm HF (IHl & IHn & IHi)].
  - cbn. split; [reflexivity|]. split; [repeat constructor; auto|]. intros [|i is_]; cbn; split; auto; intuition discriminate.
  - destruct (thm_points m Hm) as (Hl & Hn & Hi & _). cbn [pr_points]. rewrite pr_size_cons. split; [|split].
    + rewrite <- Hl, <- IHl. clear. induction (ms_points m) as [|p ps IH]; [reflexivity|]. cbn [flat_map length]. rewrite app_length, map_length. lia.
    + clear - Hn IHn. induction Hn as [|p ps Hp Hn IH]; [constructor|]. cbn [flat_map]. apply NoDup_app_intro.
      * apply Injective_map_NoDup; [|exact IHn]. intros a b E. injection E. auto.
      * exact IH.
      * intros x Hx Hx'. apply in_map_iff in Hx. destruct Hx as (y & <- & Hy). apply in_flat_map in Hx'. destruct Hx' as (q & Hq & Hx'). apply in_map_iff in Hx'.
        destruct Hx' as (z & E & _). injection E as <- _. contradiction.
    + intros is_. rewrite in_flat_map. split.
      * intros (p & Hp & Hx). apply in_map_iff in Hx. destruct Hx as (y & <- & Hy). cbn [pr_valid]. apply andb_true_iff. split; [apply Hi; exact Hp|apply IHi; exact Hy].
      * intros H. destruct is_ as [|i is_]; [discriminate|]. cbn [pr_valid] in H. apply andb_true_iff in H. destruct H as [H1 H2].
        exists i. split; [apply Hi; exact H1|]. apply in_map. apply IHi. exact H2.
Qed.
