From Coq Require Import ZArith Reals List Bool Lia Ring.
From Verif Require Import Base Scalar Matsubara GfSym GfSymSpec.
Import ListNotations.
Local Open Scope Z_scope.

Section Arr.
  Context {A : Type}.
  Lemma upd_length (l : list A) k x : length (upd l k x) = length l.
  Proof. revert k. induction l as [|y l IH]; intros [|k]; cbn; auto. Qed.
  Lemma upd_nth (l : list A) : forall k x d, (k < length l)%nat -> nth_error (upd l k x) d = if Nat.eqb d k then Some x else nth_error l d.
  Proof.
    induction l as [|y l IH]; intros [|k] x [|d] H; cbn in H |- *; try lia; try reflexivity. apply IH. lia.
  Qed.
  Lemma wr_ok (l : list A) d x : 0 <= d < Z.of_nat (length l) -> wr l d x = Ok (upd l (Z.to_nat d) x).
  Proof. intros H. unfold wr. destruct (Z.ltb_spec d 0); [lia|]. destruct (Z.leb_spec (Z.of_nat (length l)) d); [lia|]. reflexivity. Qed.
  Lemma rd_ok (l : list A) d x : 0 <= d < Z.of_nat (length l) -> rd l d = Ok (nth (Z.to_nat d) l x).
  Proof.
    intros H. unfold rd. destruct (Z.ltb_spec d 0); [lia|]. rewrite (nth_error_nth' l x) by lia. reflexivity.
  Qed.
  Lemma slice_ok (l : list A) lo hi : 0 <= lo <= hi -> hi <= Z.of_nat (length l) ->
    exists r, slice l lo hi = Ok r /\ Z.of_nat (length r) = hi - lo /\ forall d, (d < length r)%nat -> nth_error r d = nth_error l (Z.to_nat lo + d).
  Proof.
    intros H1 H2. unfold slice. destruct (Z.ltb_spec lo 0); [lia|]. destruct (Z.ltb_spec hi lo); [lia|]. destruct (Z.ltb_spec (Z.of_nat (length l)) hi); [lia|]. cbn [orb].
    eexists. split; [reflexivity|]. rewrite firstn_length, skipn_length. split; [lia|]. intros d Hd.
    assert (G : forall (a : list A) n k, (k < n)%nat -> nth_error (firstn n a) k = nth_error a k).
    { induction a as [|y a IH]; intros [|n] [|k] Hk; cbn; try lia; try reflexivity. apply IH. lia. }
    assert (G2 : forall (a : list A) n k, nth_error (skipn n a) k = nth_error a (n + k)).
    { induction a as [|y a IH]; intros [|n] k; cbn; try reflexivity; [destruct k; reflexivity|]. apply IH. }
    rewrite G by lia. apply G2.
  Qed.
End Arr.

Lemma target_indices_spec sh : forall q, In q (target_indices sh) <-> subscript sh q.
Proof.
  unfold subscript. induction sh as [|n sh IH]; intros q; cbn [target_indices].
  - split; [intros [<-|[]]; constructor|intros H; inversion H; left; reflexivity].
  - rewrite in_flat_map. split.
    + intros (i & Hi & H). apply in_map_iff in H. destruct H as (q' & <- & H). apply in_seq in Hi. constructor; [lia|apply IH; exact H].
    + intros H. inversion H as [|? i ? q' Hi H']; subst. exists i. split; [apply in_seq; lia|]. apply in_map. apply IH. exact H'.
Qed.
Lemma tswap_invol q : tswap (tswap q) = q.
Proof. destruct q as [|a [|b [|c [|d [|e q]]]]]; reflexivity. Qed.
Lemma tswap_subscript sh q : tswap sh = sh -> subscript sh q -> subscript sh (tswap q).
Proof.
  unfold subscript. intros E H. rewrite <- E. destruct sh as [|s1 [|s2 [|s3 [|s4 [|s5 sh]]]]]; inversion H as [|? a ? q1 Ha H1]; subst; try assumption;
  (inversion H1 as [|? b ? q2 Hb H2]; subst; try assumption); cbn [tswap].
  - inversion H2; subst. cbn. repeat constructor; assumption.
  - inversion H2 as [|? c ? q3 Hc H3]; subst. inversion H3; subst. exact H.
  - inversion H2 as [|? c ? q3 Hc H3]; subst. inversion H3 as [|? d ? q4 Hd H4]; subst. inversion H4; subst. cbn. repeat constructor; assumption.
  - inversion H2 as [|? c ? q3 Hc H3]; subst. inversion H3 as [|? d ? q4 Hd H4]; subst. inversion H4; subst. exact H.
Qed.

Section P.
  Context (S : scalar_ops).
  Notation gfiw := (gfiw S). Notation mesh := (g_mesh S). Notation data := (g_data S). Notation tgt := (tgt S).
  Notation zero := (zero S).

  Section Full.
    Variable g : gfiw.
    Hypothesis C : complete S g.
    Hypothesis Full : if_pos (mesh g) = false.
    Let N := length (data g).

    Lemma size_len : if_size (mesh g) = Z.of_nat N. Proof. symmetry. apply C. Qed.
    Lemma size_first : if_first (mesh g) + Z.of_nat N = if_last (mesh g) + 1.
    Proof. pose proof size_len as H. unfold if_size in H. lia. Qed.
    (** in data indices, the opposite of d is N - 1 - d *)
    Lemma opp_index n : opposite (if_stat (mesh g)) n - if_first (mesh g) = Z.of_nat N - 1 - (n - if_first (mesh g)).
    Proof.
      pose proof size_len as H. unfold if_size, if_first in *. rewrite Full in *. unfold if_last in *. destruct (if_stat (mesh g)); cbn [stat_eqb opposite] in *; lia.
    Qed.
    Lemma opp_on_mesh n : on_mesh S g n -> on_mesh S g (opposite (if_stat (mesh g)) n).
    Proof. unfold on_mesh. intros H. pose proof (opp_index n) as E. pose proof size_first as E'. lia. Qed.
    Lemma fr_neg_n n : fr_n (fr_neg (if_freq (mesh g) n)) = opposite (if_stat (mesh g)) n.
    Proof. unfold fr_neg, if_freq. cbn [fr_n fr_stat]. destruct (if_stat (mesh g)); cbn [stat_eqb opposite]; lia. Qed.

    Definition pt (d : nat) : freq := if_freq (mesh g) (if_to_index (mesh g) (Z.of_nat d)).
    Lemma points_seq : g_points S g = map pt (seq 0 N).
    Proof. unfold g_points, if_points. rewrite size_len, Nat2Z.id, map_map. reflexivity. Qed.
    Lemma pt_data d : if_to_data (mesh g) (fr_n (pt d)) = Z.of_nat d.
    Proof. unfold pt, if_freq, if_to_data, if_to_index. cbn [fr_n]. lia. Qed.
    Lemma pt_neg d : if_to_data (mesh g) (fr_n (fr_neg (pt d))) = Z.of_nat N - 1 - Z.of_nat d.
    Proof.
      unfold pt. rewrite fr_neg_n. unfold if_to_data. rewrite opp_index. unfold if_to_index. lia.
    Qed.
    Lemma at_pt d : (d < N)%nat -> g_at S g (pt d) = Ok (nth d (data g) zero).
    Proof. intros H. unfold g_at. rewrite pt_data, (rd_ok _ _ zero) by (fold N; lia). rewrite Nat2Z.id. reflexivity. Qed.
    Lemma at_neg d : (d < N)%nat -> g_at S g (fr_neg (pt d)) = Ok (nth (N - 1 - d) (data g) zero).
    Proof.
      intros H. unfold g_at. rewrite pt_neg, (rd_ok _ _ zero) by (fold N; lia). do 2 f_equal. lia.
    Qed.

    Variables (half : S) (exceeds : S -> bool) (sw : list nat -> list nat).
    Definition sym (d : nat) : tgt := fun q => kmul half (kadd (nth d (data g) zero q) (kconj (nth (N - 1 - d) (data g) zero (sw q)))).

    Lemma sym_loop_ok n : forall k acc, (k + n <= N)%nat -> length acc = N ->
      exists acc', sym_loop S half sw g (map pt (seq k n)) acc = Ok acc' /\ length acc' = N /\
        forall d, nth_error acc' d = if (Nat.leb k d && Nat.ltb d (k + n))%bool then Some (sym d) else nth_error acc d.
    Proof.
      induction n as [|n IH]; intros k acc Hk Hl; cbn [seq map sym_loop].
      - exists acc. split; [reflexivity|]. split; [exact Hl|]. intros d. destruct (Nat.leb_spec k d), (Nat.ltb_spec d (k + 0)); try lia; reflexivity.
      - rewrite at_pt, at_neg by lia. cbn [bind]. rewrite pt_data, wr_ok by lia. cbn [bind]. rewrite Nat2Z.id.
        destruct (IH (Datatypes.S k) (upd acc k (sym k))) as (acc' & E & L' & H'); [lia|rewrite upd_length; exact Hl|].
        exists acc'. split; [exact E|]. split; [exact L'|]. intros d. rewrite H', upd_nth by lia.
        destruct (Nat.eqb_spec d k) as [->|Hd].
        + destruct (Nat.leb_spec (Datatypes.S k) k); [lia|]. cbn [andb]. destruct (Nat.leb_spec k k); [|lia]. destruct (Nat.ltb_spec k (k + Datatypes.S n)); [reflexivity|lia].
        + destruct (Nat.leb_spec (Datatypes.S k) d), (Nat.leb_spec k d); try lia; cbn [andb]; [|reflexivity].
          destruct (Nat.ltb_spec d (Datatypes.S k + n)), (Nat.ltb_spec d (k + Datatypes.S n)); try lia; reflexivity.
    Qed.
    Lemma sym_all : exists acc', sym_loop S half sw g (g_points S g) (data g) = Ok acc' /\ length acc' = N /\ forall d, (d < N)%nat -> nth_error acc' d = Some (sym d).
    Proof.
      rewrite points_seq. destruct (sym_loop_ok N 0 (data g)) as (acc & E & L' & H); [lia|reflexivity|]. exists acc. split; [exact E|]. split; [exact L'|]. intros d Hd. rewrite H.
      destruct (Nat.ltb_spec d (0 + N)); [reflexivity|lia].
    Qed.
    Lemma sym_value acc' n q : length acc' = N -> (forall d, (d < N)%nat -> nth_error acc' d = Some (sym d)) -> on_mesh S g n ->
      value S (mkGfiw S (mesh g) (g_sh S g) acc') n q = kmul half (kadd (value S g n q) (kconj (value S g (opposite (if_stat (mesh g)) n) (sw q)))).
    Proof.
      intros L' H Hn. pose proof size_first as E. unfold on_mesh in Hn. unfold value. cbn [g_mesh g_data].
      rewrite (nth_error_nth _ _ zero (H (Z.to_nat (n - if_first (mesh g))) ltac:(lia))). unfold sym. do 4 f_equal. pose proof (opp_index n). lia.
    Qed.

    Lemma sym_test_ok n : forall k, (k + n <= N)%nat -> exists b, sym_test S exceeds sw g (map pt (seq k n)) = Ok b /\
      (b = true <-> forall d q, (k <= d < k + n)%nat -> subscript (g_sh S g) q -> exceeds (ksub (kconj (nth (N - 1 - d) (data g) zero (sw q))) (nth d (data g) zero q)) = false).
    Proof.
      induction n as [|n IH]; intros k Hk; cbn [seq map sym_test].
      - exists true. split; [reflexivity|]. split; [|reflexivity]. intros _ d q Hd. lia.
      - rewrite at_pt, at_neg by lia. cbn [bind]. destruct (existsb _ _) eqn:E.
        + exists false. split; [reflexivity|]. split; [discriminate|]. intros H. apply existsb_exists in E. destruct E as (q & Hq & E). apply target_indices_spec in Hq.
          rewrite (H k q) in E by (lia || exact Hq). discriminate E.
        + destruct (IH (Datatypes.S k)) as (b & Eb & Hb); [lia|]. exists b. split; [exact Eb|]. rewrite Hb. split.
          * intros H d q Hd Hq. destruct (Nat.eq_dec d k) as [->|Hn].
            -- destruct (exceeds _) eqn:E'; [|reflexivity]. assert (T : existsb (fun q => exceeds (ksub (kconj (nth (N - 1 - k) (data g) zero (sw q))) (nth k (data g) zero q))) (target_indices (g_sh S g)) = true).
               { apply existsb_exists. exists q. split; [apply target_indices_spec; exact Hq|exact E']. }
               congruence.
            -- apply H; [lia|exact Hq].
          * intros H d q Hd Hq. apply H; [lia|exact Hq].
    Qed.
    Lemma sym_test_all : exists b, sym_test S exceeds sw g (g_points S g) = Ok b /\
      (b = true <-> forall n q, on_mesh S g n -> subscript (g_sh S g) q -> exceeds (ksub (kconj (value S g (opposite (if_stat (mesh g)) n) (sw q))) (value S g n q)) = false).
    Proof.
      rewrite points_seq. destruct (sym_test_ok N 0) as (b & E & H); [lia|]. exists b. split; [exact E|]. rewrite H. pose proof size_first as E1. split.
      - intros Hd n q Hn Hq. unfold on_mesh in Hn. unfold value. rewrite <- (Hd (Z.to_nat (n - if_first (mesh g))) q) by (lia || exact Hq). do 5 f_equal. pose proof (opp_index n). lia.
      - intros Hn d q Hd Hq. specialize (Hn (if_first (mesh g) + Z.of_nat d) q). unfold on_mesh, value in Hn. rewrite <- Hn by (lia || exact Hq).
        pose proof (opp_index (if_first (mesh g) + Z.of_nat d)) as E2. do 2 f_equal; [do 2 f_equal; lia|f_equal; lia].
    Qed.
  End Full.

  Lemma same_shape_true sh : same_shape sh = true <-> tswap sh = sh.
  Proof. unfold same_shape. destruct (list_eq_dec _ _ _); split; congruence. Qed.

  (** ---- half mesh ---- *)
  Section Real.
    Variable dat : list tgt.
    Let l := length dat.
    Lemma real_loop_ok b : (b <= 1)%nat -> (b <= l)%nat -> forall n k acc, (b <= k)%nat -> (k + n <= l)%nat -> Z.of_nat (length acc) = 2 * Z.of_nat l - Z.of_nat b ->
      exists acc', real_loop S dat (Z.of_nat l) (Z.of_nat l - Z.of_nat b) (seq k n) acc = Ok acc' /\ length acc' = length acc /\
        (forall u, (k <= u < k + n)%nat -> nth_error acc' (l - b + u) = Some (Some (nth u dat zero)) /\ nth_error acc' (l - 1 - u) = Some (Some (fun q => kconj (nth u dat zero q)))) /\
        (forall d, (forall u, (k <= u < k + n)%nat -> d <> (l - b + u)%nat /\ d <> (l - 1 - u)%nat) -> nth_error acc' d = nth_error acc d).
    Proof.
      intros Hb Hbl. induction n as [|n IH]; intros k acc Hk Hkn Ha; cbn [seq real_loop].
      - exists acc. split; [reflexivity|]. split; [reflexivity|]. split; [intros u Hu; lia|reflexivity].
      - rewrite (rd_ok _ _ zero) by (fold l; lia). cbn [bind]. rewrite wr_ok by lia. cbn [bind]. rewrite wr_ok by (rewrite upd_length; lia). cbn [bind]. rewrite !Nat2Z.id.
        set (acc2 := upd (upd acc _ _) _ _). assert (L2 : length acc2 = length acc) by (unfold acc2; rewrite !upd_length; reflexivity).
        destruct (IH (Datatypes.S k) acc2) as (acc' & E & L' & H1 & H2); [lia|lia|lia|]. exists acc'. split; [exact E|]. split; [congruence|].
        assert (P2 : forall d, nth_error acc2 d = if Nat.eqb d (l - 1 - k) then Some (Some (fun q => kconj (nth k dat zero q))) else if Nat.eqb d (l - b + k) then Some (Some (nth k dat zero)) else nth_error acc d).
        { intros d. unfold acc2. rewrite upd_nth by (rewrite upd_length; lia). rewrite upd_nth by lia.
          replace (Z.to_nat (Z.of_nat l - 1 - Z.of_nat k)) with (l - 1 - k)%nat by lia. replace (Z.to_nat (Z.of_nat l - Z.of_nat b + Z.of_nat k)) with (l - b + k)%nat by lia. reflexivity. }
        split.
        + intros u Hu. destruct (Nat.eq_dec u k) as [->|Hn]; [|apply H1; lia]. split; rewrite H2 by (intros u' Hu'; lia); rewrite P2.
          * destruct (Nat.eqb_spec (l - b + k) (l - 1 - k)); [lia|]. rewrite Nat.eqb_refl. reflexivity.
          * rewrite Nat.eqb_refl. reflexivity.
        + intros d Hd. rewrite H2 by (intros u Hu; apply Hd; lia). rewrite P2. destruct (Hd k ltac:(lia)) as [D1 D2].
          destruct (Nat.eqb_spec d (l - 1 - k)); [lia|]. destruct (Nat.eqb_spec d (l - b + k)); [lia|reflexivity].
    Qed.
  End Real.

  Lemma repeat_None_length n : length (repeat (@None tgt) n) = n. Proof. apply repeat_length. Qed.

  (** the result of make_gf_from_real_gf, as a Green function without uninitialised elements *)
  Lemma from_real_ok g : complete S g -> if_pos (mesh g) = true ->
    exists d', make_gf_from_real_gf S g = Ok (mkNew S (mkImfreq (if_beta (mesh g)) (if_stat (mesh g)) (if_n (mesh g)) false) (g_sh S g) (map Some d')) /\
      let g' := mkGfiw S (mkImfreq (if_beta (mesh g)) (if_stat (mesh g)) (if_n (mesh g)) false) (g_sh S g) d' in
      complete S g' /\
      (forall n, 0 <= n < if_n (mesh g) -> nth_error d' (Z.to_nat (n - if_first (mesh g'))) = Some (nth (Z.to_nat n) (data g) zero)) /\
      (forall n q, 0 <= n < if_n (mesh g) -> (if_stat (mesh g) = Boson -> n <> 0) -> value S g' (opposite (if_stat (mesh g)) n) q = kconj (value S g n q)).
  Proof.
    intros [C1 C2] Hp. unfold make_gf_from_real_gf. rewrite Hp. cbn [negb].
    assert (Hl : Z.of_nat (length (data g)) = if_n (mesh g)). { rewrite C2. unfold if_size, if_first, if_last. rewrite Hp. lia. }
    set (l := length (data g)) in *.
    assert (Main : forall b : nat, (b <= 1)%nat -> Z.of_nat b = (if stat_eqb (if_stat (mesh g)) Boson then 1 else 0) -> forall new1, 
      length new1 = Z.to_nat (2 * Z.of_nat l - Z.of_nat b) -> (b = 1%nat -> nth_error new1 (l - 1) = Some (Some (nth 0 (data g) zero))) ->
      exists d', real_loop S (data g) (Z.of_nat l) (Z.of_nat l - Z.of_nat b) (seq b (l - b)) new1 = Ok (map Some d') /\ Z.of_nat (length d') = 2 * Z.of_nat l - Z.of_nat b /\
        (forall u, (u < l)%nat -> nth_error d' (l - b + u) = Some (nth u (data g) zero)) /\
        (forall u, (b <= u < l)%nat -> nth_error d' (l - 1 - u) = Some (fun q => kconj (nth u (data g) zero q)))).
    { intros b Hb Eb new1 L1 H1. destruct (real_loop_ok (data g) b Hb ltac:(fold l; lia) (l - b) b new1) as (acc & E & La & P1 & P2); [lia|fold l; lia|fold l; lia|]. fold l in E, P1, P2.
      assert (All : forall d, (d < length acc)%nat -> exists x, nth_error acc d = Some (Some x)).
      { intros d Hd. destruct (Nat.lt_ge_cases d (l - b)) as [Hlt|Hge].
        - destruct (P1 (l - 1 - d)%nat ltac:(lia)) as [_ Q]. replace (l - 1 - (l - 1 - d))%nat with d in Q by lia. eauto.
        - destruct (Nat.lt_ge_cases (d - (l - b)) b) as [Hs|Hs].
          + assert (Db : d = (l - 1)%nat) by lia. subst d. rewrite P2 by (intros u Hu; lia). eexists. apply H1. lia.
          + destruct (P1 (d - (l - b))%nat ltac:(lia)) as [Q _]. replace (l - b + (d - (l - b)))%nat with d in Q by lia. eauto. }
      assert (Ex : exists d', acc = map Some d').
      { clear - All. induction acc as [|o acc IH]; [exists []; reflexivity|]. destruct (All 0%nat ltac:(cbn; lia)) as [x Ex]. cbn in Ex. injection Ex as ->.
        destruct IH as [d' ->]; [intros d Hd; apply (All (Datatypes.S d)); cbn; lia|]. exists (x :: d'). reflexivity. }
      destruct Ex as [d' ->]. exists d'. split; [exact E|]. rewrite map_length in La. split; [lia|].
      assert (G : forall d x, nth_error (map Some d') d = Some (Some x) -> nth_error d' d = Some x) by (intros d x Hd; rewrite nth_error_map in Hd; destruct (nth_error d' d); [cbn in Hd; injection Hd as Hd; rewrite Hd; reflexivity|discriminate Hd]).
      split.
      - intros u Hu. apply G. destruct (Nat.lt_ge_cases u b) as [Hs|Hs]; [|apply P1; lia]. replace (l - b + u)%nat with (l - 1)%nat by lia. rewrite P2 by (intros u' Hu'; lia).
        replace u with 0%nat by lia. apply H1. lia.
      - intros u Hu. apply G. apply P1. lia. }
    destruct (if_stat (mesh g)) eqn:Est; cbn [stat_eqb] in *.
    - (* boson *)
      destruct (Z.ltb_spec (2 * Z.of_nat l - 1) 0); [lia|]. rewrite (rd_ok _ _ zero) by (fold l; lia). cbn [bind]. rewrite wr_ok by (rewrite repeat_None_length; lia). cbn [bind].
      destruct (Main 1%nat) with (new1 := upd (repeat None (Z.to_nat (2 * Z.of_nat l - 1))) (Z.to_nat (Z.of_nat l - 1)) (Some (nth (Z.to_nat 0) (data g) zero))) as (d' & E & Ld & V1 & V2); [lia|lia|rewrite upd_length, repeat_None_length; lia| |].
      { intros _. rewrite upd_nth by (rewrite repeat_None_length; lia). destruct (Nat.eqb_spec (l - 1) (Z.to_nat (Z.of_nat l - 1))); [reflexivity|lia]. }
      exists d'. change (Z.to_nat 1) with 1%nat in *. change (Z.of_nat 1) with 1 in E. rewrite E. cbn [bind]. rewrite Hl. split; [reflexivity|].
      cbv zeta. unfold if_first, if_last. cbn [g_mesh g_data if_pos if_stat if_n stat_eqb].
      split; [|split].
      + split; [cbn; lia|]. cbn [g_mesh g_data]. unfold if_size, if_first, if_last. cbn [if_pos if_stat if_n stat_eqb]. lia.
      + intros n Hn. rewrite <- (V1 (Z.to_nat n)) by lia. f_equal. lia.
      + intros n q Hn Hn0. specialize (Hn0 eq_refl). unfold value, if_first, if_last. cbn [g_mesh g_data if_pos if_stat if_n stat_eqb opposite]. rewrite Hp.
        assert (V := V2 (Z.to_nat n) ltac:(lia)). replace (Z.to_nat (- n - - (if_n (mesh g) - 1 + 0))) with (l - 1 - Z.to_nat n)%nat by lia. rewrite (nth_error_nth _ _ zero V). rewrite Z.sub_0_r. reflexivity.
    - destruct (Z.ltb_spec (2 * Z.of_nat l - 0) 0); [lia|]. cbn [bind].
      destruct (Main 0%nat) with (new1 := repeat (@None tgt) (Z.to_nat (2 * Z.of_nat l - 0))) as (d' & E & Ld & V1 & V2); [lia|lia|rewrite repeat_None_length; lia|lia|].
      exists d'. change (Z.to_nat 0) with 0%nat in *. change (Z.of_nat 0) with 0 in E. rewrite Z.sub_0_r in E at 1. rewrite E. cbn [bind]. rewrite Hl. split; [reflexivity|].
      cbv zeta. unfold if_first, if_last. cbn [g_mesh g_data if_pos if_stat if_n stat_eqb].
      split; [|split].
      + split; [cbn; lia|]. cbn [g_mesh g_data]. unfold if_size, if_first, if_last. cbn [if_pos if_stat if_n stat_eqb]. lia.
      + intros n Hn. rewrite <- (V1 (Z.to_nat n)) by lia. f_equal. lia.
      + intros n q Hn _. unfold value, if_first, if_last. cbn [g_mesh g_data if_pos if_stat if_n stat_eqb opposite]. rewrite Hp.
        assert (V := V2 (Z.to_nat n) ltac:(lia)). replace (Z.to_nat (- n - 1 - - (if_n (mesh g) - 1 + 1))) with (l - 1 - Z.to_nat n)%nat by lia. rewrite (nth_error_nth _ _ zero V). rewrite Z.sub_0_r. reflexivity.
  Qed.

  Lemma nth_error_nth_ok {A} (l : list A) k d : (k < length l)%nat -> nth_error l k = Some (nth k l d).
  Proof. intros H. apply nth_error_nth'. exact H. Qed.

  (** positive_freq_view: the values at the non-negative frequencies *)
  Lemma positive_ok g : complete S g -> exists g', positive_freq_view S g = Ok g' /\ complete S g' /\ mesh g' = if_positive (mesh g) /\ g_sh S g' = g_sh S g /\
    forall n, 0 <= n < if_n (mesh g) -> nth_error (data g') (Z.to_nat n) = nth_error (data g) (Z.to_nat (n - if_first (mesh g))).
  Proof.
    intros C. pose proof C as [C1 C2]. unfold positive_freq_view. destruct (if_pos (mesh g)) eqn:Hp.
    - exists g. split; [reflexivity|]. split; [exact C|]. split; [destruct (mesh g) as [be st nn po]; cbn in *; subst po; reflexivity|]. split; [reflexivity|].
      intros n Hn. unfold if_first. rewrite Hp. f_equal. lia.
    - assert (Q : Z.quot (if_size (mesh g) + 1) 2 - (if stat_eqb (if_stat (mesh g)) Boson then 1 else 0) = - if_first (mesh g)).
      { unfold if_size, if_first, if_last. rewrite Hp. destruct (if_stat (mesh g)); cbn [stat_eqb]; rewrite Z.quot_div_nonneg by lia.
        - replace (if_n (mesh g) - 1 - - (if_n (mesh g) - 1 + 0) + 1 + 1) with (if_n (mesh g) * 2) by lia. rewrite Z.div_mul by lia. lia.
        - replace (if_n (mesh g) - 1 - - (if_n (mesh g) - 1 + 1) + 1 + 1) with (if_n (mesh g) * 2 + 1) by lia. rewrite Z.add_comm, Z.div_add by lia. change (1 / 2) with 0. lia. }
      rewrite Q. assert (F : if_first (mesh g) <= 0 /\ if_size (mesh g) = if_n (mesh g) - if_first (mesh g)) by (unfold if_size, if_first, if_last; rewrite Hp; destruct (if_stat (mesh g)); cbn [stat_eqb]; lia).
      destruct F as [F1 F2]. destruct (slice_ok (data g) (- if_first (mesh g)) (if_size (mesh g))) as (r & E & Lr & V); [lia|lia|]. rewrite E. cbn [bind].
      eexists. split; [reflexivity|]. cbn [g_mesh g_data g_sh]. split; [|split; [reflexivity|split; [reflexivity|]]].
      + split; [exact C1|]. cbn [g_mesh g_data]. unfold if_size at 1, if_first, if_last, if_positive. cbn [if_pos if_n]. lia.
      + intros n Hn. rewrite V by lia. f_equal. lia.
  Qed.

  Lemma list_ext {A} (a b : list A) : length a = length b -> (forall d, (d < length a)%nat -> nth_error a d = nth_error b d) -> a = b.
  Proof.
    revert b. induction a as [|x a IH]; intros [|y b] Hl H; cbn in Hl; try lia; [reflexivity|]. pose proof (H 0%nat ltac:(cbn; lia)) as H0. cbn in H0. injection H0 as ->. f_equal.
    apply IH; [lia|]. intros d Hd. apply (H (Datatypes.S d)). cbn. lia.
  Qed.

  Lemma restricted_ok g n_max : complete S g -> if_pos (mesh g) = false -> if_stat (mesh g) = Fermion -> 0 <= n_max <= if_n (mesh g) ->
    exists g', restricted_view S g n_max = Ok g' /\ mesh g' = mkImfreq (if_beta (mesh g)) Fermion n_max false /\ g_sh S g' = g_sh S g /\
      Z.of_nat (length (data g')) = 2 * n_max /\ forall n q, - n_max <= n < n_max -> value S g' n q = value S g n q.
  Proof.
    intros [C1 C2] Hp Hs Hn. unfold restricted_view, if_to_data. unfold if_size, if_first, if_last in *. rewrite Hp, Hs in *. cbn [if_pos if_stat if_n stat_eqb] in *.
    destruct (slice_ok (data g) (- (n_max - 1 + 1) - - (if_n (mesh g) - 1 + 1)) (n_max - 1 - - (if_n (mesh g) - 1 + 1) + 1)) as (r & E & Lr & V); [lia|lia|]. rewrite E. cbn [bind].
    eexists. split; [reflexivity|]. cbn [g_mesh g_sh g_data]. split; [reflexivity|]. split; [reflexivity|]. split; [lia|]. intros n q Hnn. unfold value, if_first, if_last. cbn [g_mesh g_data if_pos if_stat if_n stat_eqb]. rewrite Hp, Hs. cbn [stat_eqb].
    rewrite (nth_error_nth r _ zero (x := nth (Z.to_nat (n - - (if_n (mesh g) - 1 + 1))) (data g) zero)); [reflexivity|]. rewrite V by lia. rewrite <- (nth_error_nth_ok (data g) _ zero) by lia. f_equal. lia.
  Qed.

  Lemma tail_loop_ok g tail n_min : complete S g -> forall n k acc, (k + n <= length (data g))%nat -> length acc = length (data g) ->
    exists acc', tail_loop S (mesh g) tail n_min (map (pt g) (seq k n)) acc = Ok acc' /\ length acc' = length acc /\
      forall d, nth_error acc' d = if (Nat.leb k d && Nat.ltb d (k + n))%bool && ((n_min <=? fr_n (pt g d)) || (fr_n (pt g d) <? - n_min)) then Some (tail (pt g d)) else nth_error acc d.
  Proof.
    intros C. induction n as [|n IH]; intros k acc Hk Hl; cbn [seq map tail_loop].
    - exists acc. split; [reflexivity|]. split; [reflexivity|]. intros d. destruct (Nat.leb_spec k d), (Nat.ltb_spec d (k + 0)); try lia; reflexivity.
    - assert (Step : forall acc1, length acc1 = length acc -> (forall d, nth_error acc1 d = if Nat.eqb d k && ((n_min <=? fr_n (pt g k)) || (fr_n (pt g k) <? - n_min)) then Some (tail (pt g k)) else nth_error acc d) ->
        exists acc', tail_loop S (mesh g) tail n_min (map (pt g) (seq (Datatypes.S k) n)) acc1 = Ok acc' /\ length acc' = length acc /\
        forall d, nth_error acc' d = if (Nat.leb k d && Nat.ltb d (k + Datatypes.S n))%bool && ((n_min <=? fr_n (pt g d)) || (fr_n (pt g d) <? - n_min)) then Some (tail (pt g d)) else nth_error acc d).
      { intros acc1 L1 H1. destruct (IH (Datatypes.S k) acc1) as (acc' & E & L' & H'); [lia|congruence|]. exists acc'. split; [exact E|]. split; [congruence|]. intros d. rewrite H', H1.
        destruct (Nat.eqb_spec d k) as [->|Hd].
        - destruct (Nat.leb_spec (Datatypes.S k) k); [lia|]. cbn [andb]. destruct (Nat.leb_spec k k); [|lia]. destruct (Nat.ltb_spec k (k + Datatypes.S n)); [reflexivity|lia].
        - destruct (Nat.leb_spec (Datatypes.S k) d), (Nat.leb_spec k d); try lia; cbn [andb]; [|reflexivity].
          destruct (Nat.ltb_spec d (Datatypes.S k + n)), (Nat.ltb_spec d (k + Datatypes.S n)); try lia; reflexivity. }
      destruct ((n_min <=? fr_n (pt g k)) || (fr_n (pt g k) <? - n_min)) eqn:T.
      + rewrite (pt_data g), wr_ok by lia. cbn [bind]. rewrite Nat2Z.id. apply Step; [apply upd_length|]. intros d. rewrite upd_nth by lia. rewrite andb_true_r. reflexivity.
      + apply Step; [reflexivity|]. intros d. rewrite andb_false_r. reflexivity.
  Qed.
  Lemma tail_ok g tail n_min : complete S g -> exists g', replace_by_tail S g tail n_min = Ok g' /\ alike S g' g /\
    forall n q, on_mesh S g n -> value S g' n q = if (n_min <=? n) || (n <? - n_min) then tail (if_freq (mesh g) n) q else value S g n q.
  Proof.
    intros C. pose proof C as [C1 C2]. unfold replace_by_tail. rewrite (points_seq g C). destruct (tail_loop_ok g tail n_min C (length (data g)) 0 (data g)) as (acc & E & L' & H); [lia|reflexivity|].
    rewrite E. cbn [bind]. eexists. split; [reflexivity|]. split; [repeat split; exact L'|]. intros n q Hn. unfold on_mesh in Hn. pose proof (size_first g C) as SF.
    unfold value at 1. cbn [g_mesh g_data]. specialize (H (Z.to_nat (n - if_first (mesh g)))). destruct (Nat.ltb_spec (Z.to_nat (n - if_first (mesh g))) (0 + length (data g))); [|lia]. cbn [Nat.leb andb] in H.
    assert (Ep : pt g (Z.to_nat (n - if_first (mesh g))) = if_freq (mesh g) n) by (unfold pt, if_to_index; f_equal; lia).
    rewrite Ep in H. cbn [fr_n if_freq] in H. destruct ((n_min <=? n) || (n <? - n_min)).
    - rewrite (nth_error_nth _ _ zero H). reflexivity.
    - unfold value. rewrite <- (nth_default_eq _ acc), <- (nth_default_eq _ (data g)). unfold nth_default. rewrite H. reflexivity.
  Qed.
End P.
