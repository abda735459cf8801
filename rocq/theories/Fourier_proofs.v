(** Proofs of the statements about the Fourier transforms as they are called. *)
From Coq Require Import ZArith Reals List Bool Arith Lia Lra.
From Coquelicot Require Import Coquelicot.
From Verif Require Import Base Matsubara LinMesh Mesh Mesh_proofs Lattice Lattice_proofs ThermalSpec Csum Flatten FlattenSpec Fourier FourierSpec Fourier_dft Fourier_lat Fourier_real Fourier_riemann Fourier_mats Fourier_tail Fourier_fit Fourier_adj.
Import ListNotations.
Local Open Scope R_scope.

Lemma max_abs_lt n v e : 0 < e -> (max_abs n v < e <-> forall c, (c < n)%nat -> Cmod (v c) < e).
Proof.
  intros He. unfold max_abs. assert (G : forall l, fold_right (fun c s => Rmax (Cmod (v c)) s) 0 l < e <-> forall c, In c l -> Cmod (v c) < e).
  { induction l as [|x l IH]; cbn [fold_right]; split; [intros _ c []|intros _; exact He| |].
    - intros H c [->|Hc]; [exact (Rle_lt_trans _ _ _ (Rmax_l _ _) H)|]. apply IH; [|exact Hc]. exact (Rle_lt_trans _ _ _ (Rmax_r _ _) H).
    - intros H. apply Rmax_lub_lt; [apply H; left; reflexivity|]. apply IH. intros c Hc. apply H. right. exact Hc. }
  rewrite G. split; intros H c Hc; apply H; [apply in_seq; lia|apply in_seq in Hc; lia].
Qed.
Lemma vanishing_iff n v : vanishing n v = true <-> forall c, (c < n)%nat -> Cmod (v c) < / 10 ^ 8.
Proof.
  unfold vanishing. assert (He : 0 < / 10 ^ 8) by (apply Rinv_0_lt_compat, pow_lt; lra). rewrite <- (max_abs_lt n v _ He). destruct (Rlt_dec (max_abs n v) (/ 10 ^ 8)) as [H|H]; split; intros Q; try assumption; try reflexivity; [discriminate|contradiction].
Qed.
Lemma not_vanishing n v c : (c < n)%nat -> / 10 ^ 8 <= Cmod (v c) -> vanishing n v = false.
Proof. intros Hc H. apply not_true_is_false. intros E. apply vanishing_iff with (c := c) in E; [lra|exact Hc]. Qed.
Lemma real_moments_ok n km : (0 < n)%nat -> km = [] \/ moments_given 3 n km -> real_moments n km = Ok (row km 1, row km 2).
Proof.
  intros Hn H. unfold real_moments. destruct (Nat.eqb_spec n 0) as [E|_]; [lia|]. destruct H as [->|(_ & Hl & Hv)].
  - cbn [length zero_tail repeat Nat.ltb Nat.leb]. assert (V : vanishing n (row (zero_tail 3) 0) = true).
    { apply vanishing_iff. intros c _. change (row (zero_tail 3) 0 c) with (RtoC 0). rewrite Cmod_0. apply Rinv_0_lt_compat, pow_lt. lra. }
    unfold zero_tail in V. cbn [repeat] in V. rewrite V. reflexivity.
  - destruct km as [|k0 km]; [cbn in Hl; lia|]. destruct (Nat.ltb_spec (length (k0 :: km)) 3) as [E|_]; [lia|]. apply vanishing_iff in Hv. rewrite Hv. reflexivity.
Qed.
Lemma real_rejects wm tm n km : (0 < n)%nat ->
  (km <> [] /\ (length km < 3)%nat) \/ (exists c, (c < n)%nat /\ / 10 ^ 8 <= Cmod (row km 0 c)) \/ li_L wm <> li_L tm \/ / 10 ^ 10 < Rabs (li_delta tm * li_delta wm * IZR (li_L tm) / (2 * PI) - 1) ->
  forall g, fourier_t_to_w wm tm n g km = Throw /\ fourier_w_to_t tm wm n g km = Throw.
Proof.
  intros Hn H g. assert (M : real_moments n km = Throw \/ (exists m, real_moments n km = Ok m) /\ real_compatible wm tm = false).
  { assert (RM : real_moments n km = Throw \/ exists m, real_moments n km = Ok m).
    { unfold real_moments. destruct (Nat.eqb_spec n 0) as [E|_]; [lia|]. destruct (_ <? 3)%nat; [left; reflexivity|]. destruct (vanishing _ _); [right; eauto|left; reflexivity]. }
    destruct H as [[Hk Hl]|[(c & Hc & Hv)|H]].
    - left. unfold real_moments. destruct (Nat.eqb_spec n 0) as [E|_]; [lia|]. destruct km as [|k0 km]; [congruence|]. destruct (Nat.ltb_spec (length (k0 :: km)) 3) as [_|E]; [reflexivity|lia].
    - left. unfold real_moments. destruct (Nat.eqb_spec n 0) as [E|_]; [lia|]. destruct km as [|k0 km].
      + exfalso. change (row [] 0 c) with (RtoC 0) in Hv. rewrite Cmod_0 in Hv. assert (0 < / 10 ^ 8) by (apply Rinv_0_lt_compat, pow_lt; lra). lra.
      + destruct (_ <? 3)%nat; [reflexivity|]. rewrite (not_vanishing n _ c Hc Hv). reflexivity.
    - destruct RM as [RM|RM]; [left; exact RM|right]. split; [exact RM|]. unfold real_compatible. destruct (Z.eqb_spec (li_L wm) (li_L tm)) as [E|_]; [|reflexivity]. destruct H as [H|H]; [contradiction|]. destruct (Rlt_dec _ _) as [_|Q]; [reflexivity|contradiction]. }
  unfold fourier_t_to_w, fourier_w_to_t. destruct M as [->|[(m & ->) ->]]; split; reflexivity.
Qed.

(** Matsubara *)
Lemma tau_known iwm tm n gt km : moments_given 1 n km -> fourier_tau_to_iw iwm tm n gt km = fourier_tau_to_iw_known iwm tm n gt km /\ vanishing n (row km 0) = true.
Proof.
  intros (Hn & Hl & Hv). unfold fourier_tau_to_iw. destruct (Nat.eqb_spec n 0) as [E|_]; [lia|]. destruct km as [|k0 km]; [cbn in Hl; lia|]. split; [reflexivity|]. apply vanishing_iff. exact Hv.
Qed.
Lemma iw_known fit tm iwm n gw km : moments_given 4 n km -> if_pos iwm = false -> fourier_iw_to_tau fit tm iwm n gw km = fourier_iw_to_tau_known tm iwm n gw km /\ vanishing n (row km 0) = true.
Proof.
  intros (Hn & Hl & Hv) Hp. unfold fourier_iw_to_tau. rewrite Hp. destruct (Nat.eqb_spec n 0) as [E|_]; [lia|]. destruct km as [|k0 km]; [cbn in Hl; lia|]. apply vanishing_iff in Hv. rewrite Hv. cbn [negb].
  destruct (Nat.ltb_spec (length (k0 :: km)) 4) as [E|_]; [lia|]. split; reflexivity.
Qed.
Lemma thm_direct iwm s' L beta n gt km : 0 < beta -> if_beta iwm = beta -> tau_fits iwm L -> moments_given 1 n km ->
  exists gw, fourier_tau_to_iw iwm (tau_mesh beta s' L) n gt km = Ok gw /\
    forall d c, (d < Z.to_nat (if_size iwm))%nat ->
      let s := if_stat iwm in let w := if_to_index iwm (Z.of_nat d) in
      gw d c = Cplus (trapezoid beta L (fun j => Cmult (matsubara_wave beta s w (tau_pt beta L j)) (Cminus (gt j c) (tail_tau s beta (moment km 1 c) (moment km 2 c) (moment km 3 c) (tau_pt beta L j)))))
                     (tail_iw s (moment km 1 c) (moment km 2 c) (moment km 3 c) (i_omega beta s w)).
Proof. intros Hb Eb Hf Hm. destruct (tau_known iwm (tau_mesh beta s' L) n gt km Hm) as [-> Hv]. exact (direct_known iwm s' L beta n gt km Hb Eb Hf Hv). Qed.
Lemma thm_inverse fit iwm s' L beta n gw km : 0 < beta -> if_beta iwm = beta -> if_pos iwm = false -> tau_fits iwm L -> moments_given 4 n km ->
  exists gt, fourier_iw_to_tau fit (tau_mesh beta s' L) iwm n gw km = Ok gt /\
    let s := if_stat iwm in
    (forall j c, (j < L)%nat -> gt j c = Cplus (Cmult (RtoC (1 / beta)) (total (Z.to_nat (if_size iwm)) (fun d =>
        Cmult (Cconj (matsubara_wave beta s (if_to_index iwm (Z.of_nat d)) (tau_pt beta L j)))
              (Cminus (gw d c) (tail_iw s (moment km 1 c) (moment km 2 c) (moment km 3 c) (i_omega beta s (if_to_index iwm (Z.of_nat d))))))))
        (tail_tau s beta (moment km 1 c) (moment km 2 c) (moment km 3 c) (tau_pt beta L j))) /\
    (forall c, gt L c = Cmult (RtoC (pm s)) (Cplus (gt 0%nat c) (moment km 1 c))).
Proof. intros Hb Eb Hp Hf Hm. destruct (iw_known fit (tau_mesh beta s' L) iwm n gw km Hm Hp) as [-> Hv]. exact (inverse_known iwm s' L beta n gw km Hb Eb Hf Hv). Qed.
Lemma given_weaken k k' n km : (k' <= k)%nat -> moments_given k n km -> moments_given k' n km.
Proof. intros H (A & B & D). repeat split; [exact A|lia|exact D]. Qed.
Lemma thm_round fit iwm s' L beta n gw km : 0 < beta -> if_beta iwm = beta -> if_pos iwm = false -> tau_fits iwm L -> moments_given 4 n km ->
  exists gt gw', fourier_iw_to_tau fit (tau_mesh beta s' L) iwm n gw km = Ok gt /\ fourier_tau_to_iw iwm (tau_mesh beta s' L) n gt km = Ok gw' /\
    same_rows (Z.to_nat (if_size iwm)) gw gw'.
Proof.
  intros Hb Eb Hp Hf Hm. destruct (iw_known fit (tau_mesh beta s' L) iwm n gw km Hm Hp) as [E Hv]. destruct (round_known iwm s' L beta n gw km Hb Eb Hf Hv) as (gt & gw' & A & B & D).
  exists gt, gw'. rewrite E. split; [exact A|]. split; [|exact D]. rewrite (proj1 (tau_known iwm (tau_mesh beta s' L) n gt km (given_weaken 4 1 n km ltac:(lia) Hm))). exact B.
Qed.
(** with fewer than four moments given, those of the tail fit are used *)
Lemma thm_fitted fit iwm tm n gw km t err : (0 < n)%nat -> if_pos iwm = false -> (length km < 4)%nat -> (forall c, (c < n)%nat -> Cmod (moment km 0 c) < / 10 ^ 8) ->
  fit gw (match km with [] => [fun _ => RtoC 0] | _ => km end) = (t, err) -> err < / 10 ^ 2 -> (4 <= length t)%nat -> (forall c, (c < n)%nat -> Cmod (moment t 0 c) < / 10 ^ 8) ->
  fourier_iw_to_tau fit tm iwm n gw km = fourier_iw_to_tau fit tm iwm n gw t.
Proof.
  intros Hn Hp Hl Hv Ef He Ht Hvt. destruct (iw_known fit tm iwm n gw t) as [-> _]; [repeat split; assumption|exact Hp|].
  unfold fourier_iw_to_tau. rewrite Hp. destruct (Nat.eqb_spec n 0) as [E|_]; [lia|]. change (zero_tail 1) with [fun _ : nat => RtoC 0]. cbv zeta.
  assert (V : vanishing n (row (match km with [] => [fun _ => RtoC 0] | _ => km end) 0) = true) by (apply vanishing_iff; intros c Hc; destruct km; [exact (Hv c Hc)|exact (Hv c Hc)]).
  rewrite V. cbn [negb]. assert (Ln : (length (match km with [] => [fun _ : nat => RtoC 0] | _ => km end) <? 4)%nat = true) by (apply Nat.ltb_lt; destruct km; cbn in *; lia).
  match goal with |- (if ?b then _ else _) = _ => replace b with true by (symmetry; exact Ln) end. match goal with |- (let (_, _) := ?b in _) = _ => replace b with (t, err) by (symmetry; exact Ef) end. destruct (Rlt_dec err (/ 10 ^ 2)) as [_|Q]; [|contradiction]. destruct (Nat.ltb_spec 3 (length t)) as [_|Q]; [reflexivity|lia].
Qed.
Lemma thm_iw_rejects fit iwm tm n gw km : (0 < n)%nat ->
  if_pos iwm = true \/ (exists c, (c < n)%nat /\ / 10 ^ 8 <= Cmod (moment km 0 c)) \/
  ((length km < 4)%nat /\ / 10 ^ 2 <= snd (fit gw (match km with [] => [fun _ => RtoC 0] | _ => km end))) \/
  ((4 <= length km)%nat /\ (Z.of_nat (it_rows tm - 1) < 2 * if_n iwm)%Z) ->
  fourier_iw_to_tau fit tm iwm n gw km = Throw.
Proof.
  intros Hn H. unfold fourier_iw_to_tau. destruct (if_pos iwm); [reflexivity|]. destruct H as [Q|H]; [discriminate|]. destruct (Nat.eqb_spec n 0) as [E|_]; [lia|].
  change (zero_tail 1) with [fun _ : nat => RtoC 0]. cbv zeta. destruct (vanishing n (row (match km with [] => [fun _ => RtoC 0] | _ => km end) 0)) eqn:V; [|reflexivity]. cbn [negb].
  destruct H as [(c & Hc & Hv)|[[Hl He]|[Hl Hs]]].
  - exfalso. apply vanishing_iff with (c := c) in V; [|exact Hc]. unfold moment in Hv. destruct km; cbn in V, Hv; lra.
  - assert (Ln : (length (match km with [] => [fun _ : nat => RtoC 0] | _ => km end) <? 4)%nat = true) by (apply Nat.ltb_lt; destruct km; cbn in *; lia). match goal with |- (if ?b then _ else _) = _ => replace b with true by (symmetry; exact Ln) end.
    destruct (fit gw _) as [t err]. cbn [snd] in He. destruct (Rlt_dec err (/ 10 ^ 2)) as [Q|_]; [lra|reflexivity].
  - destruct km as [|k0 km]; [cbn in Hl; lia|]. destruct (Nat.ltb_spec (length (k0 :: km)) 4) as [Q|_]; [lia|]. unfold fourier_iw_to_tau_known. rewrite V. cbn [negb].
    destruct (Z.ltb_spec (Z.of_nat (it_rows tm - 1)) (2 * (if_last iwm + 1))) as [_|Q]; [reflexivity|]. unfold if_last in Q. lia.
Qed.
Lemma thm_tau_rejects iwm tm n gt km : (0 < n)%nat -> km <> [] ->
  (exists c, (c < n)%nat /\ / 10 ^ 8 <= Cmod (moment km 0 c)) \/ (Z.of_nat (it_rows tm - 1) < 2 * if_n iwm)%Z -> fourier_tau_to_iw iwm tm n gt km = Throw.
Proof.
  intros Hn Hk H. unfold fourier_tau_to_iw. destruct (Nat.eqb_spec n 0) as [E|_]; [lia|]. destruct km as [|k0 km]; [congruence|]. unfold fourier_tau_to_iw_known.
  destruct (vanishing n (row (k0 :: km) 0)) eqn:V; [|reflexivity]. cbn [negb]. destruct H as [(c & Hc & Hv)|H].
  - exfalso. apply vanishing_iff with (c := c) in V; [|exact Hc]. unfold moment in Hv. unfold row in V. lra.
  - cbv zeta. destruct (Z.ltb_spec (Z.of_nat (it_rows tm - 1)) (2 * (if_last iwm + 1))) as [_|Q]; [reflexivity|]. unfold if_last in Q. lia.
Qed.
(** the default: moments from the data *)
Lemma thm_default iwm tm n gt t : (0 < n)%nat -> (9 <= it_rows tm)%nat -> noisy tm n gt = false -> fit_tail_tau tm gt = Ok t -> fourier_tau_to_iw iwm tm n gt [] = fourier_tau_to_iw iwm tm n gt t.
Proof.
  intros Hn H9 Hno Ef. unfold fourier_tau_to_iw. destruct (Nat.eqb_spec n 0) as [E|_]; [lia|]. destruct (Nat.ltb_spec (it_rows tm) 3) as [E|_]; [lia|]. rewrite Hno, Ef. cbn [bind].
  unfold fit_tail_tau in Ef. destruct (_ <? 9)%nat; [discriminate|]. injection Ef as <-. reflexivity.
Qed.
Lemma thm_default_noisy iwm tm n gt : (0 < n)%nat -> (3 <= it_rows tm)%nat -> noisy tm n gt = true -> fourier_tau_to_iw iwm tm n gt [] = fourier_tau_to_iw iwm tm n gt (repeat (fun _ => RtoC 0) 4).
Proof. intros Hn H9 Hno. unfold fourier_tau_to_iw. destruct (Nat.eqb_spec n 0) as [E|_]; [lia|]. destruct (Nat.ltb_spec (it_rows tm) 3) as [E|_]; [lia|]. rewrite Hno. reflexivity. Qed.
Lemma noisy_const tm n gt : (0 < it_rows tm)%nat -> (forall i j c, gt i c = gt j c) -> noisy tm n gt = false.
Proof.
  intros H Hc. unfold noisy. assert (S0 : forall k, fold_right (fun c s => Rmax (Cmod (Cminus (gt k c) (gt 0%nat c)) + Cmod (Cminus (gt (it_rows tm - 1 - k)%nat c) (gt (it_rows tm - 1)%nat c))) s) 0 (seq 0 n) = 0).
  { intros k. induction (seq 0 n) as [|c l IH]; [reflexivity|]. cbn [fold_right]. rewrite IH, (Hc k 0%nat), (Hc (it_rows tm - 1 - k)%nat (it_rows tm - 1)%nat). replace (Cminus (gt 0%nat c) (gt 0%nat c)) with (RtoC 0) by ring. replace (Cminus (gt (it_rows tm - 1)%nat c) (gt (it_rows tm - 1)%nat c)) with (RtoC 0) by ring. rewrite Cmod_0, Rplus_0_l. apply Rmax_left. lra. }
  rewrite !S0. unfold Rdiv. rewrite !Rmult_0_r, !Rmult_0_l, !Rmult_0_r. destruct (Rlt_dec 0 0); [lra|]. destruct (Rlt_dec 0 0); [lra|reflexivity].
Qed.
Lemma thm_few_points : exists iwm tm gt, it_rows tm = 8%nat /\ fourier_tau_to_iw iwm tm 1 gt [] = UB.
Proof.
  exists (mkImfreq 1 Fermion 1 false), (tau_mesh 1 Fermion 7), (fun _ _ => RtoC 1). split; [reflexivity|]. unfold fourier_tau_to_iw. cbn [Nat.eqb]. change (it_rows (tau_mesh 1 Fermion 7)) with 8%nat. cbn [Nat.ltb Nat.leb].
  rewrite noisy_const; [|change (it_rows (tau_mesh 1 Fermion 7)) with 8%nat; lia|reflexivity]. reflexivity.
Qed.
Lemma thm_beta_not_compared : exists iwm tm gt gw, if_beta iwm <> it_beta tm /\ if_stat iwm <> it_stat tm /\ fourier_tau_to_iw iwm tm 1 gt (repeat (fun _ => RtoC 0) 4) = Ok gw.
Proof.
  exists (mkImfreq 2 Fermion 1 false), (tau_mesh 1 Boson 7), (fun _ _ => RtoC 1). eexists. split; [cbn; lra|]. split; [discriminate|].
  unfold fourier_tau_to_iw. cbn [Nat.eqb repeat]. unfold fourier_tau_to_iw_known.
  assert (V : vanishing 1 (row [fun _ => RtoC 0; fun _ => RtoC 0; fun _ => RtoC 0; fun _ => RtoC 0] 0) = true) by (apply vanishing_iff; intros c _; change (row _ 0 c) with (RtoC 0); rewrite Cmod_0; apply Rinv_0_lt_compat, pow_lt; lra).
  rewrite V. cbn [negb]. cbv zeta. change (it_rows (tau_mesh 1 Boson 7) - 1)%nat with 7%nat. destruct (Z.ltb_spec (Z.of_nat 7) (2 * (if_last (mkImfreq 2 Fermion 1 false) + 1))) as [Q|_]; [cbn in Q; lia|].
  rewrite base_ok by (cbn; lia). cbn [bind]. reflexivity.
Qed.
Lemma thm_limit iwm s' beta n km (g : nat -> R -> C) d c I : 0 < beta -> if_beta iwm = beta -> (0 <= if_n iwm)%Z -> moments_given 1 n km -> (d < Z.to_nat (if_size iwm))%nat ->
  cintegral (fun t => Cmult (matsubara_wave beta (if_stat iwm) (if_to_index iwm (Z.of_nat d)) t) (g c t)) 0 beta I ->
  forall eps, 0 < eps -> exists N, forall L, (N <= L)%nat ->
    exists gw, fourier_tau_to_iw iwm (tau_mesh beta s' L) n (fun j c => g c (tau_pt beta L j)) km = Ok gw /\ Cmod (Cminus (gw d c) I) < eps.
Proof.
  intros Hb Eb Hn Hm Hd HI eps He. destruct (tau_known iwm (tau_mesh beta s' 1) n (fun j c => g c 0) km Hm) as [_ Hv]. destruct (direct_limit iwm s' beta n km g d c I Hb Eb Hn Hv Hd HI eps He) as [N B]. exists N. intros L HL. destruct (B L HL) as (gw & E & Q). exists gw. split; [|exact Q]. rewrite (proj1 (tau_known _ _ _ _ _ Hm)). exact E.
Qed.
(** a Green's function that is the sum of the three poles is transformed exactly *)
Lemma thm_exact iwm s' L beta n km : 0 < beta -> if_beta iwm = beta -> tau_fits iwm L -> moments_given 1 n km ->
  exists gw, fourier_tau_to_iw iwm (tau_mesh beta s' L) n (fun j c => tail_tau (if_stat iwm) beta (moment km 1 c) (moment km 2 c) (moment km 3 c) (tau_pt beta L j)) km = Ok gw /\
    forall d c, (d < Z.to_nat (if_size iwm))%nat -> gw d c = tail_iw (if_stat iwm) (moment km 1 c) (moment km 2 c) (moment km 3 c) (i_omega beta (if_stat iwm) (if_to_index iwm (Z.of_nat d))).
Proof.
  intros Hb Eb Hf Hm. destruct (thm_direct iwm s' L beta n (fun j c => tail_tau (if_stat iwm) beta (moment km 1 c) (moment km 2 c) (moment km 3 c) (tau_pt beta L j)) km Hb Eb Hf Hm) as (gw & E & V). exists gw. split; [exact E|]. intros d c Hd. rewrite (V d c Hd). cbv zeta.
  match goal with |- Cplus ?a ?b = ?b => assert (Z : a = RtoC 0); [|rewrite Z; ring] end. unfold trapezoid, total. rewrite csum_zero by (intros j _; ring). ring.
Qed.

(** lattices: shapes *)
Lemma thm_shapes : exists rm km g gk, cy_size rm = cy_size km /\ fourier_r_to_k km rm g = Ok gk /\ gk 1%nat 0%nat = Ci /\ rm = mkCyc 4 1 1 /\ km = mkCyc 2 2 1.
Proof.
  exists (mkCyc 4 1 1), (mkCyc 2 2 1), (fun i _ => if (i =? 1)%nat then RtoC 1 else RtoC 0). eexists. split; [reflexivity|]. split; [unfold fourier_r_to_k, lattice_impl; apply base_ok; cbn; lia|]. split; [|split; reflexivity].
  change (prodn (dims_of (mkCyc 4 1 1))) with 4%nat. cbn [Nat.ltb Nat.leb]. unfold dft. change (prodn (dims_of (mkCyc 4 1 1))) with 4%nat. rewrite (csum_single _ 4 1); [|lia|intros i _ Hi; destruct (Nat.eqb_spec i 1); [contradiction|ring]].
  cbn [Nat.eqb]. rewrite Cmult_1_l. unfold FFTW_BACKWARD, dims_of. cbn [cy_d0 cy_d1 cy_d2]. change (Z.to_nat 4) with 4%nat. change (Z.to_nat 1) with 1%nat. unfold turns. cbn [prodn Nat.mul Nat.add]. rewrite Nat.div_1_r, !Nat.mod_1_r. cbn [Nat.mul Nat.add Nat.div Nat.divmod fst].
  replace (1 * (2 * PI * (INR 1 / INR 4 + (INR 0 / INR 1 + (INR 0 / INR 1 + 0))))) with (PI / 2) by (cbn; field). apply Ceq; cbn; [apply cos_PI2|apply sin_PI2].
Qed.

(** product meshes: the lattice transform acts on every line *)
Lemma lattice_columns sgn m : cyc_ok m -> forall n g, (0 < n)%nat -> exists d, lattice_impl sgn m m g = Ok d /\
  forall i c, (i < cy_rows m)%nat -> (c < n)%nat -> d i c = dft sgn (dims_of m) (fun j => g j c) i.
Proof.
  intros Hm n g Hn. pose proof (rows_prod m Hm) as Er. pose proof (rows_pos m Hm) as Hr. eexists. split; [unfold lattice_impl; apply base_ok; lia|]. intros i c Hi Hc. rewrite <- Er. destruct (Nat.ltb_spec i (cy_rows m)); [reflexivity|lia].
Qed.

Lemma greatest_fold (f : nat -> R) n : (0 < n)%nat -> (forall c, 0 <= f c) -> greatest n f (fold_right (fun c s => Rmax (f c) s) 0 (seq 0 n)).
Proof.
  intros Hn Hf. assert (G : forall l, (forall c, In c l -> f c <= fold_right (fun c s => Rmax (f c) s) 0 l) /\ (l = [] \/ exists c, In c l /\ f c = fold_right (fun c s => Rmax (f c) s) 0 l)).
  { induction l as [|x l [IH1 IH2]]; [split; [intros c []|left; reflexivity]|]. cbn [fold_right]. split.
    - intros c [->|H]; [apply Rmax_l|]. eapply Rle_trans; [apply IH1; exact H|apply Rmax_r].
    - right. destruct (Rle_dec (fold_right (fun c s => Rmax (f c) s) 0 l) (f x)) as [H|H].
      + exists x. split; [left; reflexivity|]. rewrite Rmax_left; [reflexivity|exact H].
      + rewrite Rmax_right by lra. destruct IH2 as [->|(c & Hc & E)]; [cbn in H; specialize (Hf x); lra|]. exists c. split; [right; exact Hc|exact E]. }
  destruct (G (seq 0 n)) as [G1 G2]. split; [intros c Hc; apply G1, in_seq; lia|]. destruct G2 as [E|(c & Hc & E)]; [destruct n; [lia|discriminate E]|]. exists c. apply in_seq in Hc. split; [lia|exact E].
Qed.
Lemma greatest_scale n f D k : 0 < k -> greatest n f D -> greatest n (fun c => f c / k) (D / k).
Proof.
  intros Hk [H1 (c & Hc & E)]. split; [intros d Hd; apply Rmult_le_compat_r; [left; apply Rinv_0_lt_compat; exact Hk|apply H1; exact Hd]|]. exists c. split; [exact Hc|rewrite E; reflexivity].
Qed.
Lemma greatest_unique n f D D' : greatest n f D -> greatest n f D' -> D = D'.
Proof. intros [H1 (c & Hc & E)] [H2 (c' & Hc' & E')]. apply Rle_antisym; [rewrite <- E; apply H2; exact Hc|rewrite <- E'; apply H1; exact Hc']. Qed.
Lemma thm_noise beta s L n gt D1 D2 : 0 < beta -> (2 <= L)%nat -> (0 < n)%nat -> greatest n (end_slopes beta L gt 1) D1 -> greatest n (end_slopes beta L gt 2) D2 ->
  (noisy (tau_mesh beta s L) n gt = false <-> 95 / 100 * D2 <= D1 <= 105 / 100 * D2).
Proof.
  intros Hb HL Hn G1 G2. unfold noisy. rewrite it_rows_eq. replace (L + 1 - 1)%nat with L by lia. rewrite tau_delta by lia. assert (P : 0 < INR L) by (apply lt_0_INR; lia). set (h := beta / INR L) in *. assert (Hh : 0 < h) by (apply Rdiv_lt_0_compat; assumption).
  set (u := fun k c => Cmod (Cminus (gt k c) (gt 0%nat c)) + Cmod (Cminus (gt (L - k)%nat c) (gt L c))).
  assert (U : forall k c, 0 <= u k c) by (intros; unfold u; apply Rplus_le_le_0_compat; apply Cmod_ge_0).
  change (fold_right (fun c s0 => Rmax (Cmod (Cminus (gt 1%nat c) (gt 0%nat c)) + Cmod (Cminus (gt (L - 1)%nat c) (gt L c))) s0) 0 (seq 0 n)) with (fold_right (fun c s0 => Rmax (u 1%nat c) s0) 0 (seq 0 n)).
  change (fold_right (fun c s0 => Rmax (Cmod (Cminus (gt 2%nat c) (gt 0%nat c)) + Cmod (Cminus (gt (L - 2)%nat c) (gt L c))) s0) 0 (seq 0 n)) with (fold_right (fun c s0 => Rmax (u 2%nat c) s0) 0 (seq 0 n)).
  pose proof (greatest_scale _ _ _ (INR 1 * h) ltac:(cbn; lra) (greatest_fold (u 1%nat) n Hn (U 1%nat))) as F1. pose proof (greatest_scale _ _ _ (INR 2 * h) ltac:(cbn; lra) (greatest_fold (u 2%nat) n Hn (U 2%nat))) as F2.
  rewrite (greatest_unique _ _ _ _ G1 F1), (greatest_unique _ _ _ _ G2 F2). set (S1 := fold_right (fun c s0 => Rmax (u 1%nat c) s0) 0 (seq 0 n)). set (S2 := fold_right (fun c s0 => Rmax (u 2%nat c) s0) 0 (seq 0 n)).
  replace (S1 / (INR 1 * h)) with (S1 / h) by (cbn; field; lra). replace (S2 / (INR 2 * h)) with (1 / 2 * S2 / h) by (cbn; field; lra).
  destruct (Rlt_dec _ _) as [A|A]; [split; [discriminate|lra]|]. destruct (Rlt_dec _ _) as [B|B]; [split; [discriminate|lra]|]. split; [lra|reflexivity].
Qed.
Lemma thm_tail_values a m1 m2 t : real_tail_t a m1 m2 t =
  if Rlt_dec 0 t then Cmult (Copp (Cmult Ci (real_a1 a m1 m2))) (RtoC (exp (- a * t)))
  else if Rlt_dec t 0 then Cmult (Cmult Ci (real_a2 a m1 m2)) (RtoC (exp (a * t)))
  else Cmult (RtoC (1 / 2)) (Cplus (Copp (Cmult Ci (real_a1 a m1 m2))) (Cmult Ci (real_a2 a m1 m2))).
Proof.
  unfold real_tail_t, th_expo, th_expo_neg. destruct (Rlt_dec 0 t) as [P|P].
  - destruct (Rlt_dec t 0) as [Q|Q]; [lra|]. ring.
  - destruct (Rlt_dec t 0) as [Q|Q]; [ring|]. assert (t = 0) by lra. subst t. rewrite !Rmult_0_r, exp_0. ring.
Qed.
Lemma thm_window wm tm : conjugate_meshes wm tm -> real_a wm * (IZR (li_L tm) * li_delta tm / 2) = PI * sqrt (IZR (li_L tm)).
Proof.
  intros (H1 & E & H). unfold real_a. rewrite E. replace (li_delta wm * sqrt (IZR (li_L tm)) * (IZR (li_L tm) * li_delta tm / 2)) with (li_delta tm * li_delta wm * IZR (li_L tm) / 2 * sqrt (IZR (li_L tm))) by field. rewrite H. field.
Qed.
