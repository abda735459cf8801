(** Adjoint meshes, the real-time tails as integrals, and the transform along one mesh of a product. *)
From Coq Require Import ZArith Reals List Bool Arith Lia Lra.
From Coquelicot Require Import Coquelicot.
From Verif Require Import Base Matsubara LinMesh Mesh Lattice Lattice_proofs ThermalSpec Csum GfSym GfSymSpec GfSym_proofs Flatten FlattenSpec Flatten_proofs Flatten_props Fourier FourierSpec Fourier_dft Fourier_lat Fourier_real Fourier_riemann Fourier_mats Fourier_tail Fourier_fit.
Import ListNotations.
Local Open Scope R_scope.

(** ---- the tails of real times ---- *)
Lemma iw_mod w a : Rabs a <= Cmod (Cminus (Cmult Ci (RtoC w)) (RtoC a)).
Proof.
  pose proof (Rmax_Cmod (Cminus (Cmult Ci (RtoC w)) (RtoC a))) as H. destruct (parts_iw w a) as [E _]. rewrite E, Rabs_Ropp in H. eapply Rle_trans; [apply Rmax_l|exact H].
Qed.
Lemma ew_mod w b t : Cmod (ew w b t) = exp (- b * t).
Proof. unfold ew. rewrite Cmod_mult, expi_mod, Cmod_R, Rabs_pos_eq by (left; apply exp_pos). ring. Qed.
Lemma Ci_nz : Ci <> RtoC 0. Proof. intros E. apply (f_equal snd) in E. cbn in E. lra. Qed.
Lemma right_half w a T : 0 < a -> 0 < T -> exists z, cintegral (fun t => Cmult (expi (w * t)) (th_expo t a)) 0 T z /\ Cmod (Cminus z (th_expo_inv w a)) <= exp (- a * T) / a.
Proof.
  intros Ha HT. pose proof (iw_a_nz w a ltac:(lra)) as Hn. pose proof (iw_mod w a) as Hm. rewrite (Rabs_pos_eq a) in Hm by lra.
  eexists. split.
  - eapply cint_ext_open; [lra| |apply (cint_scal (Copp Ci) _ _ _ _ (exp_int w a 0 T Hn))]. intros t Ht. cbv beta. unfold th_expo, ew. destruct (Rlt_dec 0 t); [ring|lra].
  - assert (E : Cminus (Cmult (Copp Ci) (Cdiv (Cminus (ew w a T) (ew w a 0)) (Cminus (Cmult Ci (RtoC w)) (RtoC a)))) (th_expo_inv w a) = Cdiv (Cmult (Copp Ci) (ew w a T)) (Cminus (Cmult Ci (RtoC w)) (RtoC a))).
    { assert (E0 : ew w a 0 = RtoC 1) by (unfold ew; rewrite !Rmult_0_r, expi_0, exp_0; ring). rewrite E0. unfold th_expo_inv.
      assert (Q : Cminus (Cmult Ci (RtoC w)) (RtoC a) = Cmult Ci (Cplus (RtoC w) (Cmult Ci (RtoC a)))) by (transitivity (Cplus (Cmult Ci (RtoC w)) (Cmult (Cmult Ci Ci) (RtoC a))); [rewrite Ci_sq; replace (RtoC (-1)) with (Copp (RtoC 1)) by (apply Ceq; cbn; ring)|]; ring).
      rewrite Q in *. destruct (pole_nz w a ltac:(lra)) as [P _]. field. split; [exact P|exact Ci_nz]. }
    rewrite E, Cmod_div, Cmod_mult, ew_mod, Cmod_opp by exact Hn. replace (Cmod Ci) with 1 by (unfold Cmod, Ci; cbn; replace (0 * (0 * 1) + 1 * (1 * 1)) with 1 by ring; symmetry; apply sqrt_1).
    rewrite Rmult_1_l. unfold Rdiv. apply Rmult_le_compat_l; [left; apply exp_pos|]. apply Rinv_le_contravar; assumption.
Qed.
Lemma left_half w a T : 0 < a -> 0 < T -> exists z, cintegral (fun t => Cmult (expi (w * t)) (th_expo_neg t a)) (- T) 0 z /\ Cmod (Cminus z (th_expo_neg_inv w a)) <= exp (- a * T) / a.
Proof.
  intros Ha HT. pose proof (iw_a_nz w (- a) ltac:(lra)) as Hn. pose proof (iw_mod w (- a)) as Hm. rewrite Rabs_Ropp, (Rabs_pos_eq a) in Hm by lra.
  eexists. split.
  - eapply cint_ext_open; [lra| |apply (cint_scal Ci _ _ _ _ (exp_int w (- a) (- T) 0 Hn))]. intros t Ht. cbv beta. unfold th_expo_neg, ew. destruct (Rlt_dec t 0); [rewrite Ropp_involutive; ring|lra].
  - assert (E : Cminus (Cmult Ci (Cdiv (Cminus (ew w (- a) 0) (ew w (- a) (- T))) (Cminus (Cmult Ci (RtoC w)) (RtoC (- a))))) (th_expo_neg_inv w a) = Cdiv (Cmult (Copp Ci) (ew w (- a) (- T))) (Cminus (Cmult Ci (RtoC w)) (RtoC (- a)))).
    { assert (E0 : ew w (- a) 0 = RtoC 1) by (unfold ew; rewrite !Rmult_0_r, expi_0, exp_0; ring). rewrite E0. unfold th_expo_neg_inv.
      assert (Q : Cminus (Cmult Ci (RtoC w)) (RtoC (- a)) = Cmult Ci (Cminus (RtoC w) (Cmult Ci (RtoC a)))) by (rewrite RtoC_opp; transitivity (Cminus (Cmult Ci (RtoC w)) (Cmult (Cmult Ci Ci) (RtoC a))); [rewrite Ci_sq; replace (RtoC (-1)) with (Copp (RtoC 1)) by (apply Ceq; cbn; ring)|]; ring).
      rewrite Q in *. destruct (pole_nz w a ltac:(lra)) as [_ P]. field. split; [exact P|exact Ci_nz]. }
    rewrite E, Cmod_div, Cmod_mult, ew_mod, Cmod_opp by exact Hn. replace (Cmod Ci) with 1 by (unfold Cmod, Ci; cbn; replace (0 * (0 * 1) + 1 * (1 * 1)) with 1 by ring; symmetry; apply sqrt_1).
    rewrite Rmult_1_l. replace (- - a * - T) with (- a * T) by ring. unfold Rdiv. apply Rmult_le_compat_l; [left; apply exp_pos|]. apply Rinv_le_contravar; assumption.
Qed.
Lemma real_tail_int a m1 m2 w T : 0 < a -> 0 < T -> exists z, cintegral (fun t => Cmult (expi (w * t)) (real_tail_t a m1 m2 t)) (- T) T z /\
  Cmod (Cminus z (real_tail_w a m1 m2 w)) <= exp (- a * T) / a * (Cmod (real_a1 a m1 m2) + Cmod (real_a2 a m1 m2)).
Proof.
  intros Ha HT. destruct (right_half w a T Ha HT) as (u & Iu & Bu). destruct (left_half w a T Ha HT) as (v & Iv & Bv).
  set (a1 := real_a1 a m1 m2). set (a2 := real_a2 a m1 m2). exists (Cplus (Cmult a2 v) (Cmult a1 u)). split.
  - apply (cint_chasles _ _ 0).
    + eapply cint_ext_open; [lra| |exact (cint_scal a2 _ _ _ _ Iv)]. intros t Ht. cbv beta. unfold real_tail_t. fold a1 a2. assert (E : th_expo t a = RtoC 0) by (unfold th_expo; destruct (Rlt_dec 0 t); [lra|]; destruct (Rlt_dec t 0); [reflexivity|lra]). rewrite E. ring.
    + eapply cint_ext_open; [lra| |exact (cint_scal a1 _ _ _ _ Iu)]. intros t Ht. cbv beta. unfold real_tail_t. fold a1 a2. assert (E : th_expo_neg t a = RtoC 0) by (unfold th_expo_neg; destruct (Rlt_dec t 0); [lra|]; destruct (Rlt_dec 0 t); [reflexivity|lra]). rewrite E. ring.
  - unfold real_tail_w. fold a1 a2.
    replace (Cminus (Cplus (Cmult a2 v) (Cmult a1 u)) (Cplus (Cmult a1 (th_expo_inv w a)) (Cmult a2 (th_expo_neg_inv w a)))) with (Cplus (Cmult a1 (Cminus u (th_expo_inv w a))) (Cmult a2 (Cminus v (th_expo_neg_inv w a)))) by ring.
    eapply Rle_trans; [apply Cmod_triangle|]. rewrite !Cmod_mult, Rmult_plus_distr_l, !(Rmult_comm (exp (- a * T) / a)). apply Rplus_le_compat; (apply Rmult_le_compat_l; [apply Cmod_ge_0|assumption]).
Qed.
(** the moments of the real-frequency tail *)
Lemma real_tail_moments a m1 m2 : a <> 0 -> exists K, forall w, 1 <= Rabs w -> Cmod (Cminus (real_tail_w a m1 m2 w) (Cplus (Cdiv m1 (RtoC w)) (Cdiv m2 (RtoC (w * w))))) <= K / Rabs w ^ 3.
Proof.
  intros Ha. exists (a * a * (Cmod m1 + Cmod m2)). intros w Hw. assert (Hw0 : w <> 0) by (intros ->; rewrite Rabs_R0 in Hw; lra). rewrite tail_w_eq by exact Ha.
  assert (Hq : 0 < w * w + a * a) by nra. assert (Hc : RtoC w <> RtoC 0) by (apply RtoC_nz; exact Hw0). assert (Hqc : Cplus (Cmult (RtoC w) (RtoC w)) (Cmult (RtoC a) (RtoC a)) <> RtoC 0) by (rewrite <- !RtoC_mult, <- RtoC_plus; apply RtoC_nz; lra).
  replace (Cminus (Cdiv (Cplus (Cmult m1 (RtoC w)) m2) (RtoC (w * w + a * a))) (Cplus (Cdiv m1 (RtoC w)) (Cdiv m2 (RtoC (w * w)))))
    with (Cmult (RtoC (- (a * a) / ((w * w) * (w * w + a * a)))) (Cplus (Cmult m1 (RtoC w)) m2)).
  2:{ unfold Rdiv. rewrite !RtoC_mult, RtoC_opp, RtoC_inv by (apply Rmult_integral_contrapositive_currified; [apply Rmult_integral_contrapositive_currified; exact Hw0|lra]). rewrite !RtoC_mult, !RtoC_plus, !RtoC_mult. field. split; assumption. }
  rewrite Cmod_mult, Cmod_R. set (r := Rabs w) in *. assert (Er : w * w = r * r) by (unfold r; rewrite <- Rabs_mult, Rabs_pos_eq; nra).
  assert (B : Cmod (Cplus (Cmult m1 (RtoC w)) m2) <= r * (Cmod m1 + Cmod m2)).
  { eapply Rle_trans; [apply Cmod_triangle|]. rewrite Cmod_mult, Cmod_R. fold r. pose proof (Cmod_ge_0 m2). nra. }
  rewrite Er in *. replace (- (a * a) / (r * r * (r * r + a * a))) with (- (a * a / (r * r * (r * r + a * a)))) by (unfold Rdiv; ring). rewrite Rabs_Ropp.
  assert (R1 : 0 < r * r) by nra. assert (A1 : 0 <= a * a) by nra. assert (R2 : 0 < r * r * (r * r + a * a)) by (apply Rmult_lt_0_compat; lra).
  rewrite Rabs_pos_eq by (apply Rdiv_le_0_compat; assumption). assert (X : a * a / (r * r * (r * r + a * a)) <= a * a / r ^ 4).
  { unfold Rdiv. apply Rmult_le_compat_l; [nra|]. apply Rinv_le_contravar; [apply pow_lt; lra|]. cbn. nra. }
  pose proof (Cmod_ge_0 (Cplus (Cmult m1 (RtoC w)) m2)) as G. pose proof (Cmod_ge_0 m1). pose proof (Cmod_ge_0 m2).
  apply (Rle_trans _ (a * a / r ^ 4 * (r * (Cmod m1 + Cmod m2)))).
  - apply Rmult_le_compat; [apply Rdiv_le_0_compat; assumption|exact G|exact X|exact B].
  - right. field. lra.
Qed.

(** ---- adjoint meshes ---- *)
Lemma adj_delta m sh : li_built m -> li_delta (adjoint_real m sh) = 2 * PI / (IZR (li_L m) * li_delta m) /\ li_L (adjoint_real m sh) = li_L m /\ li_built (adjoint_real m sh).
Proof.
  intros Hm. pose proof (li_delta_pos m Hm) as Hd. destruct Hm as (x & y & n & Hn & Hxy & E). assert (EL : li_L m = n) by (rewrite E; reflexivity). unfold adjoint_real. rewrite EL.
  set (d := li_delta m) in *. clearbody d. clear E EL m. assert (HnR : 2 <= IZR n) by (apply IZR_le; exact Hn). pose proof PI_RGT_0 as HP.
  set (W := PI * (IZR n - 1) / (IZR n * d)). assert (HW : 0 < W) by (unfold W; apply Rdiv_lt_0_compat; nra).
  assert (D : forall p q, q - p = 2 * W -> li_delta (li_make p q n) = 2 * PI / (IZR n * d)).
  { intros p q E. unfold li_make. cbn [li_delta]. destruct (Z.eqb_spec n 1) as [E1|_]; [lia|]. rewrite E. unfold W. field. repeat split; lra. }
  destruct sh.
  - split; [apply D; ring|]. split; [reflexivity|]. exists (- W + PI / IZR n / d), (W + PI / IZR n / d), n. split; [exact Hn|]. split; [lra|reflexivity].
  - split; [apply D; ring|]. split; [reflexivity|]. exists (- W), W, n. split; [exact Hn|]. split; [lra|reflexivity].
Qed.
Lemma adj_conjugate m sh : li_built m -> conjugate_meshes (adjoint_real m sh) m /\ conjugate_meshes m (adjoint_real m sh).
Proof.
  intros Hm. destruct (adj_delta m sh Hm) as (D & E & _). pose proof (li_delta_pos m Hm) as Hd. destruct Hm as (x & y & n & Hn & Hxy & Em). assert (EL : li_L m = n) by (rewrite Em; reflexivity).
  assert (HnR : 2 <= IZR n) by (apply IZR_le; exact Hn). unfold conjugate_meshes. rewrite E, D, EL. repeat split; try lia; field; lra.
Qed.
Lemma li_make_ext m : li_built m -> m = li_make (li_min m) (li_max m) (li_L m).
Proof. intros (x & y & n & _ & _ & ->). reflexivity. Qed.
Lemma li_span m : li_built m -> li_max m - li_min m = li_delta m * (IZR (li_L m) - 1) /\ 2 <= IZR (li_L m).
Proof.
  intros (x & y & n & Hn & Hxy & ->). assert (HnR : 2 <= IZR n) by (apply IZR_le; exact Hn). unfold li_make. cbn [li_max li_min li_delta li_L]. destruct (Z.eqb_spec n 1) as [E|_]; [lia|]. split; [field; lra|exact HnR].
Qed.
Lemma adj_twice m sh : li_built m -> let m' := adjoint_real (adjoint_real m sh) false in
  li_L m' = li_L m /\ li_delta m' = li_delta m /\ (m' = m <-> li_min m = - li_max m).
Proof.
  intros Hm. cbv zeta. destruct (adj_delta m sh Hm) as (D & E & B). destruct (adj_delta _ false B) as (D' & E' & B'). pose proof (li_delta_pos m Hm) as Hd. destruct (li_span m Hm) as [Sp HnR]. pose proof PI_RGT_0 as HP.
  split; [congruence|]. assert (DD : li_delta (adjoint_real (adjoint_real m sh) false) = li_delta m) by (rewrite D', E, D; field; repeat split; lra). split; [exact DD|].
  assert (EE : adjoint_real (adjoint_real m sh) false = li_make (- ((li_max m - li_min m) / 2)) ((li_max m - li_min m) / 2) (li_L m)).
  { unfold adjoint_real at 1. cbv zeta. rewrite E, D. f_equal; rewrite Sp; field; repeat split; lra. }
  rewrite EE. split; intros Q.
  - pose proof (f_equal li_min Q) as Q1. pose proof (f_equal li_max Q) as Q2. unfold li_make in Q1, Q2. cbn [li_min li_max] in Q1, Q2. lra.
  - transitivity (li_make (li_min m) (li_max m) (li_L m)); [f_equal; lra|symmetry; apply li_make_ext; exact Hm].
Qed.
(** the adjoint of a mesh is symmetric; shifted by half a bin, it contains zero if the number of points is even *)
Lemma adj_symmetric m : li_built m -> li_min (adjoint_real m false) = - li_max (adjoint_real m false).
Proof. intros _. unfold adjoint_real, li_make. reflexivity. Qed.
Lemma adj_zero m k : li_built m -> li_L m = (2 * Z.of_nat k)%Z -> li_pt (adjoint_real m true) (k - 1) = 0.
Proof.
  intros Hm Ek. destruct (adj_delta m true Hm) as (D & E & B). destruct (li_span m Hm) as [_ HnR]. pose proof (li_delta_pos m Hm) as Hd. assert (Hk : (1 <= k)%nat) by (destruct Hm as (x & y & n & Hn & _ & Q); rewrite Q in Ek; cbn [li_make li_L] in Ek; lia).
  rewrite li_pt_eq by exact B. rewrite D. unfold adjoint_real, li_make. cbn [li_min]. rewrite minus_INR by exact Hk. rewrite Ek, mult_IZR, <- INR_IZR_INZ in *. change (INR 1) with 1. field. split; lra.
Qed.
Lemma adj_zero_odd m k : li_built m -> li_L m = (2 * Z.of_nat k + 1)%Z -> li_pt (adjoint_real m false) k = 0.
Proof.
  intros Hm Ek. destruct (adj_delta m false Hm) as (D & E & B). destruct (li_span m Hm) as [_ HnR]. pose proof (li_delta_pos m Hm) as Hd.
  rewrite li_pt_eq by exact B. rewrite D. unfold adjoint_real, li_make. cbn [li_min]. rewrite Ek, plus_IZR, mult_IZR, <- INR_IZR_INZ in *. field. split; lra.
Qed.
Lemma adj_tau_fits m : (1 <= if_n m)%Z -> exists L, adjoint_iw m (-1) = tau_mesh (if_beta m) (if_stat m) L /\ tau_fits m L.
Proof.
  intros H. exists (Z.to_nat (6 * if_n m)). unfold adjoint_iw, tau_mesh, tau_fits. change ((-1 =? -1)%Z) with true. cbv iota. unfold if_last. split; [|lia]. f_equal. lia.
Qed.
Lemma adj_iw_fits beta s L : (0 < L)%nat -> tau_fits (adjoint_tau (tau_mesh beta s L) (-1)) L /\ if_beta (adjoint_tau (tau_mesh beta s L) (-1)) = beta /\ if_stat (adjoint_tau (tau_mesh beta s L) (-1)) = s.
Proof.
  intros H. unfold tau_fits, adjoint_tau, tau_mesh, it_make, li_make. cbn [Z.eqb Pos.eqb it_lin li_L it_beta it_stat if_n if_beta if_stat]. rewrite Z.add_simpl_r. rewrite Z.quot_div_nonneg by lia.
  pose proof (Z.div_pos (Z.of_nat L) 6 ltac:(lia) ltac:(lia)). pose proof (Z.mul_div_le (Z.of_nat L) 6 ltac:(lia)). repeat split; lia.
Qed.
Lemma adj_iw_round m : (0 <= if_n m)%Z -> adjoint_tau (adjoint_iw m (-1)) (-1) = mkImfreq (if_beta m) (if_stat m) (if_n m) false.
Proof.
  intros H. unfold adjoint_tau, adjoint_iw, it_make, li_make. cbn [Z.eqb Pos.eqb it_lin li_L it_beta it_stat]. f_equal. unfold if_last. replace (6 * (if_n m - 1 + 1) + 1 - 1)%Z with (if_n m * 6)%Z by ring. apply Z.quot_mul. lia.
Qed.
Lemma adj_lattice l dims z : bz_make l = Ok z -> exists m, adjoint_r l dims = Ok m /\ adjoint_k m = (l, dims).
Proof. intros E. unfold adjoint_r. rewrite E. cbn [bind]. eexists. split; [reflexivity|]. unfold adjoint_k. cbn [br_bz br_dims br_make]. destruct (bz_det l z E) as (_ & _ & ->). reflexivity. Qed.
Lemma adj_brz m : brz_built m -> adjoint_r (fst (adjoint_k m)) (snd (adjoint_k m)) = Ok m.
Proof.
  intros (d & u & l & z & dm & El & Ez & Hd & ->). unfold adjoint_k. cbn [fst snd br_bz br_dims br_make]. destruct (bz_det l z Ez) as (_ & _ & Q). unfold adjoint_r. rewrite Q, Ez. reflexivity.
Qed.

(** ---- one mesh of a product ---- *)
Lemma others_upd {A} (l : list A) N x : (N < length l)%nat -> others N (upd l N x) = others N l.
Proof.
  destruct l as [|y l]; intros H; [cbn in H; lia|]. destruct N as [|n]; [reflexivity|]. cbn [upd others]. cbn in H. assert (Hn : (n < length l)%nat) by lia. clear H.
  f_equal; [|f_equal].
  - revert n Hn. induction l as [|z l IH]; intros [|n] Hn; cbn in *; try reflexivity; try lia. f_equal. apply IH. lia.
  - revert n Hn. induction l as [|z l IH]; intros [|n] Hn; cbn in *; try reflexivity; try lia. apply IH. lia.
Qed.
Lemma upd_subscript sh : forall q N nout nrows j, subscript (upd sh N nout) q -> nth_error sh N = Some nrows -> (j < nrows)%nat -> subscript sh (upd q N j).
Proof.
  induction sh as [|n sh IH]; intros q N nout nrows j H En Hj; [destruct N; discriminate|]. destruct N as [|N]; cbn [upd nth_error] in *; inversion H as [|? i ? q' H1 H2]; subst; cbn [upd].
  - injection En as ->. constructor; assumption.
  - constructor; [exact H1|]. exact (IH q' N nout nrows j H2 En Hj).
Qed.
Lemma nth_flat_map (d : nat -> nat -> C) n : forall nrows k i c, (i < nrows)%nat -> (c < n)%nat ->
  nth_error (flat_map (fun i => map (d i) (seq 0 n)) (seq k nrows)) (i * n + c) = Some (d (k + i)%nat c).
Proof.
  induction nrows as [|r IH]; intros k i c Hi Hc; [lia|]. cbn [seq flat_map]. destruct i as [|i].
  - cbn [Nat.mul Nat.add]. rewrite nth_error_app1 by (rewrite map_length, seq_length; exact Hc). rewrite nth_error_map, (nth_error_nth' _ 0%nat) by (rewrite seq_length; exact Hc). rewrite seq_nth by exact Hc. cbn. rewrite Nat.add_0_r. reflexivity.
  - rewrite nth_error_app2 by (rewrite map_length, seq_length; lia). rewrite map_length, seq_length. replace (S i * n + c - n)%nat with (i * n + c)%nat by lia. rewrite IH by lia. do 2 f_equal. lia.
Qed.
Lemma of_data_at nr n d i c : (i < nr)%nat -> (c < n)%nat -> a_at (of_data nr n d) [i; c] = Ok (d i c).
Proof.
  intros Hi Hc. unfold a_at, of_data. cbn [a_sh a_dat rank size]. replace (i * (n * 1) + (c * 1 + 0))%nat with (i * n + c)%nat by lia. rewrite nth_flat_map by assumption. reflexivity.
Qed.
Lemma of_data_full nr n d : full (of_data nr n d).
Proof.
  unfold full, of_data. cbn [a_sh a_dat size]. generalize 0%nat at 2. induction nr as [|r IH]; intros k; [reflexivity|]. cbn [seq flat_map]. rewrite app_length, map_length, seq_length, IH. lia.
Qed.
Lemma subscript_nth sh : forall q N n i, subscript sh q -> nth_error sh N = Some n -> nth_error q N = Some i -> (i < n)%nat.
Proof.
  induction sh as [|m sh IH]; intros q N n i H En Ei; [destruct N; discriminate|]. inversion H as [|? j ? q' H1 H2]; subst. destruct N as [|N]; cbn [nth_error] in *; [congruence|]. exact (IH q' N n i H2 En Ei).
Qed.
Lemma others_subscript N sh q : subscript sh q -> (N < length sh)%nat -> subscript (others N sh) (others N q).
Proof.
  intros H HN. destruct (swap0_ok N sh HN) as (sh' & Es & _). destruct (swap0_ok N q ltac:(rewrite (subscript_len _ _ H); exact HN)) as (q' & Eq & _).
  pose proof (swap0_subscript N sh q sh' q' H Es Eq) as G. destruct (swap0_others N _ _ Es) as (x & _ & ->). destruct (swap0_others N _ _ Eq) as (y & _ & ->). inversion G. assumption.
Qed.
Lemma transform_lines N nout impl (a : arr C) nrows : full a -> nth_error (a_sh a) N = Some nrows -> (0 < nrows)%nat -> (0 < nout)%nat ->
  let n := size (others N (a_sh a)) in
  exists gin,
    (forall q i, subscript (a_sh a) q -> nth_error q N = Some i -> a_at a q = Ok (gin i (rank (others N (a_sh a)) (others N q)))) /\
    match impl n gin with
    | Ok d => exists a', transform N nout impl a = Ok a' /\ a_sh a' = upd (a_sh a) N nout /\ full a' /\
        forall q i, subscript (upd (a_sh a) N nout) q -> nth_error q N = Some i -> a_at a' q = Ok (d i (rank (others N (a_sh a)) (others N q)))
    | Throw => transform N nout impl a = Throw
    | UB => transform N nout impl a = UB
    end.
Proof.
  intros F En Hr Ho n. assert (HN : (N < length (a_sh a))%nat) by (apply nth_error_Some; congruence). destruct (flatten_ok N a nrows F En Hr) as (t & sh' & Es & E & Est & Ft & _).
  destruct (swap0_others N _ _ Es) as (x & Ex & Eo). rewrite En in Ex. injection Ex as <-. injection Eo as Eo. subst sh'. set (b := mkArr [nrows; size (others N (a_sh a))] (a_dat t)) in *.
  exists (to_data b). split.
  - intros q i Hq Hi. destruct (C54_elements N a nrows q i F En Hr Hq Hi) as (b' & v & E' & Ev & Eb). rewrite E in E'. injection E' as <-. rewrite Ev. f_equal.
    unfold to_data, b. unfold a_at, b in Eb. cbn [a_sh a_dat rank size] in *. replace (i * (size (others N (a_sh a)) * 1) + (rank (others N (a_sh a)) (others N q) * 1 + 0))%nat with (i * size (others N (a_sh a)) + rank (others N (a_sh a)) (others N q))%nat in Eb by lia.
    destruct (nth_error (a_dat t) _) as [y|] eqn:Ey; [|discriminate]. injection Eb as ->. symmetry. apply nth_error_nth. exact Ey.
  - unfold transform. rewrite E. cbn [bind]. change (a_sh b) with [nrows; n]. cbv iota. destruct (impl n (to_data b)) as [d| |]; [|reflexivity|reflexivity]. cbn [bind].
    assert (EnU : nth_error (upd (a_sh a) N nout) N = Some nout) by (apply upd_at; exact HN).
    assert (SzU : size (upd (a_sh a) N nout) = (nout * n)%nat).
    { pose proof (size_upd (a_sh a) N nout nrows En) as Z. pose proof (swap0_size N _ _ Es) as Z'. cbn [size] in Z'. fold n in Z'. rewrite <- Z' in Z. nia. }
    destruct (flatten_unflatten N (upd (a_sh a) N nout) (of_data nout n d) nout n (of_data_full nout n d) EnU Ho eq_refl SzU) as (a' & Ea & Esh & Fa & Efl).
    exists a'. split; [exact Ea|]. split; [exact Esh|]. split; [exact Fa|]. intros q i Hq Hi. rewrite <- Esh in Hq. rewrite <- Esh in EnU.
    destruct (C54_elements N a' nout q i Fa EnU Ho Hq Hi) as (b' & v & E' & Ev & Eb). rewrite Efl in E'. injection E' as <-. rewrite Ev. rewrite Esh, others_upd in Eb by exact HN.
    rewrite of_data_at in Eb; [injection Eb as <-; reflexivity| |].
    + exact (subscript_nth _ q N nout i Hq EnU Hi).
    + rewrite Esh in Hq. pose proof (others_subscript N _ _ Hq ltac:(rewrite upd_length; exact HN)) as G. rewrite others_upd in G by exact HN. apply rank_lt. exact G.
Qed.
Lemma transform_columns N nout impl (Fc : (nat -> C) -> nat -> C) (a : arr C) nrows : full a -> nth_error (a_sh a) N = Some nrows -> (0 < nrows)%nat -> (0 < nout)%nat ->
  (forall n g, (0 < n)%nat -> exists d, impl n g = Ok d /\ forall i c, (i < nout)%nat -> (c < n)%nat -> d i c = Fc (fun j => g j c) i) -> (0 < size (others N (a_sh a)))%nat ->
  exists a', transform N nout impl a = Ok a' /\ a_sh a' = upd (a_sh a) N nout /\ full a' /\
    forall q i, subscript (upd (a_sh a) N nout) q -> nth_error q N = Some i ->
      exists line, (forall j, (j < nrows)%nat -> a_at a (upd q N j) = Ok (line j)) /\ a_at a' q = Ok (Fc line i).
Proof.
  intros F En Hr Ho HI Hs. assert (HN : (N < length (a_sh a))%nat) by (apply nth_error_Some; congruence). destruct (transform_lines N nout impl a nrows F En Hr Ho) as (gin & G & T). destruct (HI _ gin Hs) as (d & Ed & V). rewrite Ed in T.
  destruct T as (a' & Ea & Esh & Fa & Q). exists a'. split; [exact Ea|]. split; [exact Esh|]. split; [exact Fa|]. intros q i Hq Hi.
  assert (Lq : length q = length (a_sh a)) by (rewrite (subscript_len _ _ Hq), upd_length; reflexivity).
  exists (fun j => gin j (rank (others N (a_sh a)) (others N q))). split.
  - intros j Hj. rewrite (G (upd q N j) j); [rewrite others_upd by (rewrite Lq; exact HN); reflexivity| |apply upd_at; rewrite Lq; exact HN]. exact (upd_subscript _ _ _ _ _ _ Hq En Hj).
  - rewrite (Q q i Hq Hi). f_equal. apply V.
    + exact (subscript_nth _ q N nout i Hq ltac:(apply upd_at; exact HN) Hi).
    + pose proof (others_subscript N _ _ Hq ltac:(rewrite upd_length; exact HN)) as Z. rewrite others_upd in Z by exact HN. apply rank_lt. exact Z.
Qed.
