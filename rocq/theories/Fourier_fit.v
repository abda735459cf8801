(** The moments that the direct Matsubara transform deduces from the data, and the tails in real time. *)
From Coq Require Import ZArith QArith Reals Qreals List Bool Arith Lia Lra.
From Coquelicot Require Import Coquelicot.
From Verif Require Import Base Matsubara LinMesh Mesh Lattice ThermalSpec Csum Fourier FourierSpec Fourier_dft Fourier_lat Fourier_real Fourier_riemann Fourier_mats Fourier_tail.
Import ListNotations.
Local Open Scope R_scope.

(** ---- the Vandermonde inverse ---- *)
Definition wq (i j : nat) : Q := fold_right (fun m s => (nth m (nth i V_inv []) 0%Q * inject_Z (Z.of_nat (m + 1) ^ Z.of_nat j) + s)%Q) 0%Q (seq 0 8).
Definition wr (i j : nat) : R := fold_right (fun m s => vinv i m * INR (m + 1) ^ j + s) 0 (seq 0 8).
Lemma wr_Q i j : wr i j = Q2R (wq i j).
Proof.
  unfold wr, wq. induction (seq 0 8) as [|m l IH]; cbn [fold_right]; [unfold Q2R; cbn; ring|]. rewrite IH, Q2R_plus, Q2R_mult. unfold vinv. f_equal. f_equal.
  unfold Q2R, inject_Z. cbn [Qnum Qden]. rewrite INR_IZR_INZ, pow_IZR. field.
Qed.
Definition wtest (i j : nat) : bool := (let d := wq i j - (if (j =? i)%nat then 1 else 0) in Qle_bool d (1 # 1000000) && Qle_bool (- (1 # 1000000)) d)%Q.
Lemma wtest_ok : forallb (fun i => forallb (wtest i) (seq 0 8)) [0%nat; 1%nat] = true.
Proof. vm_compute. reflexivity. Qed.
Lemma wr_bound i j : (i < 2)%nat -> (j < 8)%nat -> Rabs (wr i j - (if (j =? i)%nat then 1 else 0)) <= / 10 ^ 6.
Proof.
  intros Hi Hj. pose proof wtest_ok as W. rewrite forallb_forall in W. specialize (W i ltac:(cbn; lia)). rewrite forallb_forall in W. specialize (W j ltac:(apply in_seq; lia)).
  unfold wtest in W. apply andb_true_iff in W. destruct W as [W1 W2]. apply Qle_bool_iff, Qle_Rle in W1. apply Qle_bool_iff, Qle_Rle in W2. rewrite Q2R_opp in W2. rewrite Q2R_minus in W1, W2. rewrite <- wr_Q in W1, W2.
  assert (E : Q2R (if (j =? i)%nat then 1 else 0)%Q = if (j =? i)%nat then 1 else 0) by (destruct (j =? i)%nat; unfold Q2R; cbn; field). rewrite E in W1, W2.
  assert (M : Q2R (1 # 1000000) = / 10 ^ 6) by (unfold Q2R; cbn [Qnum Qden]; field). rewrite M in W1, W2. apply Rabs_le. lra.
Qed.

(** ---- polynomials ---- *)
Definition slope (a : nat -> C) (t : R) : C := csum (seq 0 8) (fun j => Cmult (a (S j)) (RtoC (t ^ j))).
Lemma poly_0 a : poly a 0 = a 0%nat.
Proof. unfold poly. rewrite (csum_single _ 9 0); [cbn; ring|lia|]. intros i _ H. destruct i; [lia|]. cbn [pow]. rewrite Rmult_0_l. ring. Qed.
Lemma poly_slope a t : poly a t = Cplus (a 0%nat) (Cmult (RtoC t) (slope a t)).
Proof.
  unfold poly, slope. change (seq 0 9) with (0%nat :: seq 1 8). rewrite csum_cons, <- seq_shift, csum_map, <- csum_l. cbn [pow]. f_equal; [ring|]. apply csum_ext. intros j _. rewrite RtoC_mult. ring.
Qed.
Lemma Cmod_csum {A} (f : A -> C) xs : Cmod (csum xs f) <= fold_right (fun x s => Cmod (f x) + s) 0 xs.
Proof. induction xs as [|x xs IH]; [unfold csum; cbn [fold_right]; rewrite Cmod_0; lra|]. rewrite csum_cons. cbn [fold_right]. eapply Rle_trans; [apply Cmod_triangle|]. lra. Qed.
Lemma combine_poly a delta i : (i < 2)%nat -> 0 <= delta ->
  Cmod (Cminus (csum (seq 0 8) (fun m => Cmult (RtoC (vinv i m)) (slope a (INR (m + 1) * delta)))) (Cmult (a (S i)) (RtoC (delta ^ i)))) <= / 10 ^ 6 * size_of a delta.
Proof.
  intros Hi Hd.
  assert (E : csum (seq 0 8) (fun m => Cmult (RtoC (vinv i m)) (slope a (INR (m + 1) * delta))) = csum (seq 0 8) (fun j => Cmult (Cmult (a (S j)) (RtoC (delta ^ j))) (RtoC (wr i j)))).
  { unfold slope. rewrite (csum_ext _ (fun m => csum (seq 0 8) (fun j => Cmult (Cmult (a (S j)) (RtoC (delta ^ j))) (RtoC (vinv i m * INR (m + 1) ^ j))))).
    - rewrite csum_swap. apply csum_ext. intros j _. rewrite csum_l. f_equal. apply csum_real.
    - intros m _. rewrite <- csum_l. apply csum_ext. intros j _. rewrite Rpow_mult_distr, !RtoC_mult. ring. }
  rewrite E.
  assert (S1 : Cmult (a (S i)) (RtoC (delta ^ i)) = csum (seq 0 8) (fun j => Cmult (Cmult (a (S j)) (RtoC (delta ^ j))) (RtoC (if (j =? i)%nat then 1 else 0)))).
  { symmetry. rewrite (csum_single _ 8 i); [rewrite Nat.eqb_refl; ring|lia|]. intros j _ Hj. destruct (Nat.eqb_spec j i); [contradiction|ring]. }
  rewrite S1. match goal with |- Cmod (Cminus ?x ?y) <= _ => replace (Cminus x y) with (Cplus x (Cmult (RtoC (-1)) y)) by (replace (RtoC (-1)) with (Copp (RtoC 1)) by (apply Ceq; cbn; ring); ring) end.
  rewrite <- csum_l, <- csum_add. eapply Rle_trans; [apply Cmod_csum|]. unfold size_of.
  assert (B : forall j, In j (seq 0 8) -> Rabs (wr i j - (if (j =? i)%nat then 1 else 0)) <= / 10 ^ 6) by (intros j Hj; apply in_seq in Hj; apply wr_bound; lia).
  clear E S1. revert B. induction (seq 0 8) as [|j l IH]; intros B; cbn [fold_right]; [lra|]. rewrite Rmult_plus_distr_l. apply Rplus_le_compat; [|apply IH; intros k Hk; apply B; right; exact Hk].
  replace (Cplus (Cmult (Cmult (a (S j)) (RtoC (delta ^ j))) (RtoC (wr i j))) (Cmult (RtoC (-1)) (Cmult (Cmult (a (S j)) (RtoC (delta ^ j))) (RtoC (if (j =? i)%nat then 1 else 0)))))
    with (Cmult (Cmult (a (S j)) (RtoC (delta ^ j))) (RtoC (wr i j - (if (j =? i)%nat then 1 else 0)))) by (rewrite RtoC_minus; replace (RtoC (-1)) with (Copp (RtoC 1)) by (apply Ceq; cbn; ring); ring).
  rewrite !Cmod_mult, !Cmod_R. rewrite (Rabs_pos_eq (delta ^ j)) by (apply pow_le; exact Hd). rewrite (Rmult_comm (/ 10 ^ 6)). apply Rmult_le_compat_l; [apply Rmult_le_pos; [apply Cmod_ge_0|apply pow_le; exact Hd]|]. apply B. left. reflexivity.
Qed.

(** ---- the fit ---- *)
Lemma tau_delta beta s L : (0 < L)%nat -> li_delta (it_lin (tau_mesh beta s L)) = beta / INR L.
Proof.
  intros H. unfold tau_mesh, it_make, li_make. cbn [it_lin li_delta]. destruct (Z.eqb_spec (Z.of_nat L + 1) 1) as [E|_]; [lia|]. rewrite plus_IZR, <- INR_IZR_INZ. f_equal; ring.
Qed.
Lemma tau_step beta L m : tau_pt beta L m = INR m * (beta / INR L). Proof. reflexivity. Qed.
Lemma fit_poly beta s L gt a b : 0 < beta -> (8 <= L)%nat ->
  (forall m c, (m <= 8)%nat -> gt m c = poly (a c) (tau_pt beta L m) /\ gt (L - m)%nat c = poly (b c) (tau_pt beta L m)) ->
  exists t, fit_tail_tau (tau_mesh beta s L) gt = Ok t /\ forall c, let delta := beta / INR L in let p := RtoC (pm s) in
    row t 0 c = RtoC 0 /\ row t 1 c = Cminus (Cmult p (b c 0%nat)) (a c 0%nat) /\
    Cmod (Cminus (row t 2 c) (Cplus (a c 1%nat) (Cmult p (b c 1%nat)))) <= / 10 ^ 6 * (size_of (a c) delta + size_of (b c) delta) /\
    Cmod (Cminus (row t 3 c) (Cmult (RtoC 2) (Cminus (Cmult p (b c 2%nat)) (a c 2%nat)))) <= 2 / delta * (/ 10 ^ 6 * (size_of (a c) delta + size_of (b c) delta)).
Proof.
  intros Hb HL Hp. unfold fit_tail_tau. rewrite it_rows_eq. destruct (Nat.ltb_spec (L + 1) 9) as [H|_]; [lia|]. replace (L + 1 - 1)%nat with L by lia.
  assert (HR : 0 < INR L) by (apply lt_0_INR; lia). eexists. split; [reflexivity|]. intros c. cbv zeta. unfold row. cbn [nth].
  set (delta := beta / INR L). assert (Hd : 0 < delta) by (unfold delta; apply Rdiv_lt_0_compat; lra).
  assert (Es : RtoC (match it_stat (tau_mesh beta s L) with Fermion => -1 | Boson => 1 end) = RtoC (pm s)) by (destruct s; reflexivity). rewrite Es.
  assert (G0 : gt 0%nat c = a c 0%nat) by (rewrite (proj1 (Hp 0%nat c ltac:(lia))), tau_0, poly_0; reflexivity).
  assert (GL : gt L c = b c 0%nat) by (pose proof (proj2 (Hp 0%nat c ltac:(lia))) as Q; rewrite tau_0, poly_0, Nat.sub_0_r in Q; exact Q).
  assert (El : forall i, csum (seq 0 8) (fun m => Cmult (RtoC (vinv i m)) (Cdiv (Cminus (gt (m + 1)%nat c) (gt 0%nat c)) (RtoC (it_pt (tau_mesh beta s L) (m + 1))))) = csum (seq 0 8) (fun m => Cmult (RtoC (vinv i m)) (slope (a c) (INR (m + 1) * delta)))).
  { intros i. apply csum_ext. intros m Hm. apply in_seq in Hm. f_equal. rewrite it_pt_eq by lia. rewrite (proj1 (Hp (m + 1)%nat c ltac:(lia))), G0, poly_slope, tau_step. fold delta.
    field. apply RtoC_nz. assert (0 < INR (m + 1)) by (apply lt_0_INR; lia). nra. }
  assert (Er : forall i, csum (seq 0 8) (fun m => Cmult (RtoC (vinv i m)) (Cdiv (Cminus (gt L c) (gt (L - (m + 1))%nat c)) (RtoC (it_pt (tau_mesh beta s L) (m + 1))))) = Copp (csum (seq 0 8) (fun m => Cmult (RtoC (vinv i m)) (slope (b c) (INR (m + 1) * delta))))).
  { intros i. transitivity (Cmult (RtoC (-1)) (csum (seq 0 8) (fun m => Cmult (RtoC (vinv i m)) (slope (b c) (INR (m + 1) * delta))))); [|replace (RtoC (-1)) with (Copp (RtoC 1)) by (apply Ceq; cbn; ring); ring].
    rewrite <- csum_l. apply csum_ext. intros m Hm. apply in_seq in Hm. replace (RtoC (-1)) with (Copp (RtoC 1)) by (apply Ceq; cbn; ring). rewrite it_pt_eq by lia. rewrite (proj2 (Hp (m + 1)%nat c ltac:(lia))), GL, poly_slope, tau_step. fold delta.
    field. apply RtoC_nz. assert (0 < INR (m + 1)) by (apply lt_0_INR; lia). nra. }
  rewrite !El, !Er, G0, GL, tau_delta by lia. fold delta.
  pose proof (combine_poly (a c) delta 0 ltac:(lia) ltac:(lra)) as A0. pose proof (combine_poly (b c) delta 0 ltac:(lia) ltac:(lra)) as B0.
  pose proof (combine_poly (a c) delta 1 ltac:(lia) ltac:(lra)) as A1. pose proof (combine_poly (b c) delta 1 ltac:(lia) ltac:(lra)) as B1.
  set (sa0 := csum (seq 0 8) (fun m => Cmult (RtoC (vinv 0 m)) (slope (a c) (INR (m + 1) * delta)))) in *. set (sb0 := csum (seq 0 8) (fun m => Cmult (RtoC (vinv 0 m)) (slope (b c) (INR (m + 1) * delta)))) in *.
  set (sa1 := csum (seq 0 8) (fun m => Cmult (RtoC (vinv 1 m)) (slope (a c) (INR (m + 1) * delta)))) in *. set (sb1 := csum (seq 0 8) (fun m => Cmult (RtoC (vinv 1 m)) (slope (b c) (INR (m + 1) * delta)))) in *.
  clearbody sa0 sb0 sa1 sb1. cbn [pow] in A0, B0, A1, B1. rewrite Rmult_1_r in A1, B1. rewrite !Cmult_1_r in A0, B0.
  assert (P1 : Cmod (RtoC (pm s)) = 1) by (rewrite Cmod_R; destruct s; cbn; unfold Rabs; destruct Rcase_abs; lra).
  split; [reflexivity|]. split; [ring|]. split.
  - replace (Cminus (Cminus sa0 (Cmult (RtoC (pm s)) (Copp sb0))) (Cplus (a c 1%nat) (Cmult (RtoC (pm s)) (b c 1%nat)))) with (Cplus (Cminus sa0 (a c 1%nat)) (Cmult (RtoC (pm s)) (Cminus sb0 (b c 1%nat)))) by ring.
    eapply Rle_trans; [apply Cmod_triangle|]. rewrite Cmod_mult, P1. cbn [pow]. lra.
  - assert (Hn : RtoC delta <> RtoC 0) by (apply RtoC_nz; lra).
    replace (Cminus (Cdiv (Cmult (Copp (Cplus sa1 (Cmult (RtoC (pm s)) (Copp sb1)))) (RtoC 2)) (RtoC delta)) (Cmult (RtoC 2) (Cminus (Cmult (RtoC (pm s)) (b c 2%nat)) (a c 2%nat))))
      with (Cmult (Cdiv (RtoC 2) (RtoC delta)) (Cplus (Cmult (RtoC (pm s)) (Cminus sb1 (Cmult (b c 2%nat) (RtoC delta)))) (Copp (Cminus sa1 (Cmult (a c 2%nat) (RtoC delta)))))) by (field; exact Hn).
    rewrite Cmod_mult, Cmod_div, !Cmod_R by exact Hn. rewrite (Rabs_pos_eq 2), (Rabs_pos_eq delta) by lra. apply Rmult_le_compat_l; [apply Rdiv_le_0_compat; lra|].
    eapply Rle_trans; [apply Cmod_triangle|]. rewrite Cmod_mult, P1, Cmod_opp. cbn [pow]. lra.
Qed.

(** ---- the tails of real times ---- *)
Lemma cint_ext_open f g x y z : x <= y -> (forall t, x < t < y -> f t = g t) -> cintegral f x y z -> cintegral g x y z.
Proof. intros Hxy H [H1 H2]. split; (eapply is_RInt_ext; [|eassumption]); intros t Ht; rewrite Rmin_left, Rmax_right in Ht by exact Hxy; cbv beta; rewrite H by exact Ht; reflexivity. Qed.
Lemma cint_chasles f x y z u v : cintegral f x y u -> cintegral f y z v -> cintegral f x z (Cplus u v).
Proof. intros [A1 A2] [B1 B2]. split; [exact (is_RInt_Chasles _ _ _ _ _ _ A1 B1)|exact (is_RInt_Chasles _ _ _ _ _ _ A2 B2)]. Qed.
