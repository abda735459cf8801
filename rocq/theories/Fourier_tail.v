(** The tails of the Fourier transforms: their integrals, their moments, and convergence of the transform. *)
From Coq Require Import ZArith QArith Reals Qreals List Bool Arith Lia Lra.
From Coquelicot Require Import Coquelicot.
From Verif Require Import Base Matsubara LinMesh Mesh Lattice ThermalSpec Csum Fourier FourierSpec Fourier_dft Fourier_lat Fourier_real Fourier_riemann Fourier_mats.
Import ListNotations.
Local Open Scope R_scope.

(** ---- integrals ---- *)
Lemma cint_ext f g x y z : (forall t, f t = g t) -> cintegral f x y z -> cintegral g x y z.
Proof. intros H [H1 H2]. split; (eapply is_RInt_ext; [|eassumption]); intros t _; cbv beta; rewrite H; reflexivity. Qed.
Lemma cint_add f g x y z z' : cintegral f x y z -> cintegral g x y z' -> cintegral (fun t => Cplus (f t) (g t)) x y (Cplus z z').
Proof. intros [A1 A2] [B1 B2]. split; cbn [fst snd Cplus]; [exact (is_RInt_plus _ _ _ _ _ _ A1 B1)|exact (is_RInt_plus _ _ _ _ _ _ A2 B2)]. Qed.
Lemma cint_scal a f x y z : cintegral f x y z -> cintegral (fun t => Cmult a (f t)) x y (Cmult a z).
Proof.
  intros [A1 A2]. split; cbn [fst snd Cmult].
  - exact (is_RInt_minus _ _ _ _ _ _ (is_RInt_scal _ _ _ (fst a) _ A1) (is_RInt_scal _ _ _ (snd a) _ A2)).
  - exact (is_RInt_plus _ _ _ _ _ _ (is_RInt_scal _ _ _ (fst a) _ A2) (is_RInt_scal _ _ _ (snd a) _ A1)).
Qed.
Definition ew (w b t : R) : C := Cmult (expi (w * t)) (RtoC (exp (- b * t))).
Lemma q_pos w b : Cminus (Cmult Ci (RtoC w)) (RtoC b) <> RtoC 0 -> 0 < b * b + w * w.
Proof.
  intros H. destruct (Req_dec b 0) as [->|Hb]; [|nra]. destruct (Req_dec w 0) as [->|Hw]; [|nra]. exfalso. apply H. apply Ceq; cbn; ring.
Qed.
Lemma exp_int w b x y : Cminus (Cmult Ci (RtoC w)) (RtoC b) <> RtoC 0 ->
  cintegral (ew w b) x y (Cdiv (Cminus (ew w b y) (ew w b x)) (Cminus (Cmult Ci (RtoC w)) (RtoC b))).
Proof.
  intros H. pose proof (q_pos w b H) as Q. split.
  - assert (D : forall t, is_derive (fun t => exp (- b * t) * (- b * cos (w * t) + w * sin (w * t)) / (b * b + w * w)) t (exp (- b * t) * cos (w * t))).
    { intros t. auto_derive; [trivial|]. field. lra. }
    pose proof (is_RInt_derive _ (fun t => exp (- b * t) * cos (w * t)) x y (fun t _ => D t)) as I.
    match goal with |- is_RInt _ _ _ ?v => replace v with (minus (exp (- b * y) * (- b * cos (w * y) + w * sin (w * y)) / (b * b + w * w)) (exp (- b * x) * (- b * cos (w * x) + w * sin (w * x)) / (b * b + w * w))) end.
    + eapply is_RInt_ext; [|apply I]; [|intros t _; apply (ex_derive_continuous (fun t => exp (- b * t) * cos (w * t))); auto_derive; trivial].
      intros t _. unfold ew, expi. cbn. ring.
    + unfold ew, expi, Cdiv, minus, plus, opp. cbn. field. repeat split; nra.
  - assert (D : forall t, is_derive (fun t => exp (- b * t) * (- b * sin (w * t) - w * cos (w * t)) / (b * b + w * w)) t (exp (- b * t) * sin (w * t))).
    { intros t. auto_derive; [trivial|]. field. lra. }
    pose proof (is_RInt_derive _ (fun t => exp (- b * t) * sin (w * t)) x y (fun t _ => D t)) as I.
    match goal with |- is_RInt _ _ _ ?v => replace v with (minus (exp (- b * y) * (- b * sin (w * y) - w * cos (w * y)) / (b * b + w * w)) (exp (- b * x) * (- b * sin (w * x) - w * cos (w * x)) / (b * b + w * w))) end.
    + eapply is_RInt_ext; [|apply I]; [|intros t _; apply (ex_derive_continuous (fun t => exp (- b * t) * sin (w * t))); auto_derive; trivial].
      intros t _. unfold ew, expi. cbn. ring.
    + unfold ew, expi, Cdiv, minus, plus, opp. cbn. field. repeat split; nra.
Qed.

(** ---- the Matsubara tail ---- *)
Lemma parts_iw x b : fst (Cminus (Cmult Ci (RtoC x)) (RtoC b)) = - b /\ snd (Cminus (Cmult Ci (RtoC x)) (RtoC b)) = x.
Proof. cbn. split; ring. Qed.
Lemma i_omega_nz beta s n b : 0 < beta -> good_pole s b -> Cminus (i_omega beta s n) (RtoC b) <> RtoC 0.
Proof.
  intros Hb Hg E. pose proof (f_equal fst E) as E1. pose proof (f_equal snd E) as E2. unfold i_omega in E1, E2. destruct (parts_iw (PI * IZR (2 * n + match s with Fermion => 1 | Boson => 0 end) / beta) b) as [F1 F2]. rewrite F1 in E1. rewrite F2 in E2. change (fst (RtoC 0)) with 0 in E1. change (snd (RtoC 0)) with 0 in E2. destruct s.
  - cbn in Hg. apply Hg. lra.
  - assert (Q : PI * IZR (2 * n + 1) / beta = 0) by exact E2. pose proof PI_RGT_0. assert (Z : IZR (2 * n + 1) = 0).
    { replace (IZR (2 * n + 1)) with (PI * IZR (2 * n + 1) / beta * beta / PI) by (field; lra). rewrite Q. unfold Rdiv. ring. }
    apply eq_IZR in Z. lia.
Qed.
Lemma pole_int beta s n a b : 0 < beta -> good_pole s b ->
  cintegral (fun t => Cmult (matsubara_wave beta s n t) (one_pole s a b t beta)) 0 beta (Cdiv a (Cminus (i_omega beta s n) (RtoC b))).
Proof.
  intros Hb Hg. assert (Hb0 : beta <> 0) by lra. pose proof (i_omega_nz beta s n b Hb Hg) as Hz. pose proof (den_nz s b beta Hg Hb0) as Hd.
  set (w := PI * IZR (2 * n + match s with Fermion => 1 | Boson => 0 end) / beta).
  set (D := 1 - pm s * exp (- beta * b)) in *.
  pose proof (cint_scal (Copp (Cmult a (RtoC (/ D)))) _ _ _ _ (exp_int w b 0 beta Hz)) as I.
  replace (Cdiv a (Cminus (i_omega beta s n) (RtoC b))) with (Cmult (Copp (Cmult a (RtoC (/ D)))) (Cdiv (Cminus (ew w b beta) (ew w b 0)) (Cminus (Cmult Ci (RtoC w)) (RtoC b)))).
  - eapply cint_ext; [|exact I]. intros t. cbv beta. rewrite one_eq by assumption. fold D. unfold ew, matsubara_wave. fold w. unfold Rdiv. rewrite RtoC_mult. ring.
  - change (Cmult Ci (RtoC w)) with (i_omega beta s n). assert (E0 : ew w b 0 = RtoC 1) by (unfold ew; rewrite !Rmult_0_r, expi_0, exp_0; ring).
    assert (Eb : ew w b beta = Cmult (RtoC (pm s)) (RtoC (exp (- beta * b)))).
    { unfold ew. change (expi (w * beta)) with (matsubara_wave beta s n beta). rewrite wave_beta by exact Hb0. do 3 f_equal. ring. }
    rewrite E0, Eb. replace (Cminus (Cmult (RtoC (pm s)) (RtoC (exp (- beta * b)))) (RtoC 1)) with (Copp (RtoC D)) by (unfold D; rewrite RtoC_minus, RtoC_mult; ring).
    rewrite RtoC_inv by exact Hd. field. split; [exact Hz|apply RtoC_nz; exact Hd].
Qed.
Lemma tail_int beta s n m1 m2 m3 : 0 < beta ->
  cintegral (fun t => Cmult (matsubara_wave beta s n t) (tail_tau s beta m1 m2 m3 t)) 0 beta (tail_iw s m1 m2 m3 (i_omega beta s n)).
Proof.
  intros Hb. unfold tail_iw.
  pose proof (cint_add _ _ _ _ _ _ (cint_add _ _ _ _ _ _ (pole_int beta s n (weight s m1 m2 m3 0) (pole s 0) Hb (good_poles s 0)) (pole_int beta s n (weight s m1 m2 m3 1) (pole s 1) Hb (good_poles s 1)))
    (pole_int beta s n (weight s m1 m2 m3 2) (pole s 2) Hb (good_poles s 2))) as I.
  eapply cint_ext; [|exact I]. intros t. unfold tail_tau. cbv beta. ring.
Qed.

(** the moments of the tail *)
Lemma C2 : RtoC 2 = Cplus (RtoC 1) (RtoC 1). Proof. apply Ceq; cbn; ring. Qed.
Lemma C3 : RtoC 3 = Cplus (Cplus (RtoC 1) (RtoC 1)) (RtoC 1). Proof. apply Ceq; cbn; ring. Qed.
Lemma C4 : RtoC 4 = Cmult (Cplus (RtoC 1) (RtoC 1)) (Cplus (RtoC 1) (RtoC 1)). Proof. apply Ceq; cbn; ring. Qed.
Lemma C6 : RtoC 6 = Cmult (Cplus (RtoC 1) (RtoC 1)) (Cplus (Cplus (RtoC 1) (RtoC 1)) (RtoC 1)). Proof. apply Ceq; cbn; ring. Qed.
Lemma Ch : RtoC (- (1 / 2)) = Copp (Cdiv (RtoC 1) (Cplus (RtoC 1) (RtoC 1))).
Proof. apply Ceq; unfold Cdiv; cbn; field. Qed.
Lemma C2_nz : Cplus (RtoC 1) (RtoC 1) <> RtoC 0. Proof. rewrite <- C2. apply RtoC_nz. lra. Qed.
Lemma C3_nz : Cplus (Cplus (RtoC 1) (RtoC 1)) (RtoC 1) <> RtoC 0. Proof. rewrite <- C3. apply RtoC_nz. lra. Qed.
Lemma far z b : 2 <= Cmod z -> Rabs b <= 1 -> Cmod z * (1 / 2) <= Cmod (Cminus z (RtoC b)).
Proof.
  intros H Hb. pose proof (Cmod_triangle (Cminus z (RtoC b)) (RtoC b)) as T. replace (Cplus (Cminus z (RtoC b)) (RtoC b)) with z in T by ring. rewrite Cmod_R in T. lra.
Qed.
Lemma far_nz z b : 2 <= Cmod z -> Rabs b <= 1 -> Cminus z (RtoC b) <> RtoC 0.
Proof. intros H Hb. pose proof (far z b H Hb). apply Cmod_nz. lra. Qed.
Lemma pole_le s i : Rabs (pole s i) <= 1.
Proof. destruct s, i as [|[|i]]; cbn; unfold Rabs; destruct Rcase_abs; lra. Qed.
Definition rem_num (s : statistic) (m1 m2 m3 z : C) : C :=
  match s with
  | Fermion => Cplus m2 (Cdiv m3 z)
  | Boson => Cplus (Cplus (Cminus (Cplus (Cdiv m1 (RtoC 2)) m2) (Cdiv m3 (RtoC 2))) (Cdiv (Cplus m3 (Cdiv m2 (RtoC 2))) z)) (Cdiv m3 (Cmult (RtoC 2) (Cmult z z)))
  end.
Lemma tail_rem s m1 m2 m3 z : 2 <= Cmod z ->
  Cminus (tail_iw s m1 m2 m3 z) (expansion m1 m2 m3 z) =
  Cdiv (rem_num s m1 m2 m3 z) (Cmult z (Cmult (Cminus z (RtoC (pole s 0))) (Cmult (Cminus z (RtoC (pole s 1))) (Cminus z (RtoC (pole s 2)))))).
Proof.
  intros H. assert (Hz : z <> RtoC 0) by (apply Cmod_nz; lra).
  pose proof (far_nz z (pole s 0) H (pole_le s 0)) as P0. pose proof (far_nz z (pole s 1) H (pole_le s 1)) as P1. pose proof (far_nz z (pole s 2) H (pole_le s 2)) as P2.
  pose proof C2_nz. pose proof C3_nz. unfold tail_iw, expansion, rem_num. destruct s; cbn [weight pole] in *.
  - rewrite ?C2, ?C3, ?C4, ?C6, ?Ch in *. replace (RtoC (-1)) with (Copp (RtoC 1)) in * by (apply Ceq; cbn; ring).
    field. repeat split; try assumption; intros E; pose proof (f_equal fst E) as E1; pose proof (f_equal snd E) as E2; cbn in E1, E2; try lra.
    apply (far_nz z (- (1 / 2)) H (pole_le Boson 0)). apply Ceq; cbn; lra.
  - rewrite ?C2 in *. replace (RtoC (-1)) with (Copp (RtoC 1)) in * by (apply Ceq; cbn; ring). replace (Cminus z (RtoC 0)) with z in * by ring.
    field. repeat split; try assumption; intros E; pose proof (f_equal fst E) as E1; cbn in E1; lra.
Qed.
Definition rem_const (s : statistic) (m1 m2 m3 : C) : R :=
  match s with
  | Fermion => Cmod m2 + Cmod m3
  | Boson => Cmod (Cminus (Cplus (Cdiv m1 (RtoC 2)) m2) (Cdiv m3 (RtoC 2))) + Cmod (Cplus m3 (Cdiv m2 (RtoC 2))) + Cmod m3
  end.
Lemma Cmod_div_le x z : 1 <= Cmod z -> Cmod (Cdiv x z) <= Cmod x.
Proof.
  intros H. rewrite Cmod_div by (apply Cmod_nz; lra). pose proof (Cmod_ge_0 x). apply (Rmult_le_reg_r (Cmod z)); [lra|]. unfold Rdiv. rewrite Rmult_assoc, Rinv_l by lra. nra.
Qed.
Lemma rem_bound s m1 m2 m3 z : 2 <= Cmod z -> Cmod (rem_num s m1 m2 m3 z) <= rem_const s m1 m2 m3.
Proof.
  intros H. destruct s; cbn [rem_num rem_const].
  - eapply Rle_trans; [apply Cmod_triangle|]. apply Rplus_le_compat; [eapply Rle_trans; [apply Cmod_triangle|]; apply Rplus_le_compat_l|]; apply Cmod_div_le; [lra|].
    rewrite !Cmod_mult, Cmod_R. unfold Rabs. destruct Rcase_abs; nra.
  - eapply Rle_trans; [apply Cmod_triangle|]. apply Rplus_le_compat_l. apply Cmod_div_le. lra.
Qed.
Lemma tail_moments s m1 m2 m3 : exists K, forall z, 2 <= Cmod z -> Cmod (Cminus (tail_iw s m1 m2 m3 z) (expansion m1 m2 m3 z)) <= K / Cmod z ^ 4.
Proof.
  exists (8 * rem_const s m1 m2 m3). intros z H. rewrite tail_rem by exact H.
  pose proof (far z (pole s 0) H (pole_le s 0)) as F0. pose proof (far z (pole s 1) H (pole_le s 1)) as F1. pose proof (far z (pole s 2) H (pole_le s 2)) as F2.
  assert (Hz : z <> RtoC 0) by (apply Cmod_nz; lra).
  pose proof (far_nz z (pole s 0) H (pole_le s 0)) as P0. pose proof (far_nz z (pole s 1) H (pole_le s 1)) as P1. pose proof (far_nz z (pole s 2) H (pole_le s 2)) as P2.
  rewrite Cmod_div by (repeat apply Cmult_neq_0; assumption). rewrite !Cmod_mult. pose proof (rem_bound s m1 m2 m3 z H) as B.
  set (r := Cmod z) in *. set (a := Cmod (Cminus z (RtoC (pole s 0)))) in *. set (b := Cmod (Cminus z (RtoC (pole s 1)))) in *. set (c := Cmod (Cminus z (RtoC (pole s 2)))) in *.
  set (K := rem_const s m1 m2 m3) in *. pose proof (Cmod_ge_0 (rem_num s m1 m2 m3 z)) as G. set (q := Cmod (rem_num s m1 m2 m3 z)) in *. clearbody r a b c K q. clear Hz P0 P1 P2.
  assert (X : r ^ 4 <= 8 * (r * (a * (b * c)))).
  { assert (r * (1 / 2) * (r * (1 / 2)) <= b * c) by (apply Rmult_le_compat; nra). assert (r * (1 / 2) * (r * (1 / 2) * (r * (1 / 2))) <= a * (b * c)) by (apply Rmult_le_compat; nra). nra. }
  assert (Y : 0 < r ^ 4) by (apply pow_lt; lra). set (p := r ^ 4) in *. set (d := r * (a * (b * c))) in *. clearbody p d.
  assert (Hd : 0 < d) by lra. apply (Rmult_le_reg_r (p * d)); [nra|]. replace (q / d * (p * d)) with (q * p) by (field; lra). replace (8 * K / p * (p * d)) with (K * (8 * d)) by (field; lra).
  apply Rmult_le_compat; lra.
Qed.

(** ---- convergence of the direct transform ---- *)
Lemma trapezoid_limit (f : R -> C) b I : 0 < b -> cintegral f 0 b I ->
  forall eps, 0 < eps -> exists N : nat, forall n, (N <= n)%nat -> (0 < n)%nat -> Cmod (Cminus (trapezoid b n (fun j => f (tau_pt b n j))) I) < eps.
Proof.
  intros Hb HI eps He. destruct (left_csums f b I Hb HI (eps / 2) ltac:(lra)) as [N1 B1].
  set (K := Cmod (Cminus (f b) (f 0))). assert (HK : 0 <= K) by apply Cmod_ge_0. set (M := b * K / eps).
  destruct (nfloor_ex M) as [N2 B2]; [unfold M; apply Rdiv_le_0_compat; [nra|lra]|]. exists (N1 + S N2)%nat. intros n Hn Hp. specialize (B1 n ltac:(lia) Hp).
  unfold trapezoid. rewrite tau_L, tau_0 by exact Hp. set (S := total n (fun j => f (tau_pt b n j))) in *. set (X := Cminus (Cmult (RtoC (b / INR n)) S) I) in *.
  replace (Cminus (Cmult (RtoC (b / INR n)) (Cplus S (Cmult (RtoC (1 / 2)) (Cminus (f b) (f 0))))) I) with (Cplus X (Cmult (RtoC (b / INR n * (1 / 2))) (Cminus (f b) (f 0)))) by (unfold X; rewrite !RtoC_mult; ring).
  eapply Rle_lt_trans; [apply Cmod_triangle|]. rewrite Cmod_mult, Cmod_R. fold K. assert (Hn0 : INR N2 + 1 <= INR n) by (rewrite <- S_INR; apply le_INR; lia). assert (P : 0 < INR n) by (apply lt_0_INR; lia).
  rewrite Rabs_pos_eq by (apply Rmult_le_pos; [apply Rdiv_le_0_compat; lra|lra]).
  assert (Q : b / INR n * K <= eps).
  { apply (Rmult_le_reg_r (INR n)); [exact P|]. replace (b / INR n * K * INR n) with (b * K) by (field; lra). replace (b * K) with (M * eps) by (unfold M; field; lra). nra. }
  lra.
Qed.
Lemma direct_limit iwm s' beta n km (g : nat -> R -> C) d c I : 0 < beta -> if_beta iwm = beta -> (0 <= if_n iwm)%Z -> vanishing n (row km 0) = true -> (d < Z.to_nat (if_size iwm))%nat ->
  cintegral (fun t => Cmult (matsubara_wave beta (if_stat iwm) (if_to_index iwm (Z.of_nat d)) t) (g c t)) 0 beta I ->
  forall eps, 0 < eps -> exists N, forall L, (N <= L)%nat ->
    exists gw, fourier_tau_to_iw_known iwm (tau_mesh beta s' L) n (fun j c => g c (tau_pt beta L j)) km = Ok gw /\ Cmod (Cminus (gw d c) I) < eps.
Proof.
  intros Hb Eb Hn Hv Hd HI eps He. set (s := if_stat iwm) in *. set (w := if_to_index iwm (Z.of_nat d)) in *.
  set (m1 := row km 1 c). set (m2 := row km 2 c). set (m3 := row km 3 c).
  assert (J : cintegral (fun t => Cmult (matsubara_wave beta s w t) (Cminus (g c t) (tail_tau s beta m1 m2 m3 t))) 0 beta (Cminus I (tail_iw s m1 m2 m3 (i_omega beta s w)))).
  { pose proof (cint_add _ _ _ _ _ _ HI (cint_scal (RtoC (-1)) _ _ _ _ (tail_int beta s w m1 m2 m3 Hb))) as A.
    replace (Cminus I (tail_iw s m1 m2 m3 (i_omega beta s w))) with (Cplus I (Cmult (RtoC (-1)) (tail_iw s m1 m2 m3 (i_omega beta s w)))) by (replace (RtoC (-1)) with (Copp (RtoC 1)) by (apply Ceq; cbn; ring); ring).
    eapply cint_ext; [|exact A]. intros t. cbv beta. replace (RtoC (-1)) with (Copp (RtoC 1)) by (apply Ceq; cbn; ring). ring. }
  destruct (trapezoid_limit _ beta _ Hb J eps He) as [N B]. exists (N + 1 + Z.to_nat (2 * if_n iwm))%nat. intros L HL.
  assert (Hf : tau_fits iwm L) by (unfold tau_fits; lia). destruct (direct_known iwm s' L beta n (fun j c => g c (tau_pt beta L j)) km Hb Eb Hf Hv) as (gw & E & V).
  exists gw. split; [exact E|]. rewrite (V d c Hd). fold s w m1 m2 m3. specialize (B L ltac:(lia) ltac:(lia)).
  match goal with |- Cmod (Cminus (Cplus ?a ?t) I) < _ => replace (Cminus (Cplus a t) I) with (Cminus a (Cminus I t)) by ring end. exact B.
Qed.

(** ---- the tails of real times ---- *)
Lemma expi_mod x : Cmod (expi x) = 1.
Proof. unfold Cmod, expi. cbn. replace (cos x * (cos x * 1) + sin x * (sin x * 1)) with 1; [apply sqrt_1|]. pose proof (sin2_cos2 x) as H. unfold Rsqr in H. lra. Qed.
Lemma iw_a_nz w a : a <> 0 -> Cminus (Cmult Ci (RtoC w)) (RtoC a) <> RtoC 0.
Proof. intros H E. apply (f_equal fst) in E. cbn in E. lra. Qed.
