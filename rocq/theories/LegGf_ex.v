(** Existence of the Bessel functions, transform from Matsubara frequencies, counterexamples. *)
From Coq Require Import ZArith NArith List Arith Bool Lia Reals Lra.
From Coquelicot Require Import Coquelicot.
From Verif Require Fourier_proofs.
From Verif Require Import Base Matsubara LinMesh ThermalSpec Csum LehmannSpec Legendre Legendre_proofs LegendrePoly LegOrth Fourier FourierSpec Fourier_dft Fourier_lat Fourier_tail Fourier_mats Density Density_proofs LegGf LegGfSpec LegGf_int LegGf_proofs LegGf_tail LegGf_thms.
Import ListNotations.
Local Open Scope R_scope.

Lemma odd_int (h : R -> R) : (forall t, continuous h t) -> (forall t, h (- t) = - h t) -> is_RInt h (-1) 1 0.
Proof.
  intros Hc Ho. assert (Ex : ex_RInt h (-1) 1) by (apply (ex_RInt_continuous (V := R_CompleteNormedModule)); intros; apply Hc). destruct Ex as [v Hv].
  assert (A : is_RInt (fun y => opp (h (- y))) 1 (-1) v). { apply (is_RInt_comp_opp (V := R_NormedModule)). replace (- (1)) with (-1) by ring. replace (- -1) with 1 by ring. exact Hv. }
  apply (is_RInt_swap (V := R_NormedModule)) in A. assert (B : v = - v).
  { refine (is_RInt_same _ _ _ _ _ _ Hv A _). intros t. unfold opp. cbn. rewrite Ho. ring. }
  replace 0 with v by lra. exact Hv.
Qed.
Lemma cosP_cont x l t : continuous (fun t => cos (x * t) * P l t) t.
Proof. apply (ex_derive_continuous (K := R_AbsRing) (V := R_NormedModule)). assert (X : ex_derive (P l) t) by (eexists; apply P_derive). auto_derive. auto. Qed.
Lemma sinP_cont x l t : continuous (fun t => sin (x * t) * P l t) t.
Proof. apply (ex_derive_continuous (K := R_AbsRing) (V := R_NormedModule)). assert (X : ex_derive (P l) t) by (eexists; apply P_derive). auto_derive. auto. Qed.
Definition isg (l : nat) : R := (-1) ^ (Nat.div2 l).
Lemma power_i l : power Ci l = if Nat.even l then RtoC (isg l) else Cmult Ci (RtoC (isg l)).
Proof.
  revert l. apply two_step; [reflexivity|apply Ceq; cbn; ring|]. intros l A B. rewrite !power_S, A, Nat.even_succ_succ. unfold isg. cbn [Nat.div2 pow]. destruct (Nat.even l); apply Ceq; cbn; ring.
Qed.
Lemma isg_sq l : isg l * isg l = 1. Proof. unfold isg. rewrite <- Rpow_mult_distr. replace (-1 * -1) with 1 by ring. apply pow1. Qed.
Definition IC (l : nat) (x : R) : R := RInt (fun t => cos (x * t) * P l t) (-1) 1.
Definition IS (l : nat) (x : R) : R := RInt (fun t => sin (x * t) * P l t) (-1) 1.
Definition bessel_J (a x : R) : R :=
  let l := Z.to_nat (Int_part a) in isg l * (if Nat.even l then IC l x else IS l x) / (2 * sqrt (PI / (2 * x))).
Lemma bessel_exists : bessel_function bessel_J.
Proof.
  intros l x Hx. assert (Hs : sqrt (PI / (2 * x)) <> 0) by (apply Rgt_not_eq, sqrt_lt_R0, Rdiv_lt_0_compat; [apply PI_RGT_0|lra]).
  assert (El : Z.to_nat (Int_part (INR l + 1 / 2)) = l) by (rewrite (int_part_eq _ (Z.of_nat l)); [apply Nat2Z.id|rewrite <- INR_IZR_INZ; lra]).
  unfold bessel_J. rewrite El. rewrite power_i. pose proof (isg_sq l) as Sq.
  assert (Pn : forall t, P l (- t) = (if Nat.even l then 1 else -1) * P l t) by (intros; apply P_parity).
  destruct (Nat.even l) eqn:Ev.
  - replace (Cmult (RtoC (isg l)) (RtoC (2 * (sqrt (PI / (2 * x)) * (isg l * (IC l x) / (2 * sqrt (PI / (2 * x)))))))) with (RtoC (IC l x)).
    2:{ rewrite <- RtoC_mult. f_equal. transitivity (isg l * isg l * IC l x); [rewrite Sq; ring|field; exact Hs]. }
    split; cbn [fst snd RtoC].
    + apply (is_RInt_ext (fun t => cos (x * t) * P l t)); [intros t _; cbn -[P]; toR; ring|]. apply (RInt_correct (V := R_CompleteNormedModule)), (ex_RInt_continuous (V := R_CompleteNormedModule)). intros; apply cosP_cont.
    + apply (is_RInt_ext (fun t => sin (x * t) * P l t)); [intros t _; cbn -[P]; toR; ring|]. apply odd_int; [intros; apply sinP_cont|]. intros t. rewrite Pn. replace (x * - t) with (- (x * t)) by ring. rewrite sin_neg. ring.
  - replace (Cmult (Cmult Ci (RtoC (isg l))) (RtoC (2 * (sqrt (PI / (2 * x)) * (isg l * (IS l x) / (2 * sqrt (PI / (2 * x)))))))) with (Cmult Ci (RtoC (IS l x))).
    2:{ rewrite <- Cmult_assoc, <- RtoC_mult. f_equal. f_equal. transitivity (isg l * isg l * IS l x); [rewrite Sq; ring|field; exact Hs]. }
    assert (E1 : fst (Cmult Ci (RtoC (IS l x))) = 0) by (cbn; ring). assert (E2 : snd (Cmult Ci (RtoC (IS l x))) = (IS l x)) by (cbn; ring).
    split; [rewrite E1|rewrite E2].
    + apply (is_RInt_ext (fun t => cos (x * t) * P l t)); [intros t _; cbn -[P]; toR; ring|]. apply odd_int; [intros; apply cosP_cont|]. intros t. rewrite Pn. replace (x * - t) with (- (x * t)) by ring. rewrite cos_neg. ring.
    + apply (is_RInt_ext (fun t => sin (x * t) * P l t)); [intros t _; cbn -[P]; toR; ring|]. apply (RInt_correct (V := R_CompleteNormedModule)), (ex_RInt_continuous (V := R_CompleteNormedModule)). intros; apply sinP_cont.
Qed.

(** ---- from Matsubara frequencies ---- *)
Definition NT : nat := Z.to_nat 49999.
Lemma NT_mesh beta s : it_make beta s 50000 = tau_mesh beta s NT.
Proof. unfold tau_mesh, NT. rewrite Z2Nat.id by lia. reflexivity. Qed.
Lemma NT_pos : (0 < NT)%nat. Proof. unfold NT. lia. Qed.
Lemma thm_from_iw fit nl iwm n gw gt : fourier_iw_to_tau fit (tau_mesh (if_beta iwm) (if_stat iwm) NT) iwm n gw [] = Ok gt ->
  exists gl, iw_to_leg fit nl iwm n gw = Ok gl /\ forall l c, (l < nl)%nat -> gl l c = trapezoid (if_beta iwm) NT (fun j => Cmult (RtoC (leg_weight (if_beta iwm) l (tau_pt (if_beta iwm) NT j))) (gt j c)).
Proof.
  intros H. unfold iw_to_leg. rewrite NT_mesh. cbv zeta. rewrite H. cbn [bind]. eexists. split; [reflexivity|]. intros l c Hl. apply thm_from_tau; [exact NT_pos|exact Hl].
Qed.
Lemma thm_from_iw_refused fit nl iwm n gw : (0 < n)%nat -> if_pos iwm = true \/ (25000 <= if_n iwm)%Z -> iw_to_leg fit nl iwm n gw = Throw.
Proof.
  intros Hn H. unfold iw_to_leg. rewrite NT_mesh. cbv zeta. assert (E : fourier_iw_to_tau fit (tau_mesh (if_beta iwm) (if_stat iwm) NT) iwm n gw [] = Throw); [|rewrite E; reflexivity].
  unfold fourier_iw_to_tau. destruct (if_pos iwm) eqn:Ep; [reflexivity|]. destruct H as [H|H]; [discriminate|]. destruct (Nat.eqb_spec n 0); [lia|].
  assert (K0 : forall km, fourier_iw_to_tau_known (tau_mesh (if_beta iwm) (if_stat iwm) NT) iwm n gw km = Throw).
  { intros km. unfold fourier_iw_to_tau_known. destruct (vanishing n (row km 0)); [|reflexivity]. cbn [negb]. cbv zeta. rewrite rows_tau.
    destruct (Z.ltb_spec (Z.of_nat (S NT - 1)) (2 * (if_last iwm + 1))) as [_|B]; [reflexivity|]. exfalso. assert (Z.of_nat NT = 49999)%Z by (unfold NT; apply Z2Nat.id; lia). unfold if_last in B. lia. }
  cbv zeta. destruct (negb _); [reflexivity|]. change (length (zero_tail 1) <? 4)%nat with true. cbv iota. destruct (fit gw (zero_tail 1)) as [t err]. destruct (Rlt_dec err (/ 10 ^ 2)); [|reflexivity]. destruct (3 <? length t)%nat; [apply K0|reflexivity].
Qed.

(** ---- counterexamples ---- *)
Definition g_const : data := fun l c => if (l =? 0)%nat then RtoC 1 else RtoC 0.
Definition b_mesh (beta : R) : imfreq := mkImfreq beta Boson 1 true.
Lemma csum_2 {A} (x y : A) f : csum [x; y] f = Cplus (f x) (Cplus (f y) (RtoC 0)). Proof. reflexivity. Qed.
Lemma csum_1 {A} (x : A) f : csum [x] f = Cplus (f x) (RtoC 0). Proof. reflexivity. Qed.
Lemma thm_boson J beta : bessel_function J -> 0 < beta ->
  if_to_index (b_mesh beta) 0 = 0%Z /\ cintegral (fun t => Cmult (matsubara_wave beta Boson 0 t) (leg_function beta 1 (fun l => g_const l 0%nat) t)) 0 beta (RtoC 1) /\
  leg_to_iw J (b_mesh beta) 1 g_const 0%nat 0%nat = Cmult Ci (RtoC (2 / PI)).
Proof.
  intros HJ Hb. split; [reflexivity|]. split.
  - apply (cint_ext (fun _ => RtoC (/ beta))).
    + intros t. unfold matsubara_wave, leg_function, total. cbn [seq]. rewrite csum_1. unfold g_const. cbn [Nat.eqb]. rewrite P_0. replace (PI * IZR (2 * 0 + 0) / beta * t) with 0 by (cbn; field; lra). rewrite expi_0. cbn [INR].
      replace (sqrt (2 * 0 + 1)) with 1 by (replace (2 * 0 + 1) with 1 by ring; symmetry; apply sqrt_1). apply Ceq; cbn; field; lra.
    + apply (cint_real (fun _ => / beta)). pose proof (@is_RInt_const R_NormedModule 0 beta (/ beta)) as A. assert (E : @eq R (@scal R_AbsRing R_NormedModule (beta - 0) (/ beta)) 1) by (cbn; unfold mult; cbn; field; lra).
      exact (eq_rect _ (fun v : R => is_RInt (fun _ : R => / beta) 0 beta v) A 1 E).
  - pose proof PI_RGT_0. rewrite (thm_to_iw_expansion J (b_mesh beta) 1 g_const 1 0 0 HJ Hb (le_n 1)). cbn [seq]. rewrite csum_1. change (moment ?r ?p ?c) with (row r p c). change (if_beta (b_mesh beta)) with beta. rewrite tail_row by lia. cbn [seq]. rewrite csum_1.
    change (legendre_t (Z.of_nat 0) (Z.of_nat 1)) with (legendre_t (Z.of_nat 0) 1). replace (legendre_t (Z.of_nat 0) 1 / beta ^ 1) with (tt beta 0) by (unfold tt; f_equal; ring). rewrite t_one by exact Hb. cbn [Nat.even INR]. replace (2 * 0 + 1) with 1 by ring. rewrite sqrt_1.
    change (if_to_index (b_mesh beta) (Z.of_nat 0)) with 0%Z. rewrite power_S. change (power ?z 0) with (RtoC 1). unfold i_omega, g_const. cbn [Nat.eqb]. replace (IZR (2 * 0 + 1)) with 1 by reflexivity. rewrite Rmult_1_r. apply Ceq; unfold Cdiv; cbn; field; lra.
Qed.
Definition g_odd : data := fun l c => if (l =? 1)%nat then RtoC 1 else RtoC 0.
Lemma thm_zeroth_row beta order c : (0 < order)%nat -> moment (leg_tail beta 2 g_odd order) 0 c = RtoC (2 * sqrt 3).
Proof.
  intros Ho. rewrite thm_row_zero by exact Ho. unfold total. cbn [seq]. rewrite csum_cons, csum_1. cbn [Nat.even]. unfold g_odd. cbn [Nat.eqb INR]. replace (2 * 1 + 1) with 3 by ring. rewrite Cplus_0_r, Cmult_1_r. ring.
Qed.
Definition g_off : nat -> mat := fun l i j => if ((l =? 0) && (i =? 0) && (j =? 1))%nat then RtoC 1 else RtoC 0.
Lemma thm_transposed beta : 0 < beta -> density_leg beta 1 g_off 0%nat 1%nat = RtoC 0 /\ Copp (leg_function beta 1 (fun l => g_off l 0%nat 1%nat) beta) = RtoC (- / beta).
Proof.
  intros Hb. rewrite thm_density by lra. rewrite !fun_beta by lra. unfold total. cbn [seq]. rewrite !csum_1. unfold g_off. cbn [Nat.eqb andb INR]. replace (2 * 0 + 1) with 1 by ring. rewrite sqrt_1. split; apply Ceq; cbn; field; lra.
Qed.
(** a boson with G(0) = -1, G(beta) = 1: the jump is G(beta) - G(0) = 2, but the first row is 0 *)
Lemma thm_boson_moment beta : 0 < beta -> let G := leg_function beta 2 (fun l => g_odd l 0%nat) in
  Cminus (G beta) (G 0) = RtoC (2 * sqrt 3 / beta) /\ moment (leg_tail beta 2 g_odd 2) 1 0 = RtoC 0.
Proof.
  intros Hb. cbv zeta. split.
  - rewrite fun_beta by lra. unfold leg_function, total. cbn [seq]. rewrite !csum_2. rewrite x_0, P_0, P_1. unfold g_odd. cbn [Nat.eqb INR]. replace (2 * 1 + 1) with 3 by ring. apply Ceq; cbn; field; lra.
  - change (moment ?r ?p ?c) with (row r p c). rewrite tail_row by lia. cbn [seq]. rewrite csum_cons, csum_1. unfold g_odd. cbn [Nat.eqb]. replace (legendre_t (Z.of_nat 1) (Z.of_nat 1)) with 0 by reflexivity. replace (0 / beta ^ 1) with 0 by (unfold Rdiv; ring). ring.
Qed.
Lemma zero_vanishing n : vanishing n (row (zero_tail 4) 0) = true.
Proof.
  unfold vanishing. change (row (zero_tail 4) 0) with (fun _ : nat => RtoC 0). assert (E : max_abs n (fun _ => RtoC 0) = 0).
  { unfold max_abs. induction (seq 0 n) as [|a l IH]; [reflexivity|]. cbn [fold_right]. rewrite IH, Cmod_0. apply Rmax_left. lra. }
  rewrite E. destruct (Rlt_dec 0 (/ 10 ^ 8)) as [|H]; [reflexivity|]. exfalso. apply H. apply Rinv_0_lt_compat, pow_lt. lra.
Qed.
Lemma from_iw_ex : exists fit gt, fourier_iw_to_tau fit (tau_mesh 1 Fermion (Z.to_nat 49999)) (mkImfreq 1 Fermion 10 false) 1 (fun _ _ => RtoC 0) [] = Ok gt.
Proof.
  exists (fun _ _ => (zero_tail 4, 0)). destruct (Fourier_proofs.thm_inverse (fun _ _ => (zero_tail 4, 0)) (mkImfreq 1 Fermion 10 false) Fermion NT 1 1 (fun _ _ => RtoC 0) (zero_tail 4)) as (gt & E & _); try reflexivity; try lra.
  - split; [exact NT_pos|]. split; [cbn [if_n]; lia|]. cbn [if_n]. unfold NT. rewrite Z2Nat.id by lia. lia.
  - split; [lia|]. split; [cbn; lia|]. intros c _. change (row (zero_tail 4) 0 c) with (RtoC 0). rewrite Cmod_0. apply Rinv_0_lt_compat, pow_lt. lra.
  - exists gt. fold NT. unfold fourier_iw_to_tau in E |- *. cbn [if_pos] in *. change (1 =? 0)%nat with false in *. cbv iota zeta in *. change (row (zero_tail 1) 0) with (row (zero_tail 4) 0). rewrite zero_vanishing in *. cbn [negb] in *.
    change (length (zero_tail 1) <? 4)%nat with true. change (length (zero_tail 4) <? 4)%nat with false in E. change (3 <? length (zero_tail 4))%nat with true. cbv iota in *. change (zero_tail 4) with [(fun _ : nat => RtoC 0); (fun _ => RtoC 0); (fun _ => RtoC 0); (fun _ => RtoC 0)] in *.
    destruct (Rlt_dec 0 (/ 10 ^ 2)) as [|H]; [exact E|]. exfalso. apply H. apply Rinv_0_lt_compat, pow_lt. lra.
Qed.
