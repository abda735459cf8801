(** Matsubara transform, tail, discontinuity and density of Green's functions of Legendre coefficients. *)
From Coq Require Import ZArith NArith List Arith Bool Lia Reals Lra.
From Coquelicot Require Import Coquelicot.
From Verif Require Import Base Matsubara LinMesh ThermalSpec Csum LehmannSpec Legendre Legendre_proofs LegendrePoly LegOrth Fourier FourierSpec Fourier_dft Fourier_lat Fourier_tail Fourier_mats Density Density_proofs LegGf LegGfSpec LegGf_int LegGf_proofs.
Import ListNotations.
Local Open Scope R_scope.

Lemma cpow_power z l : cpow z l = power z l.
Proof. unfold power. assert (G : forall a, fold_right (fun (_ : nat) y => Cmult z y) (RtoC 1) (seq a l) = cpow z l). { induction l as [|l IH]; intros a; [reflexivity|]. cbn [seq fold_right cpow]. rewrite IH. reflexivity. } symmetry. apply G. Qed.
Definition yn (n : Z) : R := (IZR n + 1 / 2) * PI.
Lemma yn_nz n : yn n <> 0.
Proof. unfold yn. pose proof PI_RGT_0. intros Z0. apply Rmult_integral in Z0. destruct Z0 as [Z0|Z0]; [|lra]. assert (IZR (2 * n + 1) = 0) by (rewrite plus_IZR, mult_IZR; lra). apply eq_IZR in H0. lia. Qed.
Lemma yn_2 n : expi (2 * yn n) = RtoC (-1).
Proof. replace (2 * yn n) with (PI + 2 * PI * IZR n) by (unfold yn; field). rewrite expi_period. unfold expi. rewrite cos_PI, sin_PI. reflexivity. Qed.
Lemma wave_y beta n t : 0 < beta -> matsubara_wave beta Fermion n t = Cmult (expi (yn n)) (expi (yn n * (2 * t / beta - 1))).
Proof. intros Hb. rewrite <- expi_add. unfold matsubara_wave. f_equal. unfold yn. rewrite plus_IZR, mult_IZR. field. lra. Qed.
(** the Fourier integral of one basis function *)
Lemma basis_int beta n l z : 0 < beta -> cintegral (fun t => Cmult (expi (yn n * t)) (RtoC (P l t))) (-1) 1 z ->
  cintegral (fun t => Cmult (matsubara_wave beta Fermion n t) (RtoC (sqrt (2 * INR l + 1) / beta * P l (2 * t / beta - 1)))) 0 beta (Cmult (Cmult (RtoC (sqrt (2 * INR l + 1) / 2)) (expi (yn n))) z).
Proof.
  intros Hb Hz. pose proof (cint_scal (Cmult (RtoC (sqrt (2 * INR l + 1) / beta)) (expi (yn n))) _ _ _ _ (cint_rescale _ beta _ Hb Hz)) as A.
  match type of A with cintegral _ _ _ ?w => replace w with (Cmult (Cmult (RtoC (sqrt (2 * INR l + 1) / 2)) (expi (yn n))) z) in A end.
  - eapply cint_ext; [|exact A]. intros t. cbv beta. rewrite (wave_y beta n t Hb), RtoC_mult. ring.
  - replace (sqrt (2 * INR l + 1) / 2) with (sqrt (2 * INR l + 1) / beta * (beta / 2)) by (field; lra). rewrite (RtoC_mult (sqrt (2 * INR l + 1) / beta) (beta / 2)). ring.
Qed.
Lemma cint_conj f x y z : cintegral f x y z -> cintegral (fun t => Cconj (f t)) x y (Cconj z).
Proof. intros [A B]. split; cbn [fst snd Cconj]; [exact A|]. exact (is_RInt_opp (V := R_NormedModule) _ _ _ _ B). Qed.
Lemma T_pos J n l : bessel_function J -> (0 <= n)%Z -> exists z, cintegral (fun t => Cmult (expi (yn n * t)) (RtoC (P l t))) (-1) 1 z /\
  Cmult (Cmult (Cmult (RtoC (sqrt (INR (2 * l + 1)) / sqrt (IZR (2 * n + 1)))) (expi ((IZR n + 1 / 2) * PI))) (cpow Ci l)) (RtoC (J (INR l + 1 / 2) ((IZR n + 1 / 2) * PI))) = Cmult (Cmult (RtoC (sqrt (2 * INR l + 1) / 2)) (expi (yn n))) z.
Proof.
  intros HJ Hn. pose proof PI_RGT_0. assert (Hy : 0 < yn n) by (unfold yn; apply IZR_le in Hn; nra). eexists. split; [exact (HJ l (yn n) Hy)|].
  rewrite cpow_power, INR_odd. change ((IZR n + 1 / 2) * PI) with (yn n).
  assert (E : sqrt (PI / (2 * yn n)) = / sqrt (IZR (2 * n + 1))).
  { apply IZR_le in Hn. replace (PI / (2 * yn n)) with (/ IZR (2 * n + 1)) by (unfold yn; rewrite plus_IZR, mult_IZR; field; lra). apply sqrt_inv. }
  rewrite E. unfold Rdiv. rewrite !RtoC_mult. replace (RtoC (/ 2)) with (Cinv (RtoC 2)) by (rewrite <- RtoC_inv by lra; reflexivity). field. apply RtoC_nz. lra.
Qed.
Lemma wave_conj beta n t : Cconj (matsubara_wave beta Fermion n t) = matsubara_wave beta Fermion (- n - 1) t.
Proof. unfold matsubara_wave. rewrite <- expi_opp. f_equal. replace (2 * (- n - 1) + 1)%Z with (- (2 * n + 1))%Z by lia. rewrite opp_IZR. unfold Rdiv. ring. Qed.
Lemma T_int J beta n l : bessel_function J -> 0 < beta ->
  cintegral (fun t => Cmult (matsubara_wave beta Fermion n t) (RtoC (sqrt (2 * INR l + 1) / beta * P l (2 * t / beta - 1)))) 0 beta (legendre_T J n l).
Proof.
  intros HJ Hb. unfold legendre_T. cbv zeta. destruct (Z.ltb_spec n 0) as [Hn|Hn].
  - replace (Z.abs (n + 1)) with (- n - 1)%Z by lia. destruct (T_pos J (- n - 1) l HJ ltac:(lia)) as (z & Hz & E). rewrite E. pose proof (cint_conj _ _ _ _ (basis_int beta (- n - 1) l z Hb Hz)) as A.
    eapply cint_ext; [|exact A]. intros t. cbv beta. rewrite conj_mult, conj_R, wave_conj. replace (- (- n - 1) - 1)%Z with n by lia. reflexivity.
  - destruct (T_pos J n l HJ Hn) as (z & Hz & E). rewrite E. exact (basis_int beta n l z Hb Hz).
Qed.
Lemma leg_fourier (beta : R) (n : Z) (nl : nat) (gl : nat -> C) (T : nat -> C) :
  (forall l, (l < nl)%nat -> cintegral (fun t => Cmult (matsubara_wave beta Fermion n t) (RtoC (sqrt (2 * INR l + 1) / beta * P l (2 * t / beta - 1)))) 0 beta (T l)) ->
  cintegral (fun t => Cmult (matsubara_wave beta Fermion n t) (leg_function beta nl gl t)) 0 beta (total nl (fun l => Cmult (T l) (gl l))).
Proof.
  intros H. eapply (cint_ext (fun t => total nl (fun l => Cmult (gl l) (Cmult (matsubara_wave beta Fermion n t) (RtoC (sqrt (2 * INR l + 1) / beta * P l (2 * t / beta - 1))))))).
  { intros t. unfold leg_function, total. rewrite <- csum_l. apply csum_ext. intros l _. ring. }
  replace (total nl (fun l => Cmult (T l) (gl l))) with (total nl (fun l => Cmult (gl l) (T l))) by (unfold total; apply csum_ext; intros; ring).
  apply (cint_total (fun t l => Cmult (gl l) (Cmult (matsubara_wave beta Fermion n t) (RtoC (sqrt (2 * INR l + 1) / beta * P l (2 * t / beta - 1)))))). intros l Hl. apply cint_scal, H, Hl.
Qed.
Lemma to_iw_eq J iwm nl gl d c : leg_to_iw J iwm nl gl d c = total nl (fun l => Cmult (legendre_T J (if_to_index iwm (Z.of_nat d)) l) (gl l c)).
Proof. unfold leg_to_iw. rewrite (fold_csum (fun l => Cmult (legendre_T J (if_to_index iwm (Z.of_nat d)) l) (gl l c))). unfold total. ring. Qed.
Lemma thm_to_iw J iwm beta nl gl d c : bessel_function J -> 0 < beta ->
  cintegral (fun t => Cmult (matsubara_wave beta Fermion (if_to_index iwm (Z.of_nat d)) t) (leg_function beta nl (fun l => gl l c) t)) 0 beta (leg_to_iw J iwm nl gl d c).
Proof. intros HJ Hb. rewrite to_iw_eq. apply leg_fourier. intros l _. apply T_int; assumption. Qed.

(** ---- the tail ---- *)
Lemma zfact_nat k : zfact (Z.of_nat k) = INR (fact k). Proof. unfold zfact. rewrite Nat2Z.id. reflexivity. Qed.
Lemma sg_pow p : powm1 (Z.of_nat p) = (-1) ^ p.
Proof. unfold powm1. induction p as [|p IH]; [reflexivity|]. rewrite Nat2Z.inj_succ, Z.even_succ, <- Z.negb_even. cbn [pow]. rewrite <- IH. destruct (Z.even (Z.of_nat p)); cbn [negb]; ring. Qed.
Lemma even_nat k : Z.even (Z.of_nat k) = Nat.even k.
Proof. induction k as [|k IH]; [reflexivity|]. rewrite Nat2Z.inj_succ, Z.even_succ, <- Z.negb_even, IH, Nat.even_succ, Nat.negb_even. reflexivity. Qed.
Lemma Q_par1 k l : Q k l (-1) = (if Nat.even (l + k) then 1 else -1) * Q k l 1.
Proof. replace (-1) with (- (1)) by ring. rewrite Q_parity. replace (- (1)) with (-1) by ring. reflexivity. Qed.
Lemma t_ends l k : legendre_t (Z.of_nat l) (Z.of_nat (S k)) = (-1) ^ (S k) * (sqrt (2 * INR l + 1) / 2) * 2 ^ (S k) * (Q k l 1 + Q k l (-1)).
Proof.
  rewrite thm_legendre_t by lia. rewrite (Q_par1 k l). replace (Z.odd (Z.of_nat l + Z.of_nat (S k))) with (Nat.even (l + k)).
  2:{ rewrite <- Z.negb_even. replace (Z.of_nat l + Z.of_nat (S k))%Z with (Z.succ (Z.of_nat (l + k))) by lia. rewrite Z.even_succ, <- Z.negb_even, negb_involutive. symmetry. apply even_nat. }
  destruct (Nat.even (l + k)); cbn [andb]; [|ring].
  destruct (Z.leb_spec (Z.of_nat (S k)) (Z.of_nat l + 1)) as [H|H]; [|rewrite Q_high by lia; ring].
  rewrite Q_one by lia. replace (Z.of_nat l + Z.of_nat (S k) - 1)%Z with (Z.of_nat (l + k)) by lia. replace (Z.of_nat (S k) - 1)%Z with (Z.of_nat k) by lia. replace (Z.of_nat l - Z.of_nat (S k) + 1)%Z with (Z.of_nat (l - k)) by lia.
  rewrite !zfact_nat, sg_pow. replace (IZR (2 * Z.of_nat l + 1)) with (2 * INR l + 1) by (rewrite plus_IZR, mult_IZR, <- INR_IZR_INZ; reflexivity).
  cbn [pow]. assert (2 ^ k <> 0) by (apply pow_nonzero; lra). field. repeat split; try apply INR_fact_neq_0. assumption.
Qed.
Lemma power_S z l : power z (S l) = Cmult z (power z l). Proof. rewrite <- !cpow_power. reflexivity. Qed.
Lemma power_nz z l : z <> RtoC 0 -> power z l <> RtoC 0.
Proof. intros Hz. induction l as [|l IH]; [apply RtoC_nz; lra|]. rewrite power_S. apply Cmult_neq_0; assumption. Qed.
Lemma csum_shift f N : csum (seq 0 (S N)) f = Cplus (f 0%nat) (csum (seq 0 N) (fun j => f (S j))).
Proof. cbn [seq]. rewrite csum_cons, <- seq_shift, csum_map. reflexivity. Qed.
Lemma iy_nz n : Cmult Ci (RtoC (yn n)) <> RtoC 0.
Proof. pose proof (yn_nz n). intros E. apply (f_equal snd) in E. cbn in E. lra. Qed.
Lemma bdry_y n l k : Cmult (expi (yn n)) (bdry (yn n) l k) = Copp (Cdiv (RtoC (Q k l 1 + Q k l (-1))) (Cmult Ci (RtoC (yn n)))).
Proof.
  pose proof (iy_nz n) as Hy. unfold bdry. rewrite RtoC_plus. pose proof (yn_2 n) as E2. replace (2 * yn n) with (yn n + yn n) in E2 by ring. rewrite expi_add in E2. pose proof (expi_inv (yn n)) as E1.
  set (w := Cmult Ci (RtoC (yn n))) in *. set (e := expi (yn n)) in *. set (e' := expi (- yn n)) in *. clearbody w e e'.
  replace (Cmult e (Cdiv (Cminus (Cmult e (RtoC (Q k l 1))) (Cmult e' (RtoC (Q k l (-1))))) w)) with (Cdiv (Cminus (Cmult (Cmult e e) (RtoC (Q k l 1))) (Cmult (Cmult e e') (RtoC (Q k l (-1))))) w) by (field; exact Hy).
  rewrite E1, E2. replace (RtoC (-1)) with (Copp (RtoC 1)) by (apply Ceq; cbn; ring). field. exact Hy.
Qed.
Lemma series_y n l N : forall k, Cmult (expi (yn n)) (series (yn n) l k N) =
  csum (seq 0 N) (fun j => Cdiv (RtoC ((-1) ^ (S j) * (Q (k + j) l 1 + Q (k + j) l (-1)))) (power (Cmult Ci (RtoC (yn n))) (S j))).
Proof.
  pose proof (iy_nz n) as Hy. induction N as [|N IH]; intros k; [cbn; ring|]. cbn [series]. set (w := Cmult Ci (RtoC (yn n))) in *.
  replace (Cmult (expi (yn n)) (Cminus (bdry (yn n) l k) (Cdiv (series (yn n) l (S k) N) w))) with (Cminus (Cmult (expi (yn n)) (bdry (yn n) l k)) (Cdiv (Cmult (expi (yn n)) (series (yn n) l (S k) N)) w)) by (field; exact Hy).
  rewrite bdry_y, IH, csum_shift. fold w. rewrite Nat.add_0_r. unfold Cminus. f_equal.
  - rewrite power_S. change (power w 0) with (RtoC 1). cbn [pow]. rewrite !RtoC_mult, RtoC_plus. replace (RtoC (-1)) with (Copp (RtoC 1)) by (apply Ceq; cbn; ring). field. exact Hy.
  - unfold Cdiv at 1. rewrite <- csum_r. match goal with |- Copp (csum ?l ?f) = csum ?l ?g => transitivity (csum l (fun x => Cmult (RtoC (-1)) (f x))) end.
    { rewrite csum_l. replace (RtoC (-1)) with (Copp (RtoC 1)) by (apply Ceq; cbn; ring). ring. }
    apply csum_ext. intros j _. replace (S k + j)%nat with (k + S j)%nat by lia. rewrite (power_S w (S j)). pose proof (power_nz w (S j) Hy) as Hp. set (q := power w (S j)) in *. clearbody q. set (s := Q (k + S j) l 1 + Q (k + S j) l (-1)). clearbody s.
    replace ((-1) ^ S (S j) * s) with (-1 * ((-1) ^ S j * s)) by (cbn [pow]; ring). rewrite (RtoC_mult (-1)). field. split; assumption.
Qed.
Lemma iw_y beta n : 0 < beta -> i_omega beta Fermion n = Cmult (RtoC (2 / beta)) (Cmult Ci (RtoC (yn n))).
Proof. intros Hb. unfold i_omega, yn. rewrite plus_IZR, mult_IZR. apply Ceq; cbn; field; lra. Qed.
Lemma power_mult a b p : power (Cmult a b) p = Cmult (power a p) (power b p).
Proof. induction p as [|p IH]; [cbn; ring|]. rewrite !power_S, IH. ring. Qed.
Lemma power_R x p : power (RtoC x) p = RtoC (x ^ p).
Proof. induction p as [|p IH]; [reflexivity|]. rewrite power_S, IH, <- RtoC_mult. reflexivity. Qed.
(** the Fourier integral of one basis function is a polynomial in 1/(i w) *)
Lemma basis_expansion beta n l N : 0 < beta -> (l < N)%nat ->
  cintegral (fun t => Cmult (matsubara_wave beta Fermion n t) (RtoC (sqrt (2 * INR l + 1) / beta * P l (2 * t / beta - 1)))) 0 beta
    (csum (seq 0 N) (fun j => Cdiv (RtoC (legendre_t (Z.of_nat l) (Z.of_nat (S j)) / beta ^ (S j))) (power (i_omega beta Fermion n) (S j)))).
Proof.
  intros Hb Hl. pose proof (basis_int beta n l _ Hb (series_int (yn n) l N (yn_nz n) 0 Hl)) as A.
  match type of A with cintegral _ _ _ ?w => match goal with |- cintegral _ _ _ ?v => replace v with w; [exact A|] end end.
  rewrite <- Cmult_assoc, series_y, <- csum_l. apply csum_ext. intros j _. rewrite (t_ends l j), (iw_y beta n Hb), (power_mult (RtoC (2 / beta))), (power_R (2 / beta)). change (0 + j)%nat with j.
  pose proof (power_nz _ (S j) (iy_nz n)) as Hp. set (q := power (Cmult Ci (RtoC (yn n))) (S j)) in *. clearbody q. set (s := Q j l 1 + Q j l (-1)). clearbody s.
  assert (E : (-1) ^ S j * (sqrt (2 * INR l + 1) / 2) * 2 ^ S j * s / beta ^ S j = (2 / beta) ^ S j * (sqrt (2 * INR l + 1) / 2 * ((-1) ^ S j * s))).
  { replace ((2 / beta) ^ S j) with (2 ^ S j * / beta ^ S j) by (unfold Rdiv; rewrite Rpow_mult_distr, pow_inv; reflexivity). unfold Rdiv. ring. }
  rewrite E. rewrite (RtoC_mult ((2 / beta) ^ S j)), (RtoC_mult (sqrt (2 * INR l + 1) / 2)). field. split; [exact Hp|]. apply RtoC_nz, pow_nonzero. apply Rmult_integral_contrapositive_currified; [lra|apply Rinv_neq_0_compat; lra].
Qed.
Lemma tail_row beta nl gl order p c : (p < order)%nat -> row (leg_tail beta nl gl order) p c = csum (seq 0 nl) (fun l => Cmult (RtoC (legendre_t (Z.of_nat l) (Z.of_nat p) / beta ^ p)) (gl l c)).
Proof.
  intros Hp. unfold row, leg_tail. set (F := fun p c => fold_left (fun t l => Cplus t (Cmult (RtoC (legendre_t (Z.of_nat l) (Z.of_nat p) / beta ^ p)) (gl l c))) (seq 0 nl) (RtoC 0)).
  rewrite (nth_indep _ _ (F 0%nat)) by (rewrite map_length, seq_length; exact Hp). rewrite map_nth, seq_nth by exact Hp. cbn [plus]. unfold F. rewrite (fold_csum (fun l => Cmult (RtoC (legendre_t (Z.of_nat l) (Z.of_nat p) / beta ^ p)) (gl l c))). ring.
Qed.
Lemma thm_expansion beta n nl gl N c : 0 < beta -> (nl <= N)%nat ->
  cintegral (fun t => Cmult (matsubara_wave beta Fermion n t) (leg_function beta nl (fun l => gl l c) t)) 0 beta
    (csum (seq 1 N) (fun p => Cdiv (moment (leg_tail beta nl gl (S N)) p c) (power (i_omega beta Fermion n) p))).
Proof.
  intros Hb HN. pose proof (leg_fourier beta n nl (fun l => gl l c) _ (fun l Hl => basis_expansion beta n l N Hb (Nat.lt_le_trans _ _ _ Hl HN))) as A.
  match type of A with cintegral _ _ _ ?w => match goal with |- cintegral _ _ _ ?v => replace v with w; [exact A|] end end.
  unfold total. rewrite <- seq_shift, csum_map. transitivity (csum (seq 0 nl) (fun l => csum (seq 0 N) (fun j => Cmult (Cdiv (RtoC (legendre_t (Z.of_nat l) (Z.of_nat (S j)) / beta ^ S j)) (power (i_omega beta Fermion n) (S j))) (gl l c)))).
  { apply csum_ext. intros l _. rewrite csum_r. reflexivity. }
  rewrite csum_swap. apply csum_ext. intros j Hj. apply in_seq in Hj. change (moment ?r ?p c) with (row r p c). rewrite tail_row by lia. unfold Cdiv. rewrite <- csum_r. apply csum_ext. intros l _. ring.
Qed.
Lemma thm_to_iw_expansion J iwm nl gl N d c : bessel_function J -> 0 < if_beta iwm -> (nl <= N)%nat ->
  leg_to_iw J iwm nl gl d c = csum (seq 1 N) (fun p => Cdiv (moment (leg_tail (if_beta iwm) nl gl (S N)) p c) (power (i_omega (if_beta iwm) Fermion (if_to_index iwm (Z.of_nat d))) p)).
Proof. intros HJ Hb HN. eapply cint_unique; [apply (thm_to_iw J iwm (if_beta iwm) nl gl d c HJ Hb)|apply thm_expansion; assumption]. Qed.
