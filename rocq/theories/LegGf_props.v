(** Properties C78 (Legendre transforms) and C79 (tail, discontinuity and density of Legendre Green's functions). *)
From Coq Require Import ZArith NArith List Arith Bool Lia Reals Lra.
From Coquelicot Require Import Coquelicot.
From Verif Require LegendrePoly Fourier_dft.
From Verif Require Import Base Matsubara LinMesh ThermalSpec LehmannSpec Fourier FourierSpec Density LegGf LegGfSpec LegGf_int LegGf_proofs LegGf_tail LegGf_thms LegGf_ex.
Import ListNotations.
Local Open Scope R_scope.

(** ---- C78 ---- *)
(** G(tau) = sum_l sqrt(2l+1)/beta G_l P_l(2 tau/beta - 1) at every point of the mesh ... *)
Theorem C78_to_imtime beta s L nl gl j c : (0 < L)%nat -> leg_to_tau (tau_mesh beta s L) nl gl j c = leg_function beta nl (fun l => gl l c) (tau_pt beta L j).
Proof. exact (thm_to_tau beta s L nl gl j c). Qed.
Print Assumptions C78_to_imtime.
(** ... and on evaluation at any time, which needs at least one coefficient *)
Theorem C78_evaluate beta nl gl tau c : beta <> 0 ->
  ((0 < nl)%nat -> leg_eval beta nl gl tau c = Ok (leg_function beta nl (fun l => gl l c) tau)) /\ (nl = 0%nat -> leg_eval beta nl gl tau c = UB).
Proof. intros Hb. split; [intros Hn; exact (thm_eval beta nl gl tau c Hn Hb)|intros ->; reflexivity]. Qed.
Print Assumptions C78_evaluate.
(** the inverse is the trapezoidal rule for sqrt(2l+1) int P_l G ... *)
Theorem C78_from_imtime nl beta s L gt l c : (0 < L)%nat -> (l < nl)%nat ->
  tau_to_leg nl (tau_mesh beta s L) gt l c = trapezoid beta L (fun j => Cmult (RtoC (sqrt (2 * INR l + 1) * legendre_P l (2 * tau_pt beta L j / beta - 1))) (gt j c)).
Proof. exact (thm_from_tau nl beta s L gt l c). Qed.
Print Assumptions C78_from_imtime.
(** ... and tends to the Legendre coefficient on finer and finer meshes *)
Theorem C78_from_imtime_limit nl beta s (g : nat -> R -> C) l c z : 0 < beta -> (l < nl)%nat -> leg_coefficient beta l (g c) z ->
  forall eps, 0 < eps -> exists N, forall L, (N <= L)%nat -> Cmod (Cminus (tau_to_leg nl (tau_mesh beta s L) (fun j c => g c (tau_pt beta L j)) l c) z) < eps.
Proof. exact (thm_from_tau_limit nl beta s g l c z). Qed.
Print Assumptions C78_from_imtime_limit.
(** the coefficients of the function made from G_l are the G_l, and none beyond *)
Theorem C78_orthogonality beta nl gl l : 0 < beta -> leg_coefficient beta l (leg_function beta nl gl) (if (l <? nl)%nat then gl l else RtoC 0).
Proof. exact (thm_coefficients beta nl gl l). Qed.
Print Assumptions C78_orthogonality.
Theorem C78_round_trip nl nl' beta s s' gl l c : 0 < beta -> (l < nl')%nat ->
  forall eps, 0 < eps -> exists N, forall L, (N <= L)%nat ->
    Cmod (Cminus (tau_to_leg nl' (tau_mesh beta s L) (leg_to_tau (tau_mesh beta s' L) nl gl) l c) (if (l <? nl)%nat then gl l c else RtoC 0)) < eps.
Proof. exact (thm_leg_round_all nl nl' beta s s' gl l c). Qed.
Print Assumptions C78_round_trip.
(** for fermions G(i w_n) is the Fourier integral of G(tau), if cyl_bessel_j computes the Bessel function *)
Theorem C78_to_imfreq J iwm nl gl d c : bessel_function J -> 0 < if_beta iwm -> if_stat iwm = Fermion ->
  cintegral (fun t => Cmult (matsubara_wave (if_beta iwm) (if_stat iwm) (if_to_index iwm (Z.of_nat d)) t) (leg_function (if_beta iwm) nl (fun l => gl l c) t)) 0 (if_beta iwm) (leg_to_iw J iwm nl gl d c).
Proof. intros HJ Hb Es. rewrite Es. exact (thm_to_iw J iwm (if_beta iwm) nl gl d c HJ Hb). Qed.
Print Assumptions C78_to_imfreq.
(** such a function exists *)
Example C78_bessel_exists : bessel_function bessel_J. Proof. exact bessel_exists. Qed.
(** from Matsubara frequencies: Fourier transform to 50000 times, then the inverse above; refused for meshes of positive frequencies
    or of more than 24999 positive ones *)
Theorem C78_from_imfreq fit nl iwm n gw gt : let L := Z.to_nat 49999 in let beta := if_beta iwm in
  fourier_iw_to_tau fit (tau_mesh beta (if_stat iwm) L) iwm n gw [] = Ok gt ->
  exists gl, iw_to_leg fit nl iwm n gw = Ok gl /\
    forall l c, (l < nl)%nat -> gl l c = trapezoid beta L (fun j => Cmult (RtoC (sqrt (2 * INR l + 1) * legendre_P l (2 * tau_pt beta L j / beta - 1))) (gt j c)).
Proof. exact (thm_from_iw fit nl iwm n gw gt). Qed.
Print Assumptions C78_from_imfreq.
Theorem C78_from_imfreq_refused fit nl iwm n gw : (0 < n)%nat -> if_pos iwm = true \/ (25000 <= if_n iwm)%Z -> iw_to_leg fit nl iwm n gw = Throw.
Proof. exact (thm_from_iw_refused fit nl iwm n gw). Qed.
Print Assumptions C78_from_imfreq_refused.
Example C78_from_imfreq_example : exists fit gt, fourier_iw_to_tau fit (tau_mesh 1 Fermion (Z.to_nat 49999)) (mkImfreq 1 Fermion 10 false) 1 (fun _ _ => RtoC 0) [] = Ok gt.
Proof. exact from_iw_ex. Qed.
(** finding: on a mesh of bosonic frequencies the coefficients are multiplied with the fermionic matrix.  The constant G(tau) = 1/beta has
    G(i w_0) = 1, the transform gives 2i/pi *)
Theorem C78_bosonic_imfreq_refuted J beta : bessel_function J -> 0 < beta ->
  exists iwm gl, if_stat iwm = Boson /\ if_beta iwm = beta /\ if_to_index iwm 0 = 0%Z /\
    cintegral (fun t => Cmult (matsubara_wave beta Boson 0 t) (leg_function beta 1 (fun l => gl l 0%nat) t)) 0 beta (RtoC 1) /\
    leg_to_iw J iwm 1 gl 0%nat 0%nat = Cmult Ci (RtoC (2 / PI)).
Proof. intros HJ Hb. destruct (thm_boson J beta HJ Hb) as (A & B & D). exists (b_mesh beta), g_const. repeat split; assumption || apply B. Qed.
Print Assumptions C78_bosonic_imfreq_refuted.

(** ---- C79 ---- *)
(** the p-th moment of the tail, p >= 1, is the jump of the (p-1)-th derivative at tau = 0 of the antiperiodic continuation *)
Theorem C79_moments beta nl gl order k c : 0 < beta -> (S k < order)%nat -> let G := leg_function beta nl (fun l => gl l c) in
  moment (leg_tail beta nl gl order) (S k) c = Cmult (RtoC ((-1) ^ S k)) (Cplus (cderive_n G k 0) (cderive_n G k beta)).
Proof. exact (thm_moments beta nl gl order k c). Qed.
Print Assumptions C79_moments.
(** with as many moments as coefficients the expansion in 1/(i w) is not asymptotic but exact *)
Theorem C79_exact_expansion beta n nl gl N c : 0 < beta -> (nl <= N)%nat ->
  cintegral (fun t => Cmult (matsubara_wave beta Fermion n t) (leg_function beta nl (fun l => gl l c) t)) 0 beta
    (csum (seq 1 N) (fun p => Cdiv (moment (leg_tail beta nl gl (S N)) p c) (power (i_omega beta Fermion n) p))).
Proof. exact (thm_expansion beta n nl gl N c). Qed.
Print Assumptions C79_exact_expansion.
Theorem C79_imfreq_expansion J iwm nl gl N d c : bessel_function J -> 0 < if_beta iwm -> (nl <= N)%nat ->
  leg_to_iw J iwm nl gl d c = csum (seq 1 N) (fun p => Cdiv (moment (leg_tail (if_beta iwm) nl gl (S N)) p c) (power (i_omega (if_beta iwm) Fermion (if_to_index iwm (Z.of_nat d))) p)).
Proof. exact (thm_to_iw_expansion J iwm nl gl N d c). Qed.
Print Assumptions C79_imfreq_expansion.
(** finding: the zeroth row, which should vanish like G(i w) for large w, does not (with assertions enabled the call aborts) *)
Theorem C79_zeroth_moment_refuted beta order c : (0 < order)%nat -> exists gl, moment (leg_tail beta 2 gl order) 0 c = RtoC (2 * sqrt 3).
Proof. intros Ho. exists g_odd. exact (thm_zeroth_row beta order c Ho). Qed.
Print Assumptions C79_zeroth_moment_refuted.
Theorem C79_zeroth_row beta nl gl order c : (0 < order)%nat -> moment (leg_tail beta nl gl order) 0 c = total nl (fun l => if Nat.even l then RtoC 0 else Cmult (RtoC (2 * sqrt (2 * INR l + 1))) (gl l c)).
Proof. exact (thm_row_zero beta nl gl order c). Qed.
Print Assumptions C79_zeroth_row.
(** finding: for a bosonic function the jump at tau = 0 is G(beta) - G(0); the tail does not depend on the statistic *)
Theorem C79_bosonic_moment_refuted beta : 0 < beta -> exists gl, let G := leg_function beta 2 (fun l => gl l 0%nat) in
  Cminus (G beta) (G 0) = RtoC (2 * sqrt 3 / beta) /\ moment (leg_tail beta 2 gl 2) 1 0 = RtoC 0.
Proof. intros Hb. exists g_odd. exact (thm_boson_moment beta Hb). Qed.
Print Assumptions C79_bosonic_moment_refuted.
(** after enforce_discontinuity the first moment -(G(0) + G(beta)) is the given one ... *)
Theorem C79_discontinuity beta nl gl disc c : 0 < beta -> (0 < nl)%nat -> let G := leg_function beta nl (fun l => enforce_discontinuity beta nl gl disc l c) in
  Copp (Cplus (G 0) (G beta)) = RtoC (disc c).
Proof. exact (thm_disc beta nl gl disc c). Qed.
Print Assumptions C79_discontinuity.
(** ... by the smallest change that achieves it ... *)
Theorem C79_smallest_change beta nl gl disc c gl' : 0 < beta -> (0 < nl)%nat -> Copp (Cplus (leg_function beta nl gl' 0) (leg_function beta nl gl' beta)) = RtoC (disc c) ->
  let new l := enforce_discontinuity beta nl gl disc l c in
  squares nl (fun l => Cminus (new l) (gl l c)) <= squares nl (fun l => Cminus (gl' l) (gl l c)) /\
  (squares nl (fun l => Cminus (gl' l) (gl l c)) = squares nl (fun l => Cminus (new l) (gl l c)) -> forall l, (l < nl)%nat -> gl' l = new l).
Proof. exact (thm_least beta nl gl disc c gl'). Qed.
Print Assumptions C79_smallest_change.
Example C79_smallest_change_example : let gl' := fun l : nat => if (l =? 0)%nat then RtoC (-1) else RtoC 0 in 0 < 2 /\ (0 < 3)%nat /\ Copp (Cplus (leg_function 2 3 gl' 0) (leg_function 2 3 gl' 2)) = RtoC 1.
Proof.
  cbv zeta. split; [lra|]. split; [lia|]. rewrite fun_beta by lra. unfold leg_function, total, csum. cbn [seq fold_right Nat.eqb INR]. rewrite LegendrePoly.P_0. replace (2 * 0 + 1) with 1 by ring. rewrite sqrt_1. apply Fourier_dft.Ceq; cbn; field.
Qed.
(** ... which a second call does not repeat, and which leaves the odd coefficients and the even moments as they were *)
Theorem C79_idempotent beta nl gl disc l c : 0 < beta -> (0 < nl)%nat ->
  enforce_discontinuity beta nl (enforce_discontinuity beta nl gl disc) disc l c = enforce_discontinuity beta nl gl disc l c.
Proof. exact (thm_idem beta nl gl disc l c). Qed.
Print Assumptions C79_idempotent.
Theorem C79_rest_unchanged beta nl gl disc order c : 0 < beta -> (0 < nl)%nat ->
  (forall l, Nat.even l = false -> enforce_discontinuity beta nl gl disc l c = gl l c) /\
  (forall p, (p < order)%nat -> Nat.even p = true -> moment (leg_tail beta nl (enforce_discontinuity beta nl gl disc) order) p c = moment (leg_tail beta nl gl order) p c).
Proof. intros Hb Hn. split; [intros l; exact (thm_odd_kept beta nl gl disc l c Hb Hn)|intros p; exact (thm_even_moments beta nl gl disc order p c Hb Hn)]. Qed.
Print Assumptions C79_rest_unchanged.
(** the density is the transpose of -G(beta) ... *)
Theorem C79_density beta nl gl i j : beta <> 0 -> density_leg beta nl gl i j = Copp (leg_function beta nl (fun l => gl l j i) beta).
Proof. exact (thm_density beta nl gl i j). Qed.
Print Assumptions C79_density.
(** ... finding: while the density of a function of frequencies (property C76) is -G(beta), not transposed *)
Theorem C79_density_convention_refuted beta : 0 < beta -> exists gl, density_leg beta 1 gl 0%nat 1%nat = RtoC 0 /\ Copp (leg_function beta 1 (fun l => gl l 0%nat 1%nat) beta) = RtoC (- / beta).
Proof. intros Hb. exists g_off. exact (thm_transposed beta Hb). Qed.
Print Assumptions C79_density_convention_refuted.
