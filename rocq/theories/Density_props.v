(** C76 : the density matrix of a Green's function. *)
From Coq Require Import ZArith Reals List Bool Arith Lia Lra.
From Coquelicot Require Import Coquelicot.
From Verif Require Import Base Matsubara LinMesh ThermalSpec Csum Fourier FourierSpec Fourier_dft Density DensitySpec Density_proofs.
Import ListNotations.
Local Open Scope R_scope.

(** for G(z) = sum_k A_k / (z - e_k) with hermitian A_k and a first moment sum_k A_k, the result tends to sum_k A_k n(e_k) on larger
    and larger meshes, n being the Fermi or the Bose function -- whatever the second and the third moment given *)
Theorem C76_limit fit beta s n ps km i j : 0 < beta -> no_zero_mode s ps -> matrices_given n km -> (i < n)%nat -> (j < n)%nat -> hermitian_weights ps ->
  (forall i j, (i < n)%nat -> (j < n)%nat -> nth 1 km (fun _ _ => RtoC 0) i j = csum ps (fun p => snd p i j)) ->
  forall eps, 0 < eps -> exists N0, forall N, (N0 <= N)%nat -> let m := mkImfreq beta s (Z.of_nat N) false in
    exists r, density_iw fit m n n (on_mesh m (poles ps)) km = Ok r /\ Cmod (Cminus (r i j) (csum ps (fun p => Cmult (snd p i j) (RtoC (occupation s beta (fst p)))))) < eps.
Proof. exact (thm_limit_poles fit beta s n ps km i j). Qed.
Print Assumptions C76_limit.
(** on every mesh the result is exact if the poles are the three of the tail and the moments are those of G *)
Theorem C76_exact_for_the_tail fit beta s N n A B C0 km : 0 < beta -> matrices_given n km -> let ps := three_poles s A B C0 in hermitian_weights ps ->
  (forall i j k, (i < n)%nat -> (j < n)%nat -> (1 <= k <= 3)%nat -> nth k km (fun _ _ => RtoC 0) i j = csum ps (fun p => Cmult (snd p i j) (RtoC (fst p ^ (k - 1))))) ->
  let m := mkImfreq beta s (Z.of_nat N) false in
  exists r, density_iw fit m n n (on_mesh m (poles ps)) km = Ok r /\ forall i j, (i < n)%nat -> (j < n)%nat -> r i j = csum ps (fun p => Cmult (snd p i j) (RtoC (occupation s beta (fst p)))).
Proof. exact (thm_exact_poles fit beta s N n A B C0 km). Qed.
Print Assumptions C76_exact_for_the_tail.
(** for fermions, element by element of the upper triangle, the result is minus the value at tau = beta of the inverse Fourier transform
    with the same moments *)
Theorem C76_minus_G_beta fit fit' m s' L beta n i j g km (gw : data) (km' : rows) c nc : 0 < beta -> if_beta m = beta -> if_stat m = Fermion -> if_pos m = false -> tau_fits m L ->
  matrices_given n km -> moments_given 4 nc km' -> (i <= j)%nat ->
  (forall d, gw d c = g d i j) -> (forall k, moment km' k c = nth k km (fun _ _ => RtoC 0) i j) ->
  exists r gt, density_iw fit m n n g km = Ok r /\ fourier_iw_to_tau fit' (tau_mesh beta s' L) m nc gw km' = Ok gt /\ r i j = Copp (gt L c).
Proof. exact (thm_fourier fit fit' m s' L beta n i j g km gw km' c nc). Qed.
Print Assumptions C76_minus_G_beta.
(** the density matrix of a hermitian Green's function is hermitian (its diagonal is real) ... *)
Theorem C76_hermitian fit beta s N n g km : 0 < beta -> matrices_given n km -> let m := mkImfreq beta s (Z.of_nat N) false in hermitian_data m g km ->
  exists r, density_iw fit m n n g km = Ok r /\ forall i j, r j i = Cconj (r i j).
Proof. intros H1 H2 m [H3 H4]. exact (thm_hermitian fit beta s N n g km H1 H2 H3 H4). Qed.
Print Assumptions C76_hermitian.
(** ... and in any case the lower triangle is the conjugate of the upper one *)
Theorem C76_lower_triangle fit m n g km : 0 < if_beta m -> if_pos m = false -> matrices_given n km ->
  exists r, density_iw fit m n n g km = Ok r /\ forall i j, (i < j)%nat -> r j i = Cconj (r i j).
Proof. exact (thm_triangle fit m n g km). Qed.
Print Assumptions C76_lower_triangle.
(** with one to three moments, those of a good fit are used; without any, the zeroth is taken to vanish *)
Theorem C76_fitted fit m n g km t err : (0 < n)%nat -> (1 <= length km <= 3)%nat -> (forall i j, (i < n)%nat -> (j < n)%nat -> Cmod (nth 0 km (fun _ _ => RtoC 0) i j) < / 10 ^ 8) ->
  fit g km = (t, err) -> err < / 10 ^ 2 -> (4 <= length t)%nat -> density_iw fit m n n g km = density_iw fit m n n g t.
Proof. exact (thm_fitted fit m n g km t err). Qed.
Print Assumptions C76_fitted.
Theorem C76_no_moments fit m n g : (0 < n)%nat -> density_iw fit m n n g [] = density_iw fit m n n g [fun _ _ => RtoC 0].
Proof. exact (thm_default_d fit m n g). Qed.
Print Assumptions C76_no_moments.
(** refused: a mesh of positive frequencies only, a zeroth moment, a bad fit *)
Theorem C76_refused fit m n1 n2 g km : (0 < n1 * n2)%nat ->
  (if_pos m = true -> density_iw fit m n1 n2 g km = Throw) /\
  (forall i j, (i < n1)%nat -> (j < n2)%nat -> km <> [] -> / 10 ^ 8 <= Cmod (nth 0 km (fun _ _ => RtoC 0) i j) -> density_iw fit m n1 n2 g km = Throw) /\
  (forall t err, (length km < 4)%nat -> fit g (match km with [] => [fun _ _ => RtoC 0] | _ => km end) = (t, err) -> / 10 ^ 2 <= err \/ (length t < 4)%nat -> density_iw fit m n1 n2 g km = Throw).
Proof. exact (thm_rejects fit m n1 n2 g km). Qed.
Print Assumptions C76_refused.
(** a target that is not square is not detected: undefined *)
Theorem C76_not_square fit m n1 n2 g km : if_pos m = false -> (0 < n1)%nat -> (0 < n2)%nat -> n1 <> n2 -> (4 <= length km)%nat ->
  (forall i j, (i < n1)%nat -> (j < n2)%nat -> Cmod (nth 0 km (fun _ _ => RtoC 0) i j) < / 10 ^ 8) -> density_iw fit m n1 n2 g km = UB.
Proof. exact (thm_not_square fit m n1 n2 g km). Qed.
Print Assumptions C76_not_square.

(** real frequencies: dw sum_w A(w) f(w), A = i (G - G^dagger) / 2 pi ... *)
Theorem C76_real m beta g i j :
  density_w m beta g i j = Cmult (RtoC (li_delta m)) (csum (seq 0 (Z.to_nat (li_L m))) (fun k => Cmult (RtoC (occupation Fermion beta (li_value m (Z.of_nat k)))) (spectral (g k) i j))).
Proof. exact (thm_refreq m beta g i j). Qed.
Print Assumptions C76_real.
(** ... which tends to the integral of A f *)
Theorem C76_real_limit beta a b (G : R -> nat -> nat -> C) i j I : a < b -> cintegral (fun w => Cmult (RtoC (occupation Fermion beta w)) (spectral (G w) i j)) a b I ->
  forall eps, 0 < eps -> exists N0, forall N, (N0 <= N)%nat -> let m := li_make a b (Z.of_nat N + 1) in
    Cmod (Cminus (density_w m beta (fun k => G (li_value m (Z.of_nat k))) i j) I) < eps.
Proof. exact (thm_refreq_limit beta a b G i j I). Qed.
Print Assumptions C76_real_limit.
(** zero temperature: the trapezoidal rule up to zero if zero is a mesh point *)
Theorem C76_zero_temperature m g k : li_built m -> li_min m < 0 -> (Z.of_nat k < li_L m)%Z -> - (/ 10 ^ 9) <= li_value m (Z.of_nat k) <= 0 -> 0 < li_value m (Z.of_nat k) + li_delta m ->
  exists r, density_w0 m g = Ok r /\ forall i j, r i j = areas (li_delta m) k (fun d => spectral (g d) i j).
Proof. exact (thm_zero_on_mesh m g k). Qed.
Print Assumptions C76_zero_temperature.
(** otherwise it deviates from the area of the trapezoids, the last of which ends at zero, by dw a (1 - a) times the change of A over the
    interval that contains zero, a being the part of it below zero ... *)
Theorem C76_zero_temperature_deviation m g k : li_built m -> li_min m < 0 -> (Z.of_nat k + 1 < li_L m)%Z -> li_value m (Z.of_nat k) < - (/ 10 ^ 9) -> 0 < li_value m (Z.of_nat k) + li_delta m ->
  exists r, density_w0 m g = Ok r /\ forall i j, let A d := spectral (g d) i j in let a := - li_value m (Z.of_nat k) / li_delta m in
    r i j = Cplus (Cplus (areas (li_delta m) k A) (part_area (li_delta m) a (A k) (A (S k)))) (Cmult (RtoC (li_delta m * (a * (1 - a)))) (Cminus (A (S k)) (A k))).
Proof. exact (thm_zero_between m g k). Qed.
Print Assumptions C76_zero_temperature_deviation.
(** ... so that it is not the trapezoidal rule, not even if A is linear *)
Theorem C76_trapezoid_refuted : ~ forall m g k, li_built m -> li_min m < 0 -> (Z.of_nat k + 1 < li_L m)%Z -> li_value m (Z.of_nat k) < - (/ 10 ^ 9) -> 0 < li_value m (Z.of_nat k) + li_delta m ->
  exists r, density_w0 m g = Ok r /\ forall i j, let A d := spectral (g d) i j in let a := - li_value m (Z.of_nat k) / li_delta m in
    r i j = Cplus (areas (li_delta m) k A) (part_area (li_delta m) a (A k) (A (S k))).
Proof.
  intros H. set (m := li_make (-1) 2 3). assert (T9 : / 10 ^ 9 < 1 / 2).
  { apply (Rmult_lt_reg_l (10 ^ 9)); [apply pow_lt; lra|]. rewrite Rinv_r by (apply pow_nonzero; lra). replace (10 ^ 9) with 1000000000 by (cbn; ring). lra. }
  assert (B : li_built m) by (exists (-1), 2, 3%Z; repeat split; lia || lra). destruct (built_eq m B) as (P & L & V). assert (D : li_delta m = 3 / 2) by (unfold m, li_make; cbn; field). assert (Mi : li_min m = -1) by reflexivity.
  set (g' := fun d (i j : nat) => Cmult (RtoC (- PI * INR d)) Ci).
  assert (C1 : li_min m < 0) by lra. assert (C2 : (Z.of_nat 0 + 1 < li_L m)%Z) by (cbn; lia). assert (C3 : li_value m (Z.of_nat 0) < - (/ 10 ^ 9)) by (rewrite V; cbn; lra). assert (C4 : 0 < li_value m (Z.of_nat 0) + li_delta m) by (rewrite V; cbn; lra).
  destruct (H m g' 0%nat B C1 C2 C3 C4) as (r & E & Q). destruct (thm_zero_between m g' 0 B C1 C2 C3 C4) as (r' & E' & Q'). rewrite E in E'. injection E' as <-.
  specialize (Q 0%nat 0%nat). specialize (Q' 0%nat 0%nat). cbv zeta in Q, Q'. rewrite Q in Q'. clear Q. pose proof PI_RGT_0 as Pp.
  assert (S1 : spectral (g' 1%nat) 0%nat 0%nat = RtoC 1) by (unfold spectral, g', Cdiv; apply Ceq; cbn; field; lra). assert (S0 : spectral (g' 0%nat) 0%nat 0%nat = RtoC 0) by (unfold spectral, g', Cdiv; apply Ceq; cbn; field; lra).
  rewrite S0, S1 in Q'. set (a := - li_value m (Z.of_nat 0) / li_delta m) in *. assert (Ea : a = 2 / 3) by (unfold a; rewrite V, D, Mi; cbn; field). set (X := Cplus (areas _ _ _) _) in Q'.
  assert (Z : Cmult (RtoC (li_delta m * (a * (1 - a)))) (Cminus (RtoC 1) (RtoC 0)) = RtoC 0) by (transitivity (Cminus (Cplus X (Cmult (RtoC (li_delta m * (a * (1 - a)))) (Cminus (RtoC 1) (RtoC 0)))) X); [ring|rewrite <- Q'; ring]).
  rewrite D, Ea in Z. apply (f_equal fst) in Z. cbn in Z. lra.
Qed.
Print Assumptions C76_trapezoid_refuted.
(** and a mesh that ends below zero is read out of range *)
Theorem C76_zero_temperature_range m g : li_built m -> li_max m < - (/ 10 ^ 9) -> density_w0 m g = UB.
Proof. exact (thm_zero_out m g). Qed.
Print Assumptions C76_zero_temperature_range.

(** one fermion of energy 2 at beta = 10, and one boson: the hypotheses of the limit hold *)
Example C76_one_level : forall s, let ps := [(2, fun i j : nat => RtoC (if (i =? j)%nat then 1 else 0))] in let I1 := fun i j : nat => RtoC (if (i =? j)%nat then 1 else 0) in
  no_zero_mode s ps /\ hermitian_weights ps /\ matrices_given 2 [(fun _ _ => RtoC 0); I1; (fun _ _ => RtoC 0); (fun _ _ => RtoC 0)] /\
  forall fit eps, 0 < eps -> exists N0, forall N, (N0 <= N)%nat -> let m := mkImfreq 10 s (Z.of_nat N) false in
    exists r, density_iw fit m 2 2 (on_mesh m (poles ps)) [(fun _ _ => RtoC 0); I1; (fun _ _ => RtoC 0); (fun _ _ => RtoC 0)] = Ok r /\ Cmod (Cminus (r 1%nat 1%nat) (RtoC (occupation s 10 2))) < eps.
Proof.
  intros s ps I1. assert (H1 : no_zero_mode s ps) by (destruct s; cbn; [intros p [<-|[]]; cbn; lra|exact I]).
  assert (H2 : hermitian_weights ps). { intros p [<-|[]] i j. cbn. rewrite Nat.eqb_sym. apply Ceq; cbn; [reflexivity|ring]. }
  assert (H3 : matrices_given 2 [(fun _ _ => RtoC 0); I1; (fun _ _ => RtoC 0); (fun _ _ => RtoC 0)]). { split; [lia|]. split; [cbn; lia|]. intros i j _ _. cbn [nth]. rewrite Cmod_0. apply Rinv_0_lt_compat. apply pow_lt. lra. }
  split; [exact H1|]. split; [exact H2|]. split; [exact H3|]. intros fit eps He.
  destruct (C76_limit fit 10 s 2 ps _ 1 1 ltac:(lra) H1 H3 ltac:(lia) ltac:(lia) H2) with (eps := eps) as [N0 B]; [|exact He|].
  - intros i j _ _. cbn [nth]. unfold ps, I1, csum. cbn [fold_right snd]. ring.
  - exists N0. intros N HN m. destruct (B N HN) as (r & E & L). exists r. split; [exact E|]. eapply Rle_lt_trans; [|exact L]. right. f_equal. f_equal. unfold ps, csum. cbn [fold_right snd fst Nat.eqb]. ring.
Qed.
(** a mesh with zero between two points *)
Example C76_half_way : li_built (li_make (-1) 2 3) /\ li_min (li_make (-1) 2 3) < 0 /\ li_value (li_make (-1) 2 3) 0 < 0 < li_value (li_make (-1) 2 3) 1.
Proof. split; [exists (-1), 2, 3%Z; repeat split; lia || lra|]. cbn. lra. Qed.
