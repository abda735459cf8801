(** Fourier integrals of Legendre polynomials and of their derivatives. *)
From Coq Require Import ZArith NArith List Arith Bool Lia Reals Lra.
From Coquelicot Require Import Coquelicot.
From Verif Require Import Base Matsubara LinMesh ThermalSpec Csum LehmannSpec LegendrePoly LegOrth Fourier FourierSpec Fourier_dft Fourier_lat Fourier_tail LegGfSpec.
Import ListNotations.
Local Open Scope R_scope.

Lemma int_zero x y : is_RInt (fun _ : R => 0) x y 0.
Proof. pose proof (@is_RInt_const R_NormedModule x y 0) as A. assert (E : @eq R (@scal R_AbsRing R_NormedModule (y - x) 0) 0) by (cbn; unfold mult; cbn; ring). exact (eq_rect _ (fun v : R => is_RInt (fun _ : R => 0) x y v) A 0 E). Qed.
Lemma cint_total (f : R -> nat -> C) (z : nat -> C) x y n : (forall l, (l < n)%nat -> cintegral (fun t => f t l) x y (z l)) -> cintegral (fun t => total n (f t)) x y (total n z).
Proof.
  unfold total. induction n as [|n IH]; intros H.
  - split; apply int_zero.
  - rewrite csum_S. eapply cint_ext; [intros t; symmetry; apply csum_S|]. apply cint_add; [apply IH; intros; apply H; lia|apply H; lia].
Qed.
Lemma cint_rescale (f : R -> C) beta z : 0 < beta -> cintegral f (-1) 1 z -> cintegral (fun t => f (2 * t / beta - 1)) 0 beta (Cmult (RtoC (beta / 2)) z).
Proof.
  intros Hb [A B]. assert (G : forall (h : R -> R) v, is_RInt h (-1) 1 v -> is_RInt (fun t => h (2 * t / beta - 1)) 0 beta (beta / 2 * v)).
  { intros h v H. pose proof (is_RInt_comp_lin (V := R_NormedModule) h (2 / beta) (-1) 0 beta v) as Q0.
    replace (2 / beta * 0 + -1) with (-1) in Q0 by ring. replace (2 / beta * beta + -1) with 1 in Q0 by (field; lra). specialize (Q0 H).
    pose proof (is_RInt_scal (V := R_NormedModule) _ _ _ (beta / 2) _ Q0) as Q1. eapply is_RInt_ext; [|exact Q1]. intros t _. cbv beta. unfold scal. cbn. unfold mult. cbn.
    replace (2 / beta * t + -1) with (2 * t / beta - 1) by (field; lra). toR. field. lra. }
  split.
  - assert (E : fst (Cmult (RtoC (beta / 2)) z) = beta / 2 * fst z) by (cbn; ring). rewrite E. exact (G (fun t => fst (f t)) _ A).
  - assert (E : snd (Cmult (RtoC (beta / 2)) z) = beta / 2 * snd z) by (cbn; ring). rewrite E. exact (G (fun t => snd (f t)) _ B).
Qed.
Lemma cint_real (f : R -> R) x y v : is_RInt f x y v -> cintegral (fun t => RtoC (f t)) x y (RtoC v).
Proof.
  intros H. split; cbn [fst snd RtoC]; [exact H|apply int_zero].
Qed.
Lemma cint_unique f x y z z' : cintegral f x y z -> cintegral f x y z' -> z = z'.
Proof. intros [A B] [A' B']. apply Ceq; [exact (is_RInt_same _ _ _ _ _ _ A A' (fun _ => eq_refl))|exact (is_RInt_same _ _ _ _ _ _ B B' (fun _ => eq_refl))]. Qed.

(** the coefficients of a Legendre function are the given ones *)
Lemma basis_ortho beta l m : 0 < beta -> cintegral (fun tau => RtoC (leg_weight beta l tau * (sqrt (2 * INR m + 1) / beta * P m (2 * tau / beta - 1)))) 0 beta (RtoC (if (l =? m)%nat then 1 else 0)).
Proof.
  intros Hb. pose proof (cint_rescale _ beta _ Hb (cint_real _ _ _ _ (ortho l m))) as A.
  apply (cint_scal (RtoC (sqrt (2 * INR l + 1) * sqrt (2 * INR m + 1) / beta))) in A.
  match type of A with cintegral _ _ _ ?z => replace z with (RtoC (if (l =? m)%nat then 1 else 0)) in A end.
  - eapply cint_ext; [|exact A]. intros t. cbv beta. rewrite <- RtoC_mult. f_equal. unfold leg_weight. field. lra.
  - rewrite <- !RtoC_mult. f_equal. pose proof (pos_INR m). destruct (Nat.eqb_spec l m) as [->|_]; [|field; lra]. rewrite sqrt_sqrt by lra. field. lra.
Qed.
Lemma leg_coeff beta nl gl l : 0 < beta -> (l < nl)%nat -> leg_coefficient beta l (leg_function beta nl gl) (gl l).
Proof.
  intros Hb Hl. unfold leg_coefficient.
  assert (A : cintegral (fun tau => total nl (fun m => Cmult (gl m) (RtoC (leg_weight beta l tau * (sqrt (2 * INR m + 1) / beta * P m (2 * tau / beta - 1)))))) 0 beta
                (total nl (fun m => Cmult (gl m) (RtoC (if (l =? m)%nat then 1 else 0))))).
  { apply (cint_total (fun tau m => Cmult (gl m) (RtoC (leg_weight beta l tau * (sqrt (2 * INR m + 1) / beta * P m (2 * tau / beta - 1)))))). intros m _. apply cint_scal, basis_ortho, Hb. }
  replace (total nl (fun m => Cmult (gl m) (RtoC (if (l =? m)%nat then 1 else 0)))) with (gl l) in A.
  - eapply cint_ext; [|exact A]. intros t. cbv beta. unfold leg_function, total. rewrite <- csum_l. apply csum_ext. intros m _. rewrite RtoC_mult. ring.
  - symmetry. unfold total. rewrite (csum_single _ nl l Hl). + rewrite Nat.eqb_refl. ring.
    + intros i _ Hi. destruct (Nat.eqb_spec l i) as [E|_]; [congruence|ring].
Qed.

(** ---- integration by parts ---- *)
Definition bdry (y : R) (n k : nat) : C :=
  Cdiv (Cminus (Cmult (expi y) (RtoC (Q k n 1))) (Cmult (expi (- y)) (RtoC (Q k n (-1))))) (Cmult Ci (RtoC y)).
Lemma parts y n k z : y <> 0 -> cintegral (fun t => Cmult (expi (y * t)) (RtoC (Q (S k) n t))) (-1) 1 z ->
  cintegral (fun t => Cmult (expi (y * t)) (RtoC (Q k n t))) (-1) 1 (Cminus (bdry y n k) (Cdiv z (Cmult Ci (RtoC y)))).
Proof.
  intros Hy [A B].
  pose (F := fun t => sin (y * t) * Q k n t / y). pose (G := fun t => - cos (y * t) * Q k n t / y).
  assert (DF : is_RInt (fun t => cos (y * t) * Q k n t + / y * (sin (y * t) * Q (S k) n t)) (-1) 1 (F 1 - F (-1))).
  { apply (is_RInt_derive F).
    - intros t _. unfold F. pose proof (Q_derive k n t) as E. assert (X : ex_derive (Q k n) t) by apply Q_ex. auto_derive; [auto|]. replace (Derive (fun x : R => Q k n x) t) with (Q (S k) n t) by (symmetry; apply is_derive_unique; exact E). field. exact Hy.
    - intros t _. apply (ex_derive_continuous (K := R_AbsRing) (V := R_NormedModule)). assert (X : ex_derive (Q k n) t) by apply Q_ex. assert (X' : ex_derive (Q (S k) n) t) by apply Q_ex. auto_derive. auto. }
  assert (DG : is_RInt (fun t => sin (y * t) * Q k n t - / y * (cos (y * t) * Q (S k) n t)) (-1) 1 (G 1 - G (-1))).
  { apply (is_RInt_derive G).
    - intros t _. unfold G. pose proof (Q_derive k n t) as E. assert (X : ex_derive (Q k n) t) by apply Q_ex. auto_derive; [auto|]. replace (Derive (fun x : R => Q k n x) t) with (Q (S k) n t) by (symmetry; apply is_derive_unique; exact E). field. exact Hy.
    - intros t _. apply (ex_derive_continuous (K := R_AbsRing) (V := R_NormedModule)). assert (X : ex_derive (Q k n) t) by apply Q_ex. assert (X' : ex_derive (Q (S k) n) t) by apply Q_ex. auto_derive. auto. }
  pose proof (is_RInt_minus (V := R_NormedModule) _ _ _ _ _ _ DF (is_RInt_scal (V := R_NormedModule) _ _ _ (/ y) _ B)) as I1.
  pose proof (is_RInt_plus (V := R_NormedModule) _ _ _ _ _ _ DG (is_RInt_scal (V := R_NormedModule) _ _ _ (/ y) _ A)) as I2.
  unfold bdry. split.
  - match goal with |- is_RInt _ _ _ ?v => match type of I1 with is_RInt _ _ _ ?w => replace v with w end end.
    + eapply is_RInt_ext; [|exact I1]. intros t _. cbn -[Q]. unfold minus, plus, opp, scal; cbn -[Q]; unfold mult; cbn -[Q]. toR. ring.
    + unfold minus, plus, opp, scal; cbn -[Q]; unfold mult; cbn -[Q]. unfold F, expi, Cdiv; cbn -[Q]. rewrite Rmult_1_r. replace (y * -1) with (- y) by ring. rewrite sin_neg, cos_neg. toR. field. exact Hy.
  - match goal with |- is_RInt _ _ _ ?v => match type of I2 with is_RInt _ _ _ ?w => replace v with w end end.
    + eapply is_RInt_ext; [|exact I2]. intros t _. cbn -[Q]. unfold minus, plus, opp, scal; cbn -[Q]; unfold mult; cbn -[Q]. toR. ring.
    + unfold minus, plus, opp, scal; cbn -[Q]; unfold mult; cbn -[Q]. unfold G, expi, Cdiv; cbn -[Q]. rewrite Rmult_1_r. replace (y * -1) with (- y) by ring. rewrite sin_neg, cos_neg. toR. field. exact Hy.
Qed.
(** int exp(iyt) P_n^(k)(t) = sum_{j<N} (-1)^j bdry_{k+j} / (iy)^j *)
Fixpoint series (y : R) (n k N : nat) : C := match N with O => RtoC 0 | S N' => Cminus (bdry y n k) (Cdiv (series y n (S k) N') (Cmult Ci (RtoC y))) end.
Lemma series_int y n N : y <> 0 -> forall k, (n < k + N)%nat -> cintegral (fun t => Cmult (expi (y * t)) (RtoC (Q k n t))) (-1) 1 (series y n k N).
Proof.
  intros Hy. induction N as [|N IH]; intros k Hk.
  - cbn [series]. eapply (cint_ext (fun _ => RtoC 0)); [intros t; rewrite Q_high by lia; ring|]. apply (cint_real (fun _ => 0)). apply int_zero.
  - cbn [series]. apply parts; [exact Hy|]. apply IH. lia.
Qed.
