(** Specification vocabulary for Green's functions of Legendre coefficients. *)
From Coq Require Import ZArith Reals List Bool.
From Coquelicot Require Import Coquelicot.
From Verif Require Import Base Matsubara LinMesh ThermalSpec LehmannSpec Fourier FourierSpec.
Import ListNotations.
Local Open Scope R_scope.

(** the function of imaginary time sum_l sqrt(2l+1)/beta G_l P_l(2 tau/beta - 1) *)
Definition leg_function (beta : R) (nl : nat) (gl : nat -> C) (tau : R) : C :=
  total nl (fun l => Cmult (RtoC (sqrt (2 * INR l + 1) / beta * legendre_P l (2 * tau / beta - 1))) (gl l)).
(** the Legendre coefficient sqrt(2l+1) int_0^beta P_l(2 tau/beta - 1) G(tau) *)
Definition leg_weight (beta : R) (l : nat) (tau : R) : R := sqrt (2 * INR l + 1) * legendre_P l (2 * tau / beta - 1).
Definition leg_coefficient (beta : R) (l : nat) (g : R -> C) (z : C) : Prop :=
  FourierSpec.cintegral (fun tau => Cmult (RtoC (leg_weight beta l tau)) (g tau)) 0 beta z.
(** z^l *)
Definition power (z : C) (l : nat) : C := fold_right (fun _ y => Cmult z y) (RtoC 1) (seq 0 l).
(** J is the Bessel function of the first kind at half-integer orders:
    sqrt(pi/2x) J_{l+1/2}(x) = (-i)^l / 2 int_{-1}^1 exp(ixt) P_l(t) dt for x > 0 *)
Definition bessel_function (J : R -> R -> R) : Prop := forall (l : nat) x, 0 < x ->
  FourierSpec.cintegral (fun t => Cmult (expi (x * t)) (RtoC (legendre_P l t))) (-1) 1
    (Cmult (power Ci l) (RtoC (2 * (sqrt (PI / (2 * x)) * J (INR l + 1 / 2) x)))).
(** the k-th derivative of a function with complex values *)
Definition cderive_n (f : R -> C) (k : nat) (x : R) : C := (Derive_n (fun t => fst (f t)) k x, Derive_n (fun t => snd (f t)) k x).
(** sum of squares of a sequence of complex numbers *)
Definition squares (n : nat) (f : nat -> C) : R := fold_right (fun l s => Cmod (f l) ^ 2 + s) 0 (seq 0 n).
