(** Model of Green's functions of Legendre coefficients: transforms to and from imaginary time and
    Matsubara frequencies (c++/triqs/gfs/transform/legendre_matsubara.hpp:36-119,
    c++/triqs/utility/legendre.cpp:24-40), evaluation (c++/triqs/mesh/legendre.hpp:169-174), tail and
    discontinuity (c++/triqs/gfs/functions/legendre.cpp:34-63) and density
    (c++/triqs/gfs/functions/density.cpp:197-207).

    Simplifications: [double] is R and [dcomplex] is C (no rounding).  The data of a Green's function
    is a function of the data index of the mesh point and of the component of the target; the index
    l of a Legendre coefficient is its data index (mesh/legendre.hpp:91-100).  [bessel] stands for
    boost::math::cyl_bessel_j and [fit] for fit_tail (mesh/tail_fitter.hpp). *)
From Coq Require Import ZArith Reals List Bool Arith Lia.
From Coquelicot Require Import Complex.
From Verif Require Import Base Matsubara LinMesh Legendre Fourier Density.
Import ListNotations.
Local Open Scope R_scope.

(** std::pow(1i, l) *)
Fixpoint cpow (z : C) (l : nat) : C := match l with O => RtoC 1 | S k => Cmult z (cpow z k) end.
(** legendre.cpp:24-40 *)
Definition legendre_T (bessel : R -> R -> R) (n : Z) (l : nat) : C :=
  let neg_n := (n <? 0)%Z in
  let n := if neg_n then Z.abs (n + 1) else n in
  let res := Cmult (Cmult (Cmult (RtoC (sqrt (INR (2 * l + 1)) / sqrt (IZR (2 * n + 1)))) (expi ((IZR n + 1 / 2) * PI))) (cpow Ci l))
                   (RtoC (bessel (INR l + 1 / 2) ((IZR n + 1 / 2) * PI))) in
  if neg_n then Cconj res else res.
(** legendre_matsubara.hpp:36-50 *)
Definition leg_to_iw (bessel : R -> R -> R) (iwm : imfreq) (nl : nat) (gl : data) : data := fun d c =>
  fold_left (fun g l => Cplus g (Cmult (legendre_T bessel (if_to_index iwm (Z.of_nat d)) l) (gl l c))) (seq 0 nl) (RtoC 0).
(** legendre_matsubara.hpp:54-69 *)
Definition leg_to_tau (tm : imtime) (nl : nat) (gl : data) : data := fun j c =>
  let beta := it_beta tm in
  snd (fold_left (fun st l => let (v, L) := lg_next (fst st) in
                   (L, Cplus (snd st) (Cmult (Cmult (RtoC (sqrt (INR (2 * l + 1)) / beta)) (gl l c)) (RtoC v))))
                 (seq 0 nl) (lg_reset (2 * it_pt tm j / beta - 1), RtoC 0)).
(** legendre_matsubara.hpp:97-119 *)
Definition tau_to_leg (nl : nat) (tm : imtime) (gt : data) : data :=
  let beta := it_beta tm in
  let N := (li_L (it_lin tm) - 1)%Z in
  let gl : data := fold_left (fun gl j =>
      let coef := if ((Z.of_nat j =? 0) || (Z.of_nat j =? N))%Z then 1 / 2 else 1 in
      snd (fold_left (fun (st : lgen * data) l => let (v, L) := lg_next (fst st) in
             (L, fun l' c => if (l' =? l)%nat then Cplus (snd st l' c) (Cmult (RtoC (coef * sqrt (INR (2 * l + 1)) * v)) (gt j c)) else snd st l' c))
           (seq 0 nl) (lg_reset (2 * it_pt tm j / beta - 1), gl)))
    (seq 0 (it_rows tm)) (fun _ _ => RtoC 0) in
  fun l c => Cmult (gl l c) (RtoC (li_delta (it_lin tm))).
(** legendre_matsubara.hpp:73-92 : through imaginary time, with Nt = 50000 *)
Definition iw_to_leg (fit : data -> rows -> rows * R) (nl : nat) (iwm : imfreq) (n : nat) (gw : data) : res data :=
  let tm := it_make (if_beta iwm) (if_stat iwm) 50000 in
  do gt <- fourier_iw_to_tau fit tm iwm n gw [] ; Ok (tau_to_leg nl tm gt).
(** mesh/legendre.hpp:169-174 and mesh/utils.hpp:88-94 : the first term starts the sum.  Without coefficients the precondition fails. *)
Definition leg_eval (beta : R) (nl : nat) (gl : data) (tau : R) (c : nat) : res C :=
  let term L l := let (v, L') := lg_next L in (L', Cdiv (Cmult (Cmult (gl l c) (RtoC (sqrt (INR (2 * l + 1))))) (RtoC v)) (RtoC beta)) in
  match nl with
  | O => UB
  | S k => Ok (snd (fold_left (fun st l => let (L, x) := term (fst st) l in (L, Cplus (snd st) x)) (seq 1 k) (term (lg_reset (2 * tau / beta - 1)) 0%nat)))
  end.

(** gfs/functions/legendre.cpp:34-45.  legendre_t asserts p > 0: with assertions enabled the program ends for p = 0. *)
Definition leg_tail (beta : R) (nl : nat) (gl : data) (order : nat) : rows :=
  map (fun p c => fold_left (fun t l => Cplus t (Cmult (RtoC (legendre_t (Z.of_nat l) (Z.of_nat p) / beta ^ p)) (gl l c))) (seq 0 nl) (RtoC 0)) (seq 0 order).
(** gfs/functions/legendre.cpp:48-63 *)
Definition enforce_discontinuity (beta : R) (nl : nat) (gl : data) (disc : nat -> R) : data :=
  let t i := legendre_t (Z.of_nat i) 1 / beta in
  let norm := fold_left (fun s i => s + t i * t i) (seq 0 nl) 0 in
  let corr c := fold_left (fun s l => Cplus s (Cmult (RtoC (t l)) (gl l c))) (seq 0 nl) (RtoC 0) in
  fun l c => Cplus (gl l c) (Cdiv (Cmult (Cminus (RtoC (disc c)) (corr c)) (RtoC (t l))) (RtoC norm)).
(** density.cpp:197-207 *)
Definition density_leg (beta : R) (nl : nat) (gl : nat -> mat) : mat :=
  let r i j := Cdiv (fold_left (fun r l => Cminus r (Cmult (RtoC (sqrt (INR (2 * l + 1)))) (gl l i j))) (seq 0 nl) (RtoC 0)) (RtoC beta) in
  fun i j => r j i.
