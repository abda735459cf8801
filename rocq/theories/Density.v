(** Model of c++/triqs/gfs/functions/density.cpp: density of a matrix-valued Green's function of
    Matsubara frequencies (lines 32-120) and of real frequencies (135-184).  The Legendre
    overload is in LegGf.v.

    Simplifications: [double] is R and [dcomplex] is C (no rounding).  The data of a Green's
    function is a function of the data index of the mesh point and of the two target
    subscripts; known_moments is the list of its matrices.  max_element(abs(..)) < 1e-8 is a
    test of every element.  The warning of lines 51-53 is not modelled; [fit] stands for
    fit_tail (mesh/tail_fitter.hpp). *)
From Coq Require Import ZArith Reals List Bool Arith Lia.
From Coquelicot Require Import Complex.
From Verif Require Import Base Matsubara LinMesh ThermalSpec Fourier.
Import ListNotations.
Local Open Scope R_scope.

Definition mat : Type := nat -> nat -> C.
Definition mrow (km : list mat) (k : nat) : mat := nth k km (fun _ _ => RtoC 0).
(** lines 42-44 *)
Definition below (n1 n2 : nat) (tol : R) (v : mat) : bool :=
  forallb (fun i => forallb (fun j => if Rlt_dec (Cmod (v i j)) tol then true else false) (seq 0 n2)) (seq 0 n1).
(** lines 64-79 : positions of the poles of the tail model *)
Definition d_pole (s : statistic) (i : nat) : R :=
  match s, i with
  | Fermion, 0%nat => 0 | Fermion, 1%nat => 1 | Fermion, _ => -1
  | Boson, 0%nat => -1 | Boson, 1%nat => 1 | Boson, _ => 1 / 2
  end.
(** lines 98-109 : their weights *)
Definition d_weight (s : statistic) (m1 m2 m3 : C) (i : nat) : C :=
  match s, i with
  | Fermion, 0%nat => Cminus m1 m3
  | Fermion, 1%nat => Cdiv (Cplus m2 m3) (RtoC 2)
  | Fermion, _ => Cdiv (Cminus m3 m2) (RtoC 2)
  | Boson, 0%nat => Cplus (Cminus (Cdiv m1 (RtoC 6)) (Cdiv m2 (RtoC 2))) (Cdiv m3 (RtoC 3))
  | Boson, 1%nat => Cplus (Cplus (Cdiv (Copp m1) (RtoC 2)) (Cdiv m2 (RtoC 2))) m3
  | Boson, _ => Cminus (Cdiv (Cmult (RtoC 4) m1) (RtoC 3)) (Cdiv (Cmult (RtoC 4) m3) (RtoC 3))
  end.
Definition d_xi (s : statistic) : R := match s with Fermion => -1 | Boson => 1 end.
(** line 83 *)
Definition d_F (beta xi : R) (a : C) (b : R) : C := Cdiv (Cmult (RtoC xi) a) (RtoC (- xi + exp (- beta * b))).
(** lines 56-119 with at least four moments.  For n2 > n1 the assignment of line 116 is out of range; for n1 > n2 some elements of the
    result are never assigned: both are undefined. *)
Definition density_known (m : imfreq) (n1 n2 : nat) (g : nat -> mat) (km : list mat) : res mat :=
  if negb (n1 =? n2)%nat then UB else
  let s := if_stat m in let beta := if_beta m in let xi := d_xi s in
  let val i j :=
    let a k := d_weight s (mrow km 1 i j) (mrow km 2 i j) (mrow km 3 i j) k in
    let r := fold_left (fun r d => let w := iw_pt m (if_to_index m (Z.of_nat d)) in
                 Cplus r (Cminus (g d i j) (Cplus (Cplus (Cdiv (a 0%nat) (Cminus w (RtoC (d_pole s 0)))) (Cdiv (a 1%nat) (Cminus w (RtoC (d_pole s 1)))))
                                                  (Cdiv (a 2%nat) (Cminus w (RtoC (d_pole s 2)))))))
               (seq 0 (Z.to_nat (if_size m))) (RtoC 0) in
    Cmult (RtoC (- xi)) (Cplus (Cplus (Cplus (Cplus (Cdiv r (RtoC beta)) (mrow km 1 i j)) (d_F beta xi (a 0%nat) (d_pole s 0))) (d_F beta xi (a 1%nat) (d_pole s 1)))
                               (d_F beta xi (a 2%nat) (d_pole s 2))) in
  Ok (fun i j => if (i <=? j)%nat then val i j else Cconj (val j i)).
(** lines 32-57.  Without elements known_moments stays empty and the recursion does not end. *)
Definition density_iw (fit : (nat -> mat) -> list mat -> list mat * R) (m : imfreq) (n1 n2 : nat) (g : nat -> mat) (km : list mat) : res mat :=
  if if_pos m then Throw else
  if (n1 * n2 =? 0)%nat then UB else
  let km := match km with [] => [fun _ _ => RtoC 0] | _ => km end in
  if negb (below n1 n2 (/ 10 ^ 8) (mrow km 0)) then Throw else
  if (length km <? 4)%nat then
    let (t, err) := fit g km in
    if Rlt_dec err (/ 10 ^ 2) then
      if (3 <? length t)%nat then
        if negb (below n1 n2 (/ 10 ^ 8) (mrow t 0)) then Throw else density_known m n1 n2 g t
      else Throw
    else Throw
  else density_known m n1 n2 g km.

(** lines 157-164, 176-183 : filter, scale, hermitian part *)
Definition d_finish (dw : R) (acc : mat) : mat :=
  let f i j := if (i =? j)%nat then Cmult Ci (RtoC (snd (acc i j))) else acc i j in
  let r i j := Cmult (f i j) (Cdiv (Cmult Ci (RtoC dw)) (RtoC PI)) in
  fun i j => Cmult (RtoC (1 / 2)) (Cplus (r i j) (Cconj (r j i))).
(** lines 135-165 for a square target, zero temperature.  The precondition of line 141 and the range of the subscripts are
    required; the conversion of -wmin / 0 to int is undefined. *)
Definition density_w0 (m : linear) (g : nat -> mat) : res mat :=
  let wmin := li_min m in let dw := li_delta m in
  if Rlt_dec wmin 0 then
    if Req_EM_T dw 0 then UB else
    let N0 := (Int_part (- wmin / dw) + 1)%Z in
    let dw0 := - wmin - (IZR N0 - 1) * dw in
    let k := Z.to_nat N0 in
    if (li_L m <? N0)%Z then UB else
    let res0 : mat := fun i j => fold_left (fun r d => Cplus r (g d i j)) (seq 1 (k - 1)) (Cmult (RtoC (1 / 2)) (g 0%nat i j)) in
    if Rlt_dec (/ 10 ^ 9) (Rabs dw0) then
      if (li_L m <=? N0)%Z then UB else
      let a := dw0 / dw in
      Ok (d_finish dw (fun i j => Cplus (res0 i j) (Cmult (RtoC (1 / 2)) (Cplus (Cmult (RtoC (a * a - 1)) (g (k - 1)%nat i j)) (Cmult (RtoC (a * (2 - a))) (g k i j))))))
    else Ok (d_finish dw (fun i j => Cminus (res0 i j) (Cmult (RtoC (1 / 2)) (g (k - 1)%nat i j))))
  else UB.
(** lines 168-184 for a square target and beta > 0 (line 171) *)
Definition density_w (m : linear) (beta : R) (g : nat -> mat) : mat :=
  d_finish (li_delta m) (fun i j => fold_left (fun r d => Cplus r (Cdiv (g d i j) (RtoC (1 + exp (beta * li_pt m d))))) (seq 0 (li_rows m)) (RtoC 0)).
