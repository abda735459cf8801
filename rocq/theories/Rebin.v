(** Model of c++/triqs/gfs/functions/imtime.cpp:31-52, rebinning_tau.

    Simplifications: [double] is R, [dcomplex] is C; the data is a function of the mesh index and
    of the flattened target subscript.  std::round of a non-negative number is the integer part of
    the number plus one half.  A new mesh with a single point has step 0 and makes the conversion of
    line 41 undefined; with no points line 49 is out of range.  An old mesh without points makes
    line 49 compute 0/0, which R does not have: it counts as undefined too. *)
From Coq Require Import ZArith Reals List Bool Arith Lia.
From Coquelicot Require Import Complex.
From Verif Require Import Base Matsubara LinMesh Fourier.
Import ListNotations.
Local Open Scope R_scope.

Definition round_pos (x : R) : Z := Int_part (x + 1 / 2).
Definition zdata : Type := Z -> nat -> C.
Definition rb_upd (g : zdata) (i : Z) (f : nat -> C) : zdata := fun j c => if (j =? i)%Z then f c else g j c.
Definition rb_div (g : zdata) (i norm : Z) : zdata := rb_upd g i (fun c => Cdiv (g i c) (RtoC (IZR norm))).
(** lines 35-39 : new data, prev_index, norm *)
Record rb_state : Type := mkRb { rb_g : zdata; rb_prev : Z; rb_norm : Z }.
(** lines 40-48 for one point; subscripts of the new data are checked *)
Definition rb_step (new_m : imtime) (tau : R) (row : nat -> C) (st : rb_state) : res rb_state :=
  let index := round_pos (tau / li_delta (it_lin new_m)) in
  let ok i := ((0 <=? i) && (i <? li_L (it_lin new_m)))%Z in
  if negb (ok index) then UB else
  do st' <- (if (index =? rb_prev st)%Z then Ok (mkRb (rb_g st) (rb_prev st) (rb_norm st + 1))
             else if ok (index - 1)%Z then Ok (mkRb (rb_div (rb_g st) (index - 1) (rb_norm st)) index 1) else UB) ;
  Ok (mkRb (rb_upd (rb_g st') index (fun c => Cplus (rb_g st' index c) (row c))) (rb_prev st') (rb_norm st')).
Fixpoint rb_loop (new_m : imtime) (pts : list (R * (nat -> C))) (st : rb_state) : res rb_state :=
  match pts with
  | [] => Ok st
  | (tau, row) :: pts' => do st' <- rb_step new_m tau row st ; rb_loop new_m pts' st'
  end.
(** lines 31-51 *)
Definition rebinning_tau (old_m : imtime) (g : data) (new_n_tau : nat) : res (imtime * data) :=
  let new_m := it_make (it_beta old_m) (it_stat old_m) (Z.of_nat new_n_tau) in
  if (new_n_tau <=? 1)%nat then UB else
  if (it_rows old_m =? 0)%nat then UB else
  do st <- rb_loop new_m (map (fun k => (it_pt old_m k, g k)) (seq 0 (it_rows old_m))) (mkRb (fun _ _ => RtoC 0) 0 0) ;
  let last := (li_L (it_lin new_m) - 1)%Z in
  let r := if (rb_norm st =? 1)%Z then rb_g st else rb_div (rb_g st) last (rb_norm st) in
  Ok (new_m, fun i c => r (Z.of_nat i) c).
