(** Model of c++/triqs/lattice/tight_binding.cpp : dos and dos_patch.

    Simplifications: double is R, int and long are Z.  The momenta of the grid (Grid.v, property C50) are given as a list; the
    eigensolver is a parameter.  A conversion to int of an infinite or undefined quotient and an access outside of an array are UB. *)
From Coq Require Import ZArith Reals List Bool.
From Coquelicot Require Import Complex.
From Verif Require Import Base TightBinding.
Import ListNotations.
Local Open Scope R_scope.

(** int(x) : towards zero *)
Definition trunc (x : R) : Z := if Rlt_dec x 0 then (- Int_part (- x))%Z else Int_part x.
(** nda::max_element, min_element *)
Definition max_list (x : R) (l : list R) : R := fold_left Rmax l x.
Definition min_list (x : R) (l : list R) : R := fold_left Rmin l x.
(** lines 98-99, 188-189 : the bin of an energy *)
Definition bin (neps : Z) (epsmin deps e : R) : res Z :=
  if Req_EM_T deps 0 then UB else
  let a := trunc ((e - epsmin) / deps) in
  let a := if Z.eqb a neps then (a - 1)%Z else a in
  if ((a <? 0) || (neps <=? a))%Z then UB else Ok a.
(** rho(a, k) += w(k) *)
Definition add_at (rho : Z -> nat -> R) (a : Z) (w : nat -> R) : Z -> nat -> R := fun a' k => if Z.eqb a' a then rho a' k + w k else rho a' k.
(** lines 94-102, 186-192 : states are pairs of an energy and the squared moduli of its vector *)
Fixpoint fill (neps : Z) (epsmin deps : R) (sts : list (R * (nat -> R))) (rho : Z -> nat -> R) : res (Z -> nat -> R) :=
  match sts with
  | [] => Ok rho
  | (e, w) :: sts' => do a <- bin neps epsmin deps e ; fill neps epsmin deps sts' (add_at rho a w)
  end.

Section Dos.
  (** nda::linalg::eigenelements : eigenvalues and matrix of eigenvectors (columns) *)
  Variable eig : cmat -> (nat -> R) * (nat -> nat -> C).
  (** lines 68-81 : eigenvalues and vectors at each momentum; one orbital is done without the solver *)
  Fixpoint bands (t : tb) (ks : list (list R)) : res (list ((nat -> R) * (nat -> nat -> C))) :=
    match ks with
    | [] => Ok []
    | k :: ks' =>
        do h <- fourier t k ; do r <- bands t ks' ;
        Ok ((if Nat.eqb (tb_norb t) 1 then (fun _ => fst (h 0%nat 0%nat), fun _ _ => RtoC 1) else eig h) :: r)
    end.
  (** real(conj(z) * z) *)
  Definition sqmod (z : C) : R := fst (Cconj z * z)%C.
  (** lines 96-97 : the loop over the bands l, then over the momenta j *)
  Definition states (norb : nat) (bs : list ((nat -> R) * (nat -> nat -> C))) : list (R * (nat -> R)) :=
    flat_map (fun l => map (fun b => (fst b l, fun k => sqmod (snd b k l))) bs) (seq 0 norb).
  (** lines 59-105 *)
  Definition dos (t : tb) (ks : list (list R)) (neps : Z) : res ((Z -> R) * (Z -> nat -> R)) :=
    do bs <- bands t ks ;
    if (neps <=? 0)%Z then UB else
    match states (tb_norb t) bs with
    | [] => UB
    | (e, w) :: sts =>
        let es := map fst sts in
        let epsmax := max_list e es in
        let epsmin := min_list e es in
        let deps := (epsmax - epsmin) / IZR neps in
        do rho <- fill neps epsmin deps ((e, w) :: sts) (fun _ _ => 0) ;
        Ok (fun i => epsmin + (IZR i + 1 / 2) * deps, fun a k => rho a k / (IZR (Z.of_nat (length ks)) * deps))
    end.
End Dos.

(** points of the plane *)
Definition pt : Type := (R * R)%type.
Definition padd (p q : pt) : pt := (fst p + fst q, snd p + snd q).
Definition pmul (c : R) (p : pt) : pt := (c * fst p, c * snd p).
Definition psub (p q : pt) : pt := (fst p - fst q, snd p - snd q).
(** lines 147, 153-161 : the momenta of one triangle (a, b, c), in order *)
Definition patch_points (ndiv : nat) (a b c : pt) : list pt :=
  let g := pmul (/ INR ndiv) (psub (pmul (/ 3) (padd (padd a b) c)) a) in
  flat_map (fun i => let s := INR i / INR ndiv in
    flat_map (fun j => let t := INR j / INR ndiv in
      flat_map (fun k => if (Nat.eqb k 0 || Nat.ltb (S j) (ndiv - i))%bool
                         then [padd (padd (padd a (pmul s (psub b a))) (pmul t (psub c a))) (pmul (INR k + 1) g)] else [])
        [0%nat; 1%nat])
      (seq 0 (ndiv - i)))
    (seq 0 ndiv).
(** line 151 *)
Definition patch_area (ndiv : nat) (a b c : pt) : R :=
  Rabs (1 / 2 * ((fst b - fst a) * (snd c - snd a) - (snd b - snd a) * (fst c - fst a)) / (INR ndiv * INR ndiv)).
(** lines 139-174, [energy] is real(TB.fourier(k)(0,0)) : the energies and weights in order *)
Definition patch_states (energy : pt -> R) (ndiv : nat) (tris : list (pt * pt * pt)) : list (R * (nat -> R)) :=
  flat_map (fun t => let '(a, b, c) := t in map (fun p => (energy p, fun _ => patch_area ndiv a b c)) (patch_points ndiv a b c)) tris.
(** lines 109-195 : the extrema start from the constants of line 129 *)
Definition dos_patch (energy : pt -> R) (tris : list (pt * pt * pt)) (neps : Z) (ndiv : nat) : res ((Z -> R) * (Z -> R)) :=
  if (neps <=? 1)%Z then UB else                    (* epsilon(0) = epsmin + 0/0 *)
  let sts := patch_states energy ndiv tris in
  if negb (Nat.eqb (length sts) (length tris * ndiv * ndiv)) then UB else   (* elements of energ, weight left uninitialised or beyond the end *)
  let epsmax := max_list (-100000) (map fst sts) in
  let epsmin := min_list 100000 (map fst sts) in
  let deps := (epsmax - epsmin) / IZR neps in
  do rho <- fill neps epsmin deps sts (fun _ _ => 0) ;
  Ok (fun i => epsmin + IZR i / (IZR neps - 1) * (epsmax - epsmin), fun a => rho a 0%nat / deps).
