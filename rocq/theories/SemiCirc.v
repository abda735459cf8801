(** Model of the descriptors SemiCircular and Flat (python/triqs/gf/descriptors.py:65-149).

    Numbers are reals and complex numbers.  [val] and [DFun] are those of PyGf.v, over the complex
    numbers; a Green's function of rank 0 or 2.  Simplifications: 0 has no sign (copysign and cmath.sqrt see
    +0); 1/0 and log(0) do not occur: for them the totalised values of the real numbers stand. *)
From Coq Require Import Reals List Bool.
From Coquelicot Require Import Complex.
From Verif Require Import Base Scalar RealAtom PyGf.
Local Open Scope R_scope.

(** cmath.sqrt : the principal branch *)
Definition csqrt (z : C) : C :=
  let r := Cmod z in
  (sqrt ((r + fst z) / 2), (if Rle_dec 0 (snd z) then 1 else -1) * sqrt ((r - fst z) / 2)).
(** copysign(1, x) *)
Definition sgn (x : R) : R := if Rle_dec 0 x then 1 else -1.

(** x * Id, with the identity of lines 89 and 131 : a number for a target of rank 0 *)
Definition times_id (sh : option (nat * nat)) (x : C) : val CS :=
  match sh with
  | None => Num CS x
  | Some (a, _) => Arr CS a a (fun i j => Cmult x (if Nat.eqb i j then RtoC 1 else RtoC 0))
  end.

(** lines 92-94 : Matsubara frequencies *)
Definition semi_im (D mu : R) (om_ : C) : C :=
  let om := Cplus om_ (RtoC mu) in
  Cmult (Cdiv (Cdiv (Cminus om (Cmult (Cmult Ci (RtoC (sgn (snd om)))) (csqrt (Cminus (RtoC (D * D)) (Cmult om om))))) (RtoC D)) (RtoC D)) (RtoC 2).
(** lines 96-101 : real frequencies *)
Definition semi_re (D mu : R) (om_ : C) : C :=
  let om := fst om_ + mu in
  if Rlt_dec (- D) om then
    if Rlt_dec om D then Cmult (RtoC (2 / (D * D))) (Cminus (RtoC om) (Cmult Ci (RtoC (sqrt (D * D - om * om)))))
    else RtoC (2 / (D * D) * (om - sgn om * sqrt (om * om - D * D)))
  else RtoC (2 / (D * D) * (om - sgn om * sqrt (om * om - D * D))).
(** lines 86-108, by the type of the mesh; the function of line 96 is not multiplied by the identity *)
Definition semi_circular (k : mesh_kind) (D mu : R) : res (desc CS) :=
  match k with
  | MeshImFreq | MeshDLRImFreq => Ok (DFun CS (fun sh om => times_id sh (semi_im D mu om)))
  | MeshReFreq => Ok (DFun CS (fun _ om => Num CS (semi_re D mu om)))
  | MeshOther => Throw
  end.

(** numpy.log of a complex number off the negative real axis with modulus r: the angle by the half-angle formula *)
Definition clog (z : C) : C := (ln (Cmod z), 2 * atan (snd z / (Cmod z + fst z))).
(** line 134 *)
Definition flat_im (D : R) (om : C) : C :=
  Cmult (RtoC (-1 / (2 * D))) (clog (Cdiv (Cminus om (RtoC D)) (Cplus om (RtoC D)))).
(** lines 136-140 *)
Definition flat_re (D : R) (om : C) : C :=
  let x := fst om in
  let l := - ln (Cmod (Cminus om (RtoC D)) / Cmod (Cplus om (RtoC D))) / (2 * D) in
  if Rlt_dec (- D) x then if Rlt_dec x D then (l, - PI / (2 * D)) else RtoC l else RtoC l.
(** lines 128-149 *)
Definition flat (k : mesh_kind) (D : R) : res (desc CS) :=
  match k with
  | MeshImFreq | MeshDLRImFreq => Ok (DFun CS (fun sh om => times_id sh (flat_im D om)))
  | MeshReFreq => Ok (DFun CS (fun sh om => times_id sh (flat_re D om)))
  | MeshOther => Throw
  end.
