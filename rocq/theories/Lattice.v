(** Model of c++/triqs/lattice/{bravais_lattice,brillouin_zone}.{hpp,cpp} and of the
    momentum meshes, c++/triqs/mesh/brzone.hpp.

    Simplifications: [double] is R (no rounding), [long] is Z.  nda's [inverse] and
    [determinant] of a 3x3 matrix (LAPACK) are modelled by the adjugate formula, i.e. by the
    exact inverse.  Orbital positions and names are not modelled. *)
From Coq Require Import ZArith Reals List Bool Lia.
From Verif Require Import Base Mesh LinMesh.
Import ListNotations.
Local Open Scope R_scope.

(** 3-vectors and 3x3 matrices (rows) *)
Record vec : Type := V3 { vx : R; vy : R; vz : R }.
Record mat : Type := M3 { r0 : vec; r1 : vec; r2 : vec }.
Definition vadd (u v : vec) : vec := V3 (vx u + vx v) (vy u + vy v) (vz u + vz v).
Definition vsub (u v : vec) : vec := V3 (vx u - vx v) (vy u - vy v) (vz u - vz v).
Definition vscal (c : R) (u : vec) : vec := V3 (c * vx u) (c * vy u) (c * vz u).
Definition dot (u v : vec) : R := vx u * vx v + vy u * vy v + vz u * vz v.
Definition cross (u v : vec) : vec :=
  V3 (vy u * vz v - vz u * vy v) (vz u * vx v - vx u * vz v) (vx u * vy v - vy u * vx v).
Definition norm (u : vec) : R := sqrt (dot u u).
Definition transpose (m : mat) : mat :=
  M3 (V3 (vx (r0 m)) (vx (r1 m)) (vx (r2 m))) (V3 (vy (r0 m)) (vy (r1 m)) (vy (r2 m))) (V3 (vz (r0 m)) (vz (r1 m)) (vz (r2 m))).
Definition mvec (m : mat) (v : vec) : vec := V3 (dot (r0 m) v) (dot (r1 m) v) (dot (r2 m) v).
Definition mmul (m n : mat) : mat :=
  M3 (mvec (transpose n) (r0 m)) (mvec (transpose n) (r1 m)) (mvec (transpose n) (r2 m)).
Definition mscal (c : R) (m : mat) : mat := M3 (vscal c (r0 m)) (vscal c (r1 m)) (vscal c (r2 m)).
Definition det (m : mat) : R := dot (cross (r0 m) (r1 m)) (r2 m).
(** nda::inverse *)
Definition adjugate (m : mat) : mat := transpose (M3 (cross (r1 m) (r2 m)) (cross (r2 m) (r0 m)) (cross (r0 m) (r1 m))).
Definition inverse (m : mat) : mat := mscal (/ det m) (adjugate m).
Definition mone : mat := M3 (V3 1 0 0) (V3 0 1 0) (V3 0 0 1).
Definition mdiag (a b c : R) : mat := M3 (V3 a 0 0) (V3 0 b 0) (V3 0 0 c).

(** keep the first [d] components: transpose(units)(all, range(d)) * x(range(d)) *)
Definition keep (d : nat) (v : vec) : vec :=
  match d with
  | 0%nat => V3 0 0 0 | 1%nat => V3 (vx v) 0 0 | 2%nat => V3 (vx v) (vy v) 0 | _ => v
  end.

(** bravais_lattice.cpp:29-84 : the user's units matrix (its d x d block) completed to 3d.
    [Throw] is TRIQS_RUNTIME_ERROR.  In one dimension a zero unit vector is divided by its
    zero norm (NaN, silently): [UB]. *)
Record lattice : Type := mkLat { la_dim : nat; la_units : mat; la_inv : mat }.
Definition almost_zero : R := 1 / 10000000000.
Definition la_make (d : nat) (u : mat) : res lattice :=
  match d with
  | 1%nat =>
      let ux := V3 (vx (r0 u)) 0 0 in
      let uz := V3 0 1 0 in
      let uz := vsub uz (vscal (dot uz ux) ux) in
      let uz := if Rlt_dec (norm uz) almost_zero
                then (let uz := V3 0 0 1 in vsub uz (vscal (dot uz ux) ux)) else uz in
      let uz := vscal (/ norm uz) uz in
      let uy := cross uz ux in
      if Req_EM_T (norm uy) 0 then UB else
      let uy := vscal (/ norm uy) uy in
      let m := M3 ux uz uy in Ok (mkLat 1 m (inverse m))
  | 2%nat =>
      let u0 := V3 (vx (r0 u)) (vy (r0 u)) 0 in
      let u1 := V3 (vx (r1 u)) (vy (r1 u)) 0 in
      let uy := cross u0 u1 in
      let delta := norm uy in
      if Rlt_dec (Rabs delta) almost_zero then Throw else
      let m := M3 u0 u1 (vscal (/ delta) uy) in Ok (mkLat 2 m (inverse m))
  | 3%nat =>
      if Rlt_dec (Rabs (dot (cross (r0 u) (r1 u)) (r2 u))) almost_zero then Throw
      else Ok (mkLat 3 u (inverse u))
  | _ => Throw
  end.
(** bravais_lattice.hpp:107-109, 112-114 *)
Definition la_to_real (l : lattice) (x : vec) : vec := mvec (transpose (la_units l)) (keep (la_dim l) x).
Definition la_to_lattice (l : lattice) (x : vec) : vec := mvec (transpose (la_inv l)) (keep (la_dim l) x).

(** brillouin_zone.cpp:29-37 *)
Record bzone : Type := mkBz { bz_lat : lattice; bz_K : mat; bz_Kinv : mat }.
Definition bz_make (l : lattice) : res bzone :=
  if Rlt_dec (Rabs (det (la_units l))) almost_zero then Throw
  else let K := mscal (2 * PI) (inverse (transpose (la_units l))) in Ok (mkBz l K (inverse K)).
(** brillouin_zone.hpp:73-80 *)
Definition bz_to_real (z : bzone) (k : vec) : vec := mvec (transpose (bz_K z)) (keep (la_dim (bz_lat z)) k).
Definition bz_to_lattice (z : bzone) (k : vec) : vec := mvec (transpose (bz_Kinv z)) (keep (la_dim (bz_lat z)) k).

(** brzone.hpp:67-75 : mesh basis vectors, rows of diag(dims)^{-1} K *)
Record brz : Type := mkBrz { br_bz : bzone; br_dims : cyc; br_units : mat; br_uinv : mat }.
Definition br_make (z : bzone) (dm : cyc) : brz :=
  let U := mmul (inverse (mdiag (IZR (cy_d0 dm)) (IZR (cy_d1 dm)) (IZR (cy_d2 dm)))) (bz_K z) in
  mkBrz z dm U (inverse U).
Definition vec_of (i : idx) : vec := match i with [a; b; c] => V3 (IZR a) (IZR b) (IZR c) | _ => V3 0 0 0 end.
(** brzone.hpp:285-288 *)
Definition br_value (m : brz) (i : idx) : vec := mvec (transpose (br_units m)) (keep (la_dim (bz_lat (br_bz m))) (vec_of i)).

(** std::floor *)
Definition floor (x : R) : Z := Int_part x.
(** brzone.hpp:355-359 : interpolation along one direction *)
Definition br_eval1 (dim : Z) (vi : R) (f : Z -> R) : R :=
  let i := floor vi in
  let w := vi - IZR i in
  (1 - w) * f (positive_modulo i dim) + w * f (if (dim =? 1)%Z then 0%Z else positive_modulo (i + 1) dim).
(** brzone.hpp:361-373 *)
Definition br_eval (m : brz) (f : idx -> R) (k : vec) : R :=
  let v := mvec (transpose (br_uinv m)) k in
  ev_tuple [br_eval1 (cy_d0 (br_dims m)) (vx v); br_eval1 (cy_d1 (br_dims m)) (vy v); br_eval1 (cy_d2 (br_dims m)) (vz v)] f.

(** brzone.hpp:219-262 : closest mesh point, by comparing the corners of the cell that
    contains k.  The corners are visited by itertools::product_range (last index fastest
    here: the order only matters for ties). *)
Definition corners (dm : cyc) : list (Z * Z * Z) :=
  let rg d := map Z.of_nat (seq 0 (Z.to_nat (Z.min d 2))) in
  flat_map (fun i1 => flat_map (fun i2 => map (fun i3 => (i1, i2, i3)) (rg (cy_d2 dm))) (rg (cy_d1 dm))) (rg (cy_d0 dm)).
Definition cvec (c : Z * Z * Z) : vec := let '(a, b, c) := c in V3 (IZR a) (IZR b) (IZR c).
Definition br_step (m : brz) (w : vec) (acc : option (R * (Z * Z * Z))) (c : Z * Z * Z) : option (R * (Z * Z * Z)) :=
  let dstp := norm (mvec (transpose (br_units m)) (vsub w (cvec c))) in
  match acc with
  | None => Some (dstp, c)                                     (* dst = infinity *)
  | Some (dst, _) => if Rlt_dec dstp dst then Some (dstp, c) else acc
  end.
Definition br_corner (m : brz) (k : vec) : option (Z * Z * Z) :=
  let v := mvec (transpose (br_uinv m)) k in
  let n := V3 (IZR (floor (vx v))) (IZR (floor (vy v))) (IZR (floor (vz v))) in
  let w := vsub v n in
  match fold_left (br_step m w) (corners (br_dims m)) None with
  | None => None
  | Some (_, (i1, i2, i3)) => Some ((floor (vx v) + i1)%Z, (floor (vy v) + i2)%Z, (floor (vz v) + i3)%Z)
  end.
Definition br_closest (m : brz) (k : vec) : option idx :=
  match br_corner m k with
  | None => None
  | Some (a, b, c) => Some (cy_modulo (br_dims m) [a; b; c])
  end.
