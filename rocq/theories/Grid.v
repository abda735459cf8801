(** Model of c++/triqs/lattice/grid_generator.hpp : the points of a regular grid in the unit
    cuboid.  Coordinates (double in the code) are exact rationals; int is 32-bit, overflow is
    undefined. *)
From Coq Require Import ZArith QArith List Bool.
From Verif Require Import Base.
Import ListNotations.

Definition int_max : Z := 2147483647.

(** lines 34-37 *)
Record grid : Type := mkGrid {
  g_dim : Z; g_nkpts : Z; g_nx : Z; g_ny : Z; g_nz : Z; g_NX : Z; g_NY : Z; g_NZ : Z;
  g_index : Z; g_at_end : bool; g_px : Q; g_py : Q; g_pz : Q }.

(** 1.0 / double(N); 1/0 is 0 here (infinity in the code), statements assume N >= 1 *)
Definition step (n : Z) : Q := / inject_Z n.

(** lines 38-53, 85 *)
Definition grid_new (dim nkpts : Z) : grid :=
  let NX := nkpts in
  let NY := (if 1 <? dim then nkpts else 1)%Z in
  let NZ := (if 2 <? dim then nkpts else 1)%Z in
  mkGrid dim nkpts 0 0 0 NX NY NZ 0 false (step NX / 2) (step NY / 2) (step NZ / 2).

(** ++index_ *)
Definition bump (i : Z) : res Z := if (i <? int_max)%Z then Ok (i + 1)%Z else UB.

(** lines 55-79 *)
Definition increment (g : grid) : res grid :=
  if (g_nx g <? g_NX g - 1)%Z then
    do i <- bump (g_index g) ;
    Ok (mkGrid (g_dim g) (g_nkpts g) (g_nx g + 1) (g_ny g) (g_nz g) (g_NX g) (g_NY g) (g_NZ g) i (g_at_end g)
               (g_px g + step (g_NX g)) (g_py g) (g_pz g))
  else
    let px := step (g_NX g) / 2 in
    if (g_ny g <? g_NY g - 1)%Z then
      do i <- bump (g_index g) ;
      Ok (mkGrid (g_dim g) (g_nkpts g) 0 (g_ny g + 1) (g_nz g) (g_NX g) (g_NY g) (g_NZ g) i (g_at_end g)
                 px (g_py g + step (g_NY g)) (g_pz g))
    else
      let py := step (g_NY g) / 2 in
      if (g_nz g <? g_NZ g - 1)%Z then
        do i <- bump (g_index g) ;
        Ok (mkGrid (g_dim g) (g_nkpts g) 0 0 (g_nz g + 1) (g_NX g) (g_NY g) (g_NZ g) i (g_at_end g)
                   px py (g_pz g + step (g_NZ g)))
      else
        Ok (mkGrid (g_dim g) (g_nkpts g) 0 0 (g_nz g) (g_NX g) (g_NY g) (g_NZ g) (g_index g) true px py (g_pz g)).

(** lines 88-90 *)
Definition grid_size (g : grid) : res Z :=
  let n := (g_NX g * g_NY g * g_NZ g)%Z in if (n <=? int_max)%Z then Ok n else UB.
Definition valid (g : grid) : bool := negb (g_at_end g).
(** line 81 *)
Definition deref (g : grid) : Q * Q * Q := (g_px g, g_py g, g_pz g).

(** for (; grid; ++grid) : the (index, point) pairs visited, at most [fuel] of them; the
    second component says whether the loop has ended *)
Fixpoint visit (fuel : nat) (g : grid) : res (list (Z * (Q * Q * Q)) * bool) :=
  if valid g then
    match fuel with
    | O => Ok ([], false)
    | S fuel' => do g' <- increment g ; do r <- visit fuel' g' ; Ok ((g_index g, deref g) :: fst r, snd r)
    end
  else Ok ([], true).
