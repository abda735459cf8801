(** Model of python/triqs/sumk/sumk_discrete_from_lattice.py:40-133 and sumk_discrete.py:49-60 : the grid of SumkDiscreteFromLattice.

    Simplifications: floating point numbers are real numbers.  The basis is orthogonal (the default, and the only case
    that sumk_discrete_from_lattice.py:50 makes).  Of a patch only the number of corners of its triangles is kept, see [compute_patch]. *)
From Coq Require Import ZArith Reals List Bool Arith.
From Coquelicot Require Import Complex.
From Verif Require Import Base Lattice TightBinding.
Import ListNotations.
Local Open Scope nat_scope.

Inductive method : Type := Riemann | Gauss.
(** the object: lattice, patch, method, bz_points, bz_weights, hopping *)
Record sumk_lat : Type := mkSumk { sk_tb : tb; sk_patch : option nat; sk_method : method; sk_points : list (list R); sk_weights : list R; sk_hopping : list cmat }.

(** lines 88-90 *)
Definition pts1d (N : nat) : list R := map (fun n => ((INR n - INR N / 2 + 1) / INR N)%R) (seq 0 N).
(** lines 83 and 95-99 *)
Definition n_dir (dim n_bz d : nat) : nat := if d <? dim then n_bz else 1.
Definition grid (dim n_bz : nat) : list (list R) :=
  flat_map (fun nz => flat_map (fun ny => map (fun nx => firstn dim [nx; ny; nz]) (pts1d n_bz)) (pts1d (n_dir dim n_bz 1))) (pts1d (n_dir dim n_bz 2)).
(** sumk_discrete.py:58 *)
Definition default_weights (nk : nat) : list R := repeat (1 / INR nk)%R nk.
(** lines 78-127.  nk = 0 : ZeroDivisionError on line 93; Gauss : the assertion of line 102; more than three dimensions: the rows do not have
    three components; Q not empty : there is no attribute N_kpts (line 120).  The weights remain those of resize_arrays: line 93 assigns a local variable. *)
Definition compute_grid (t : tb) (n_bz : nat) (m : method) (Q : option (list R)) : res (list (list R) * list R * list cmat) :=
  let nk := n_bz * n_dir (tb_dim t) n_bz 1 * n_dir (tb_dim t) n_bz 2 in
  match m with
  | Gauss => Throw
  | Riemann =>
      if nk =? 0 then Throw else
      if 3 <? tb_dim t then Throw else
      let pts := grid (tb_dim t) n_bz in
      match Q with
      | Some (_ :: _) => Throw
      | _ => do h <- fourier_stack t pts ; Ok (pts, default_weights nk, h)
      end
  end.
(** Python numbers: / always gives a float, and numpy.zeros does not accept a float as a size *)
Inductive pynum : Type := PInt (z : Z) | PFloat (x : R).
Definition pval (a : pynum) : R := match a with PInt z => IZR z | PFloat x => x end.
Definition pmul (a b : pynum) : pynum := match a, b with PInt x, PInt y => PInt (x * y) | _, _ => PFloat (pval a * pval b) end.
Definition pdiv (a b : pynum) : res pynum := if Req_EM_T (pval b) 0 then Throw else Ok (PFloat (pval a / pval b)).
Definition np_size (a : pynum) : res nat := match a with PInt z => if (z <? 0)%Z then Throw else Ok (Z.to_nat z) | PFloat _ => Throw end.
(** lines 138-146, on a patch with [corners] = len(patch._triangles); [rest] is whatever follows, from line 148 on *)
Definition compute_patch (corners n_bz : nat) (rest : nat -> res sumk_lat) : res sumk_lat :=
  do ntri <- pdiv (PInt (Z.of_nat corners)) (PInt 3) ;
  do nk <- np_size (pmul (pmul (PInt (Z.of_nat n_bz)) (PInt (Z.of_nat n_bz))) ntri) ;
  rest nk.
(** lines 60-74 *)
Definition recompute_grid (rest : nat -> res sumk_lat) (t : tb) (patch : option nat) (n_points : nat) (m : method) (Q : option (list R)) : res sumk_lat :=
  match patch with
  | Some corners => compute_patch corners n_points rest
  | None => do g <- compute_grid t n_points m Q ; let '(p, w, h) := g in Ok (mkSumk t patch m p w h)
  end.
(** lines 40-51 *)
Definition sumk_make (rest : nat -> res sumk_lat) (t : tb) (patch : option nat) (n_points : nat) (m : method) : res sumk_lat := recompute_grid rest t patch n_points m None.
(** lines 55-56 : pickle and copy rebuild the object from these arguments *)
Definition sumk_copy (rest : nat -> res sumk_lat) (s : sumk_lat) : res sumk_lat := sumk_make rest (sk_tb s) (sk_patch s) (length (sk_weights s)) (sk_method s).
