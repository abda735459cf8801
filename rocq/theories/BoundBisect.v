(** Model of python/triqs/utility/bound_and_bisect.py (lines 22-67).
    Numbers are reals.  Reports are not modelled.  scipy.optimize.bisect is a parameter. *)
From Coq Require Import ZArith Reals List Bool.
From Verif Require Import Base.
Local Open Scope R_scope.

Definition Rltb (x y : R) : bool := if Rlt_dec x y then true else false.

(** lines 29-32 and 36-39 : [left] is how many more times the point may be moved *)
Fixpoint walk (found : R -> bool) (step : R) (left : nat) (x : R) : res R :=
  if found x then Ok x
  else match left with
       | O => Throw
       | S left' => walk found step left' (x + step)
       end.

(** lines 22-41 *)
Definition determine_bounds (F : R -> R) (x_0 dx : R) (maxiter : Z) : res (R * R) :=
  let dx' := if Rltb (F (x_0 + dx) - F x_0) 0 then dx * -1 else dx in
  do a <- walk (fun x => Rltb (F x) 0) (- dx') (Z.to_nat maxiter) x_0 ;
  do b <- walk (fun x => Rltb 0 (F x)) dx' (Z.to_nat maxiter) x_0 ;
  Ok (a, b).

(** lines 43-67; [bisect F a b xtol maxiter] *)
Definition bound_and_bisect (bisect : (R -> R) -> R -> R -> R -> Z -> res R) (f : R -> R) (x_0 y dx xtol : R) (maxiter : Z) : res (R * R) :=
  let F x := f x - y in
  do ab <- determine_bounds F x_0 dx maxiter ;
  do x <- bisect F (fst ab) (snd ab) xtol maxiter ;
  Ok (x, f x).
