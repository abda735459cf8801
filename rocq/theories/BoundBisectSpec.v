(** What the solver of f(x) = y promises. *)
From Coq Require Import ZArith Reals.
From Verif Require Import Base.
Local Open Scope R_scope.

Definition increasing (f : R -> R) : Prop := forall x x', x <= x' -> f x <= f x'.
Definition decreasing (f : R -> R) : Prop := forall x x', x <= x' -> f x' <= f x.
Definition monotone (f : R -> R) : Prop := increasing f \/ decreasing f.
(** the values at distance n |dx| on the two sides of x_0 lie on different sides of y *)
Definition crosses (f : R -> R) (x_0 y dx : R) (n : nat) : Prop :=
  let lo := x_0 - INR n * Rabs dx in let hi := x_0 + INR n * Rabs dx in
  (f lo < y < f hi) \/ (f hi < y < f lo).
(** scipy.optimize.bisect, given a continuous function of different signs at a and b: if it does not raise, it
    returns a point between a and b at a distance of at most [tol] of a zero that is between a and b *)
Definition bisects (bisect : (R -> R) -> R -> R -> R -> Z -> res R) (tol : R -> R) : Prop :=
  forall F a b xtol maxiter x, continuity F -> F a < 0 < F b -> bisect F a b xtol maxiter = Ok x ->
  exists z, F z = 0 /\ Rmin a b <= z <= Rmax a b /\ Rabs (x - z) <= tol xtol.
