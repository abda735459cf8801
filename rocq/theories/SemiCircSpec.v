(** Specification of the Green's functions of a semicircular and of a flat density of states. *)
From Coq Require Import Reals.
From Coquelicot Require Import Complex.
Local Open Scope R_scope.

(** the equation of the Hilbert transform of a semicircle (the Bethe lattice): g = 1 / (z - D^2/4 g) *)
Definition bethe (D : R) (z g : C) : Prop := Cmult g (Cminus z (Cmult (RtoC (D * D / 4)) g)) = RtoC 1.
(** the densities of states, of half bandwidth D *)
Definition semicircle (D x : R) : R := if Rlt_dec (Rabs x) D then 2 * sqrt (D * D - x * x) / (PI * (D * D)) else 0.
Definition flat_dos (D x : R) : R := if Rlt_dec (Rabs x) D then 1 / (2 * D) else 0.
