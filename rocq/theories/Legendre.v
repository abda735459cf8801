(** Model of c++/triqs/utility/legendre.hpp:42-67 (legendre_generator) and
    legendre.cpp:42-56 (legendre_t).

    Simplification: [double] is R; [unsigned int n] is nat (no overflow after 2^32 calls);
    the [int] loop counters are Z. *)
From Coq Require Import ZArith Reals List Bool Lia Arith.
Import ListNotations.
Local Open Scope R_scope.

(** legendre.hpp:44-46 *)
Record lgen : Type := mkLgen { lg_x : R; lg_n : nat; lg_0 : R; lg_1 : R }.
(** legendre.hpp:61-66 *)
Definition lg_reset (x : R) : lgen := mkLgen x 0 1 x.
Definition lg_get (g : lgen) (i : nat) : R := match i with O => lg_0 g | _ => lg_1 g end.
Definition lg_set (g : lgen) (i : nat) (v : R) : lgen :=
  match i with O => mkLgen (lg_x g) (lg_n g) v (lg_1 g) | _ => mkLgen (lg_x g) (lg_n g) (lg_0 g) v end.
Definition lg_incr (g : lgen) : lgen := mkLgen (lg_x g) (S (lg_n g)) (lg_0 g) (lg_1 g).
(** legendre.hpp:49-59 *)
Definition lg_next (g : lgen) : R * lgen :=
  if (1 <? lg_n g)%nat then
    let eo := (lg_n g mod 2)%nat in
    let v := (INR (2 * lg_n g - 1) * lg_x g * lg_get g (1 - eo) - INR (lg_n g - 1) * lg_get g eo) / INR (lg_n g) in
    (v, lg_incr (lg_set g eo v))
  else (lg_get g (lg_n g), lg_incr g).
(** k successive calls *)
Fixpoint lg_calls (k : nat) (g : lgen) : list R :=
  match k with O => [] | S k' => let (v, g') := lg_next g in v :: lg_calls k' g' end.

(** legendre.cpp:42-56.  The two for loops, counting down; the fuel is the first value of
    the counter. *)
Fixpoint lt_up (fuel : nat) (i lo : Z) (f : R) : R :=
  match fuel with
  | O => f
  | S k => if ((lo <? i) && (1 <? i))%Z then lt_up k (i - 1) lo (f * IZR i) else f
  end.
Fixpoint lt_down (fuel : nat) (i : Z) (f : R) : R :=
  match fuel with
  | O => f
  | S k => if (1 <? i)%Z then lt_down k (i - 1) (f / IZR i) else f
  end.
(** std::pow(-1., double(p)) for an integer p *)
Definition powm1 (p : Z) : R := if Z.even p then 1 else -1.
Definition legendre_t (l p : Z) : R :=
  if ((Z.rem (l + p) 2 =? 0) || (l + 1 <? p))%Z then 0
  else
    let f := lt_up (Z.to_nat (l + p)) (l + p - 1) (l - p + 1) 1 in
    let f := lt_down (Z.to_nat p) (p - 1) f in
    powm1 p * 2 * sqrt (IZR (2 * l + 1)) * f.

(** ---- specification ---- *)
(** the Legendre polynomials at x, characterised by Bonnet's recursion (legendre.hpp:35-40) *)
Definition bonnet (x : R) (P : nat -> R) : Prop :=
  P 0%nat = 1 /\ P 1%nat = x /\
  forall n, (2 <= n)%nat -> INR n * P n = (2 * INR n - 1) * x * P (n - 1)%nat - (INR n - 1) * P (n - 2)%nat.
