(** Model of c++/triqs/utility/time_pt.hpp : points on the imaginary-time circle.

    Simplification: only the grid integer [n] of a [time_pt] is modelled; the
    fields [val] and [beta] (lines 59, 106) are doubles derived from it. *)
From Coq Require Import ZArith Bool Lia.
From Verif Require Import Base.
Open Scope Z_scope.

(** time_pt.hpp:102  static constexpr uint64_t Nmax = numeric_limits<uint64_t>::max() *)
Definition Nmax : Z := two64 - 1.

(** time_pt.hpp:69-75  operator+ *)
Definition tp_add (a b : Z) : Z :=
  let wrapped := wrap64 (Nmax - Z.max a b) <? Z.min a b in
  if negb wrapped then wrap64 (a + b) mod Nmax
  else wrap64 (wrap64 (a + b) + 1) mod Nmax.

(** time_pt.hpp:76-79  operator- (binary) *)
Definition tp_sub (a b : Z) : Z :=
  if a >=? b then wrap64 (a - b) mod Nmax else wrap64 (Nmax - wrap64 (b - a)).

(** time_pt.hpp:82  operator- (unary) *)
Definition tp_neg (a : Z) : Z := wrap64 (Nmax - a).

(** time_pt.hpp:85  div_by_int : integer division by zero is undefined *)
Definition tp_div_by_int (a b : Z) : res Z := if b =? 0 then UB else Ok (a / b).

(** time_pt.hpp:88  mult_by_int *)
Definition tp_mult_by_int (a b : Z) : Z := wrap64 (a * b).

(** time_pt.hpp:91  floor_div *)
Definition tp_floor_div (a b : Z) : res Z := if b =? 0 then UB else Ok (a / b).

(** time_pt.hpp:65-66  comparisons *)
Definition tp_ltb (a b : Z) : bool := a <? b.
Definition tp_eqb (a b : Z) : bool := a =? b.

(** time_pt.hpp:148, 151, 154  the three get_random_pt; [rng m] is the value
    returned by the random generator asked for an integer below [m]. *)
Definition tp_random_below (rng : Z -> Z) (tp : Z) : Z := rng tp.
Definition tp_random (rng : Z -> Z) : Z := rng Nmax.
Definition tp_random_between (rng : Z -> Z) (tp1 tp2 : Z) : Z :=
  wrap64 (rng (wrap64 (tp2 - tp1)) + tp1).

(** time_pt.hpp:157,160,163 *)
Definition tp_upper : Z := Nmax.
Definition tp_lower : Z := 0.
Definition tp_epsilon : Z := 1.

(** ---- Specification ----
    A grid point n stands for the imaginary time n * beta / Nmax; 0 and Nmax are
    the same point of the circle.  [same_angle] : equal on the circle. *)
Definition same_angle (a b : Z) : Prop := exists k, a - b = k * Nmax.
