(** Model of c++/triqs/mesh/domains/matsubara.hpp (matsubara_freq) and
    c++/triqs/mesh/imfreq.hpp (imfreq mesh).

    Simplifications: [long] is Z (no overflow for indices below 2^62); [double] is R, so
    equality of beta is exact; the mesh hash is not modelled, the tail fitter is in TailFit.v. *)
From Coq Require Import ZArith Reals List Bool Lia String.
From Verif Require Import Base.
Import ListNotations.
Local Open Scope Z_scope.

(** mesh/utils.hpp:62  enum statistic_enum { Boson = 0, Fermion = 1 } *)
Inductive statistic : Type := Boson | Fermion.
Definition stat_eqb (a b : statistic) : bool :=
  match a, b with Boson, Boson | Fermion, Fermion => true | _, _ => false end.
(** conversion of the enum to int *)
Definition stat_int (s : statistic) : Z := match s with Boson => 0 | Fermion => 1 end.

(** matsubara.hpp:42-45 *)
Record freq : Type := mkFreq { fr_n : Z; fr_beta : R; fr_stat : statistic }.

(** ((x ^ y) == 1 ? Fermion : Boson) *)
Definition stat_xor (a b : statistic) : statistic :=
  if Z.lxor (stat_int a) (stat_int b) =? 1 then Fermion else Boson.

(** matsubara.hpp:60-62  operator+ *)
Definition fr_add (x y : freq) : freq :=
  mkFreq (fr_n x + fr_n y + Z.land (stat_int (fr_stat x)) (stat_int (fr_stat y))) (fr_beta x)
         (stat_xor (fr_stat x) (fr_stat y)).
(** matsubara.hpp:64-66  operator- : ~x is the bitwise complement of an int *)
Definition fr_sub (x y : freq) : freq :=
  mkFreq (fr_n x - fr_n y - Z.land (Z.lnot (stat_int (fr_stat x))) (stat_int (fr_stat y))) (fr_beta x)
         (stat_xor (fr_stat x) (fr_stat y)).
(** matsubara.hpp:68  unary minus *)
Definition fr_neg (x : freq) : freq :=
  mkFreq (- (fr_n x + (if stat_eqb (fr_stat x) Fermion then 1 else 0))) (fr_beta x) (fr_stat x).
(** matsubara.hpp:54  conversion to complex: the imaginary part (the real part is 0) *)
Definition fr_value (x : freq) : R := (PI * IZR (2 * fr_n x + stat_int (fr_stat x)) / fr_beta x)%R.
(** matsubara.hpp:74-76 and 70-72 : both operators return the product of two purely
    imaginary numbers, that is minus the product of the imaginary parts (a real number) *)
Definition fr_mul (x y : freq) : R := (- (fr_value x * fr_value y))%R.
Definition fr_div (x y : freq) : R := (- (fr_value x * fr_value y))%R.
(** matsubara.hpp:95-96  kronecker *)
Definition fr_kron (x : freq) : bool := fr_n x =? 0.
Definition fr_kron2 (x y : freq) : bool := fr_n x =? fr_n y.

(** ---- imfreq ---- *)
(** imfreq.hpp:54-62 *)
Record imfreq : Type := mkImfreq { if_beta : R; if_stat : statistic; if_n : Z; if_pos : bool }.
Definition if_last (m : imfreq) : Z := if_n m - 1.
(** imfreq.hpp:61 and 82 : 0 for a positive-only mesh *)
Definition if_first (m : imfreq) : Z :=
  if if_pos m then 0 else - (if_last m + (if stat_eqb (if_stat m) Fermion then 1 else 0)).
(** imfreq.hpp:173 *)
Definition if_size (m : imfreq) : Z := if_last m - if_first m + 1.
(** imfreq.hpp:187 *)
Definition if_valid (m : imfreq) (i : Z) : bool := (if_first m <=? i) && (i <=? if_last m).
(** imfreq.hpp:191, 205 *)
Definition if_to_data (m : imfreq) (i : Z) : Z := i - if_first m.
Definition if_to_index (m : imfreq) (d : Z) : Z := d + if_first m.
(** imfreq.hpp:127, 233 *)
Definition if_freq (m : imfreq) (i : Z) : freq := mkFreq i (if_beta m) (if_stat m).
(** imfreq.hpp:120 *)
Definition if_positive (m : imfreq) : imfreq := mkImfreq (if_beta m) (if_stat m) (if_n m) true.
(** imfreq.hpp:113, exact equality of the four parameters *)
Definition if_same (m m' : imfreq) : Prop :=
  if_beta m = if_beta m' /\ if_stat m = if_stat m' /\ if_n m = if_n m' /\ if_pos m = if_pos m'.
(** imfreq.hpp:241-243 : iteration, data indices 0 .. size-1 *)
Definition if_points (m : imfreq) : list Z :=
  map (fun d => if_to_index m (Z.of_nat d)) (seq 0 (Z.to_nat (if_size m))).
(** imfreq.hpp:95-96 : n_iw from an energy window; conversion to long truncates *)
Definition trunc (x : R) : Z := if Rle_dec 0 x then Int_part x else - Int_part (- x).
Definition if_of_window (beta : R) (s : statistic) (wmax : R) (pos : bool) : imfreq :=
  mkImfreq beta s (trunc ((wmax * beta / PI - 1) / 2)) pos.

(** imfreq.hpp:261-269 : what is written *)
Record if_h5 : Type := mkIfH5 { h_beta : R; h_stat : string; h_size : Z; h_pos : Z }.
Definition if_write (m : imfreq) : if_h5 :=
  mkIfH5 (if_beta m) (if stat_eqb (if_stat m) Fermion then "F" else "B") (if_size m) (if if_pos m then 1 else 0).
(** imfreq.hpp:272-289 (current format); / on long truncates *)
Definition if_read (h : if_h5) : imfreq :=
  mkImfreq (h_beta h) (if String.eqb (h_stat h) "F" then Fermion else Boson)
           (if h_pos h =? 0 then Z.quot (h_size h + 1) 2 else h_size h)
           (h_pos h =? 1).
(** imfreq.hpp:293-301 : evaluation; a function on the mesh is zero outside of it *)
Definition if_eval (m : imfreq) (f : Z -> R) (w : freq) : R :=
  if if_valid m (fr_n w) then f (if_to_data m (fr_n w)) else 0%R.
