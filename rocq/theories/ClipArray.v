(** Model of python/triqs/plot/protocol.py: clip_array (lines 28-50).  The values have any type with a comparison [ltb] (Python's <).
    A slice is its pair of bounds; a failed assertion is [Throw].
    The assertion x_max >= x_min (line 37) is written as the negation of x_max < x_min; NaN is not modelled. *)
From Coq Require Import List Bool Arith.
From Verif Require Import Base.
Import ListNotations.

Section Clip.
Context {T : Type} (ltb : T -> T -> bool).

(** next((i for i, x in enumerate(l) if p(x))), lines 40 and 45; None: StopIteration *)
Fixpoint find_first (p : T -> bool) (l : list T) : option nat :=
  match l with [] => None | x :: r => if p x then Some 0 else option_map S (find_first p r) end.

(** clip_array of a list or array, lines 37-50 *)
Definition clip_array (x_array : list T) (x_min x_max : T) : res (nat * nat) :=
  if ltb x_max x_min then Throw else
  match find_first (fun x => negb (ltb x x_min)) x_array with
  | None => Ok (0, 0)
  | Some low => match find_first (fun x => ltb x_max x) x_array with Some high => Ok (low, high) | None => Ok (low, length x_array) end
  end.

(** clip_array of a generator of the same values, lines 37-50: the first search uses up the values before
    and at the one it finds, the second goes on with the rest and numbers it from 0; a generator has no len *)
Definition clip_generator (values : list T) (x_min x_max : T) : res (nat * nat) :=
  if ltb x_max x_min then Throw else
  match find_first (fun x => negb (ltb x x_min)) values with
  | None => Ok (0, 0)
  | Some low => match find_first (fun x => ltb x_max x) (skipn (S low) values) with Some high => Ok (low, high) | None => Throw end
  end.
End Clip.
