(** Model of python/triqs/utility/dist_on_nodes.py on one process: lines 44-53 (run) and 115-138 (DistributionOnNodesOneStack).
    Not modelled: the branch for several processes (lines 55-110), which forks and exchanges pickled files.
    Python values that may be None are options; a Python exception is [Throw]. *)
From Coq Require Import List Bool Arith.
From Verif Require Import Base.
Import ListNotations.

Section Dist.
Context {A B : Type}.

(** the object, lines 120-123.  [d_left] is the list that the caller passed: the object keeps a reference, not a copy *)
Record dist := mkDist { d_left : list (option A); d_result : list (nat * option B) }.

(** __init__, lines 120-123: the list is reversed in place *)
Definition make_dist (the_stack : list (option A)) : dist := mkDist (rev the_stack) [].

(** treate, lines 125-126 *)
Definition treate (d : dist) (x : option B) (node : nat) : dist := mkDist (d_left d) (d_result d ++ [(node, x)]).

(** finished, lines 128-129 *)
Definition finished (d : dist) : bool := match d_left d with [] => true | _ => false end.

(** __next__, lines 131-132: list.pop() takes the last element and raises on an empty list *)
Definition next_point (d : dist) : res (option A * dist) :=
  match rev (d_left d) with [] => Throw | x :: r => Ok (x, mkDist (rev r) (d_result d)) end.

(** run on one process, lines 48-53.  None: the fuel is used up *)
Fixpoint run_one (fuel : nat) (the_function : A -> res (option B)) (d : dist) : option (res dist) :=
  match fuel with
  | O => None
  | S k => if finished d then Some (Ok d) else
      match next_point d with
      | Ok (Some n, d1) => match the_function n with Ok v => run_one k the_function (treate d1 v 0) | Throw => Some Throw | UB => Some UB end
      | Ok (None, d1) => run_one k the_function d1
      | Throw => Some Throw
      | UB => Some UB
      end
  end.
End Dist.
