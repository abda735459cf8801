(** Common vocabulary of the models: outcomes of C++ calls and machine words. *)
From Coq Require Import ZArith List Bool.
Import ListNotations.

(** Outcome of a C++ call.  [Throw] : a C++ exception leaves the call.
    [UB] : the call executes undefined behaviour (out-of-range access, use of an
    invalidated iterator, division by zero on integers, ...). *)
Inductive res (A : Type) : Type :=
| Ok (a : A)
| Throw
| UB.
Arguments Ok {A} a.
Arguments Throw {A}.
Arguments UB {A}.

Definition bind {A B} (r : res A) (k : A -> res B) : res B :=
  match r with Ok a => k a | Throw => Throw | UB => UB end.
Notation "'do' x <- e ; k" := (bind e (fun x => k))
  (at level 200, x pattern, e at level 100, k at level 200, right associativity).

(** Unsigned 64-bit arithmetic: the C++ standard defines it modulo 2^64. *)
Definition two64 : Z := Eval vm_compute in (2 ^ 64)%Z.
Definition wrap64 (z : Z) : Z := (z mod two64)%Z.
Definition is_u64 (z : Z) : Prop := (0 <= z < two64)%Z.
