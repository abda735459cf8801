(** Model of c++/triqs/gfs/gf/flatten.hpp.  An array is its shape and its elements in row-major order (nda's default layout);
    a view is a function of the subscripts. *)
From Coq Require Import ZArith List Bool.
From Verif Require Import Base GfSym.
Import ListNotations.
Local Open Scope nat_scope.

Section Flatten.
  Context {V : Type}.
  Record arr : Type := mkArr { a_sh : list nat; a_dat : list V }.

  Fixpoint size (sh : list nat) : nat := match sh with [] => 1 | n :: sh' => n * size sh' end.
  (** row-major position of a subscript *)
  Fixpoint rank (sh q : list nat) : nat :=
    match sh, q with
    | _ :: sh', i :: q' => i * size sh' + rank sh' q'
    | _, _ => 0
    end.
  (** a(q) : out of range is undefined *)
  Definition a_at (a : arr) (q : list nat) : res V := match nth_error (a_dat a) (rank (a_sh a) q) with Some x => Ok x | None => UB end.
  (** exchange of the elements at positions 0 and N (std::swap, nda::transposed_view<0, N>); N out of range: undefined *)
  Definition swap0 {A} (N : nat) (l : list A) : option (list A) :=
    match N, l with
    | _, [] => None
    | O, _ => Some l
    | S n, x :: l' => match nth_error l' n with Some y => Some (y :: upd l' n x) | None => None end
    end.
  Fixpoint map_res {A B} (f : A -> res B) (l : list A) : res (list B) :=
    match l with
    | [] => Ok []
    | x :: l' => do y <- f x ; do ys <- map_res f l' ; Ok (y :: ys)
    end.
  (** a copy of transposed_view<0, N>(a) : the array of shape [sh'] with elements a(swap q), in row-major order *)
  Definition transposed (N : nat) (a : arr) : res arr :=
    match swap0 N (a_sh a) with
    | None => UB
    | Some sh' =>
        do d <- map_res (fun q => match swap0 N q with Some q' => a_at a q' | None => UB end) (target_indices sh') ; Ok (mkArr sh' d)
    end.
  (** nda::reshape : same elements in the same order; the sizes must agree *)
  Definition reshape (a : arr) (sh : list nat) : res arr :=
    if Nat.eqb (size sh) (length (a_dat a)) then Ok (mkArr sh (a_dat a)) else UB.

  (** flatten.hpp:33-37; the division by nrows = 0 is undefined *)
  Definition flatten_2d (N : nat) (v : arr) : res arr :=
    match nth_error (a_sh v) N with
    | None => UB
    | Some nrows =>
        if Nat.eqb nrows 0 then UB else
        do t <- transposed N v ; reshape t [nrows; length (a_dat v) / nrows]
    end.
  (** flatten.hpp:42-47; the result is the new content of [out] (of shape [sh]); assignment of an array of another shape is
      undefined *)
  Definition unflatten_2d (N : nat) (sh : list nat) (afl : arr) : res arr :=
    match swap0 N sh with
    | None => UB
    | Some sh_fl => do data_fl <- reshape afl sh_fl ; transposed N data_fl
    end.
End Flatten.
Arguments arr V : clear implicits.
