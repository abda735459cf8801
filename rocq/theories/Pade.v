(** Model of c++/triqs/utility/pade_approximants.hpp : rational interpolation by a continued
    fraction.  The complex numbers (std::complex<double> and the GMP based gmp_complex) are one
    field with exact arithmetic: neither the 256-bit precision of the coefficients nor their
    rounding to double (line 102) is modelled. *)
From Coq Require Import List Arith Bool.
From Verif Require Import Base.
Import ListNotations.

Record field_ops : Type := mkField {
  F :> Type;
  f0 : F; f1 : F; fadd : F -> F -> F; fmul : F -> F -> F; fsub : F -> F -> F; fopp : F -> F; fdiv : F -> F -> F; finv : F -> F;
  feqb : F -> F -> bool }.
Arguments f0 {_}. Arguments f1 {_}. Arguments fadd {_}. Arguments fmul {_}. Arguments fsub {_}. Arguments fopp {_}.
Arguments fdiv {_}. Arguments finv {_}. Arguments feqb {_}.

Fixpoint mapR {A B : Type} (f : A -> res B) (l : list A) : res (list B) :=
  match l with
  | [] => Ok []
  | x :: l' => do y <- f x ; do ys <- mapR f l' ; Ok (y :: ys)
  end.

Section Pade.
  Context (K : field_ops).
  (** line 90 : norm() < 1.0e-20 *)
  Variable small : K -> bool.
  Declare Scope F_scope.
  Local Notation "x + y" := (fadd x y) : F_scope.
  Local Notation "x * y" := (fmul x y) : F_scope.
  Local Notation "x - y" := (fsub x y) : F_scope.
  Local Open Scope F_scope.

  (** lines 43-48 : division throws for a zero divisor *)
  Definition gdiv (x y : K) : res K := if feqb y f0 then Throw else Ok (fdiv x y).

  (** lines 93-96 : g(p, j) from row p-1; the entries j < p stay zero (line 82) *)
  Definition g_entry (zs row : list K) (p j : nat) : res K :=
    if (j <? p)%nat then Ok f0
    else
      do q <- gdiv (nth (p - 1) row f0) (nth j row f0) ;
      gdiv (q - f1) (nth j zs f0 - nth (p - 1) zs f0).
  Definition g_row (zs row : list K) (p : nat) : res (list K) :=
    mapR (g_entry zs row p) (seq 0 (length zs)).

  (** lines 87-98 : the rows p, p+1, ... ; after the break the rows are zero *)
  Fixpoint g_rows (zs row : list K) (p todo : nat) : res (list (list K)) :=
    match todo with
    | O => Ok []
    | S todo' =>
        if small (nth (p - 1) row f0) then Ok (repeat (repeat f0 (length zs)) todo)
        else do r <- g_row zs row p ; do rs <- g_rows zs r (S p) todo' ; Ok (r :: rs)
    end.

  (** lines 72-107 : the coefficients a; u_in must be as long as z_in *)
  Definition pade (zs us : list K) : res (list K) :=
    if (length us <? length zs)%nat then UB
    else
      let r0 := firstn (length zs) us in
      do rs <- g_rows zs r0 1 (length zs - 1) ;
      Ok (map (fun j => nth j (nth j (r0 :: rs) []) f0) (seq 0 (length zs))).

  (** lines 117-123; a zero denominator (an infinite value in the code) is not given a meaning *)
  Fixpoint p_loop (zs a : list K) (e : K) (i todo : nat) (A1 A2 B1 : K) : res K :=
    match todo with
    | O => Ok A2
    | S todo' =>
        let t := (e - nth i zs f0) * nth (S i) a f0 in
        let An := A2 + t * A1 in
        let Bn := f1 + t * B1 in
        if feqb Bn f0 then UB
        else p_loop zs a e (S i) todo' (fdiv A2 Bn) (fdiv An Bn) (fdiv f1 Bn)
    end.
  (** lines 110-126 *)
  Definition p_eval (zs a : list K) (e : K) : res K :=
    match a with
    | [] => UB
    | a0 :: _ => p_loop zs a e 0 (length a - 1) f0 a0 f1
    end.
End Pade.
