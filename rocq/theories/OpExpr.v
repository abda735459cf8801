(** Specification: operator expressions and the linear maps they denote.

    [expr] are the expressions a user can write with the operator API; [eval]
    evaluates one with the model of the code; [den] is its meaning as a linear map
    on vectors of Fock states, written without reference to the code. *)
From Coq Require Import ZArith NArith List Bool Sorted.
From Verif Require Import Base Indices Scalar Fock OpModel.
Import ListNotations.

Section Expr.
  Context {S : scalar_ops}.
  Local Open Scope K_scope.
  Notation vec := (@Fock.vec S).

  Inductive expr : Type :=
  | EScal (x : S)            (* many_body_operator(x) *)
  | EC (i : indices)         (* c(i...) *)
  | ECdag (i : indices)      (* c_dag(i...) *)
  | EN (i : indices)         (* n(i...) *)
  | ENeg (a : expr)
  | EAdd (a b : expr)
  | ESub (a b : expr)
  | EMul (a b : expr)
  | EAddS (a : expr) (x : S)   (* a + x *)
  | ESubS (a : expr) (x : S)   (* a - x *)
  | ESSub (x : S) (a : expr)   (* x - a *)
  | EMulS (a : expr) (x : S)   (* a * x *)
  | EDag (a : expr).           (* dagger(a) *)

  (** evaluation by the code (binary operators of boost::operators copy the left operand
      and apply the compound assignment) *)
  Fixpoint eval (e : expr) : option (omap S) :=
    match e with
    | EScal x => Some (op_scalar x)
    | EC i => Some (op_c S i)
    | ECdag i => Some (op_c_dag S i)
    | EN i => op_n S i
    | ENeg a => option_map op_neg (eval a)
    | EAdd a b => match eval a, eval b with Some x, Some y => Some (op_add x y) | _, _ => None end
    | ESub a b => match eval a, eval b with Some x, Some y => Some (op_sub x y) | _, _ => None end
    | EMul a b => match eval a, eval b with Some x, Some y => op_mul x y | _, _ => None end
    | EAddS a x => option_map (fun t => op_add_scalar t x) (eval a)
    | ESubS a x => option_map (fun t => op_sub_scalar t x) (eval a)
    | ESSub x a => option_map (fun t => op_scalar_sub x t) (eval a)
    | EMulS a x => option_map (fun t => op_mul_scalar t x) (eval a)
    | EDag a => option_map op_dagger (eval a)
    end.

  (** indices used by an expression *)
  Fixpoint uses (e : expr) (j : indices) : Prop :=
    match e with
    | EScal _ => False
    | EC i | ECdag i | EN i => i = j
    | ENeg a | EAddS a _ | ESubS a _ | ESSub _ a | EMulS a _ | EDag a => uses a j
    | EAdd a b | ESub a b | EMul a b => uses a j \/ uses b j
    end.

  (** meaning: [den false e] is the map of e, [den true e] its adjoint
      (antilinear in scalars, reversing products, exchanging c and c+). *)
  Definition scale (x : S) (v : vec) : vec := map (fun af => (x * fst af, snd af)) v.
  Variable pos : indices -> nat.
  Definition cj (adj : bool) (x : S) : S := if adj then kconj x else x.
  Definition act1 (d : bool) (i : indices) (v : vec) : vec := apply_mono pos [mkCop d i] k1 v.
  Fixpoint den (adj : bool) (e : expr) (v : vec) : vec :=
    match e with
    | EScal x => scale (cj adj x) v
    | EC i => act1 adj i v
    | ECdag i => act1 (negb adj) i v
    | EN i => act1 true i (act1 false i v)
    | ENeg a => scale (- k1) (den adj a v)
    | EAdd a b => den adj a v ++ den adj b v
    | ESub a b => den adj a v ++ scale (- k1) (den adj b v)
    | EMul a b => if adj then den adj b (den adj a v) else den adj a (den adj b v)
    | EAddS a x => den adj a v ++ scale (cj adj x) v
    | ESubS a x => den adj a v ++ scale (- cj adj x) v
    | ESSub x a => scale (cj adj x) v ++ scale (- k1) (den adj a v)
    | EMulS a x => scale (cj adj x) (den adj a v)
    | EDag a => den (negb adj) a v
    end.
  Definition meaning (e : expr) (v : vec) : vec := den false e v.
End Expr.
Arguments expr S : clear implicits.

(** A monomial in normal order: strictly increasing for the documented order
    c+_1 < c+_2 < ... < c_2 < c_1 of canonical operators. *)
Definition clt (x y : cop) : Prop := ccmp x y = Lt.
Definition normal (m : monomial) : Prop := StronglySorted clt m.

Section WF.
  Context {S : scalar_ops}.
  Definition klt (x y : monomial * S) : Prop := mcmp (fst x) (fst y) = Lt.
  Definition keys_sorted (t : omap S) : Prop := StronglySorted klt t.
  (** A stored operator in normal form: monomials strictly increasing (so each occurs
      once), every monomial in normal order, no zero coefficient. *)
  Definition wf (t : omap S) : Prop :=
    keys_sorted t /\ Forall (fun mc => normal (fst mc) /\ snd mc <> k0) t.
  (** indices occurring in an operator all satisfy P *)
  Definition mono_on (P : indices -> Prop) (m : monomial) : Prop := Forall (fun o => P (ind o)) m.
  Definition op_on (P : indices -> Prop) (t : omap S) : Prop := Forall (fun mc => mono_on P (fst mc)) t.
End WF.

(** different indices in the given set have different modes *)
Definition modes_distinct (pos : indices -> nat) (P : indices -> Prop) : Prop :=
  forall i j, P i -> P j -> pos i = pos j -> i = j.
