(** Model of c++/triqs/operators/many_body_operator.hpp and .cpp : the algebra of
    second-quantised operators.

    Scalars are an abstract type with exact or tolerant zero test ([Scalar.v]).
    std::map<monomial_t, scalar> is modelled by an association list kept in
    increasing key order; the map operations used by the code are [m_find],
    [m_put] and [m_erase]. *)
From Coq Require Import ZArith List Bool Lia.
From Verif Require Import Base Indices Scalar Fock.
Import ListNotations.

(** many_body_operator.hpp:57-67  canonical_ops_t::operator<=> :
    dagger < non-dagger; daggers by increasing indices, others by decreasing. *)
Definition ccmp (a b : cop) : comparison :=
  match dag a, dag b with
  | true, false => Lt
  | false, true => Gt
  | true, true => icmp (ind a) (ind b)
  | false, false => icmp (ind b) (ind a)
  end.

(** many_body_operator.hpp:77  using monomial_t = std::vector<canonical_ops_t> *)
Definition monomial : Type := list cop.

(** many_body_operator.cpp:51-53  operator<(monomial_t, monomial_t) : size, then lexicographic *)
Definition mcmp (a b : monomial) : comparison :=
  match Nat.compare (length a) (length b) with
  | Eq => lex_cmp ccmp a b
  | c => c
  end.

Section Model.
  Context (S : scalar_ops).
  Local Open Scope K_scope.

  (** many_body_operator.hpp:97  using monomials_map_t = std::map<monomial_t, ScalarType> *)
  Definition omap : Type := list (monomial * S).

  (** std::map::find *)
  Fixpoint m_find (m : monomial) (t : omap) : option S :=
    match t with
    | [] => None
    | (m', c) :: t' => match mcmp m m' with
                       | Eq => Some c
                       | Lt => None
                       | Gt => m_find m t'
                       end
    end.
  (** std::map : insertion of a new key, or assignment through an iterator *)
  Fixpoint m_put (m : monomial) (c : S) (t : omap) : omap :=
    match t with
    | [] => [(m, c)]
    | (m', c') :: t' => match mcmp m m' with
                        | Eq => (m', c) :: t'
                        | Lt => (m, c) :: t
                        | Gt => (m', c') :: m_put m c t'
                        end
    end.
  (** std::map::erase *)
  Fixpoint m_erase (m : monomial) (t : omap) : omap :=
    match t with
    | [] => []
    | (m', c') :: t' => match mcmp m m' with
                        | Eq => t'
                        | Lt => t
                        | Gt => (m', c') :: m_erase m t'
                        end
    end.
  (** std::map::insert : keeps an existing element *)
  Definition m_insert (m : monomial) (c : S) (t : omap) : omap :=
    match m_find m t with None => m_put m c t | Some _ => t end.

  (** The recurring block (lines 213-217, 243-247, 256-260, 385-389 and 393-396): insert; if the key
      exists, combine with the old value and erase if the result is zero. *)
  Definition put_or (upd : S -> S) (m : monomial) (c : S) (t : omap) : omap :=
    match m_find m t with
    | None => m_put m c t
    | Some c0 => let c1 := upd c0 in
                 if kisz c1 then m_erase m t else m_put m c1 t
    end.

  (** many_body_operator.hpp:130-133  explicit ctor from a scalar *)
  Definition op_scalar (x : S) : omap := if kisz x then [] else m_insert [] x [].

  (** many_body_operator.hpp:135-138  ctor (scalar, monomial) : no normal ordering *)
  Definition op_raw (x : S) (m : monomial) : omap := if kisz x then [] else m_insert m x [].

  (** many_body_operator.hpp:163-168  make_canonical; c, c_dag : lines 427-434 *)
  Definition op_canonical (d : bool) (i : indices) : omap := m_insert [mkCop d i] k1 [].
  Definition op_c (i : indices) : omap := op_canonical false i.
  Definition op_c_dag (i : indices) : omap := op_canonical true i.

  (** ---- normal ordering: many_body_operator.hpp:349-390 ---- *)

  (** lines 365-366 : the same operator with the dagger flag flipped *)
  Definition flip (o : cop) : cop := mkCop (negb (dag o)) (ind o).

  Inductive pass_result :=
  | PZero (t : omap)                                        (* line 361 : return *)
  | PDone (m : monomial) (c : S) (t : omap) (swapped : bool)  (* end of the for loop *)
  | PFuel.                                                  (* recursion budget exhausted *)

  Section Pass.
    (** the recursive call of line 372 (None : out of fuel) *)
    Variable rec : monomial -> S -> omap -> option omap.

    (** lines 358-378 : one pass of the for loop.  [pre] is m[0..n-2] reversed,
        [x] is m[n-1], [rest] is m[n..]. *)
    Fixpoint pass (pre : list cop) (x : cop) (rest : list cop) (c : S) (t : omap) (swapped : bool)
      : pass_result :=
      match rest with
      | [] => PDone (rev pre ++ [x]) c t swapped
      | y :: rest' =>
          match ccmp x y with
          | Eq => PZero t
          | Gt =>
              (* lines 362-377 *)
              let t' := if cmp_eqb ccmp x (flip y) then rec (rev pre ++ rest') c t else Some t in
              match t' with
              | None => PFuel
              | Some t' => pass (y :: pre) x rest' (- c) t' true
              end
          | Lt => pass (x :: pre) y rest' c t swapped
          end
      end.

    (** lines 354-379 : do { ... } while (is_swapped), at most [fuel] passes;
        then lines 382-389 : insertion of the sorted monomial. *)
    Fixpoint passes (fuel : nat) (m : monomial) (c : S) (t : omap) : option omap :=
      match fuel with
      | O => None
      | Datatypes.S fuel' =>
          match m with
          | x :: rest =>
              match pass [] x rest c t false with
              | PZero t' => Some t'
              | PDone m' c' t' true => passes fuel' m' c' t'
              | PDone m' c' t' false => Some (put_or (fun c0 => c0 + c') m' c' t')
              | PFuel => None
              end
          | [] => Some (put_or (fun c0 => c0 + c) m c t)
          end
      end.
  End Pass.

  (** many_body_operator.hpp:349-390  normalize_and_insert.  [depth] bounds the
      recursion of line 372; each level removes two operators. *)
  Fixpoint normalize_fuel (depth : nat) (m : monomial) (c : S) (t : omap) : option omap :=
    let budget := Datatypes.S (length m * length m) in
    match depth with
    | O => passes (fun _ _ _ => None) budget m c t
    | Datatypes.S d => passes (normalize_fuel d) budget m c t
    end.
  (** The bounds are shown sufficient: [OpProofs.normalize_total]. *)
  Definition normalize_and_insert (m : monomial) (c : S) (t : omap) : option omap :=
    normalize_fuel (length m) m c t.

  (** ---- algebra ---- *)
  (** many_body_operator.hpp:202-206  unary minus *)
  Definition op_neg (a : omap) : omap := map (fun mc => (fst mc, - snd mc)) a.

  (** many_body_operator.hpp:208-219  += scalar, 221 -= scalar, 223 scalar - op *)
  Definition op_add_scalar (a : omap) (x : S) : omap :=
    if kisz x then a else put_or (fun c0 => c0 + x) [] x a.
  Definition op_sub_scalar (a : omap) (x : S) : omap := op_add_scalar a (- x).
  Definition op_scalar_sub (x : S) (a : omap) : omap := op_add_scalar (op_neg a) x.

  (** many_body_operator.hpp:226-234  *= scalar *)
  Definition op_mul_scalar (a : omap) (x : S) : omap :=
    if kisz x then [] else map (fun mc => (fst mc, snd mc * x)) a.

  (** many_body_operator.hpp:239-250  += op (distinct objects) *)
  Definition op_add (a b : omap) : omap :=
    fold_left (fun t mc => put_or (fun c0 => c0 + snd mc) (fst mc) (snd mc) t) b a.

  (** many_body_operator.hpp:252-263  -= op (distinct objects) *)
  Definition op_sub (a b : omap) : omap :=
    fold_left (fun t mc => put_or (fun c0 => c0 - snd mc) (fst mc) (- snd mc) t) b a.

  (** many_body_operator.hpp:265-280  *= op *)
  Definition op_mul (a b : omap) : option omap :=
    fold_left (fun t mc =>
      fold_left (fun t mc' =>
        match t with
        | None => None
        | Some t => normalize_and_insert (fst mc ++ fst mc') (snd mc * snd mc') t
        end) b t) a (Some []).

  (** many_body_operator.hpp:199  is_zero;  282  operator== *)
  Definition op_is_zero (a : omap) : bool := match a with [] => true | _ => false end.
  Definition op_eqb (a b : omap) : bool := op_is_zero (op_sub a b).

  (** many_body_operator.hpp:193-196  is_almost_zero; [small c] is is_zero(abs(c), precision) *)
  Definition op_almost_zero (small : S -> bool) (a : omap) : bool := forallb (fun mc => small (snd mc)) a.

  (** many_body_operator.hpp:287-293  _dagger;  297-302 dagger *)
  Definition mono_dagger (m : monomial) : monomial := rev (map flip m).
  Definition op_dagger (a : omap) : omap :=
    fold_left (fun t mc => m_insert (mono_dagger (fst mc)) (kconj (snd mc)) t) a [].

  (** many_body_operator.hpp:313-321  transform *)
  Definition op_transform (L : monomial -> S -> S) (a : omap) : omap :=
    fold_left (fun t mc => let c := L (fst mc) (snd mc) in
                           if kisz c then t else m_insert (fst mc) c t) a [].

  (** many_body_operator.hpp:420-422  is_op_hermitian(op, tolerance) *)
  Definition op_is_hermitian (small : S -> bool) (a : omap) : bool :=
    op_almost_zero small (op_sub (op_dagger a) a).

  (** many_body_operator.hpp:436-438  n(i) = c_dag(i) * c(i) *)
  Definition op_n (i : indices) : option omap := op_mul (op_c_dag i) (op_c i).

  (** many_body_operator.hpp:141  ctor from a term of an operator: normalises *)
  Definition op_term (m : monomial) (c : S) : option omap := normalize_and_insert m c [].
End Model.

Arguments m_find {S} _ _. Arguments m_put {S} _ _ _. Arguments m_erase {S} _ _.
Arguments m_insert {S} _ _ _. Arguments put_or {S} _ _ _ _.
Arguments op_scalar {S} _. Arguments op_raw {S} _ _.
Arguments op_neg {S} _. Arguments op_add_scalar {S} _ _. Arguments op_sub_scalar {S} _ _.
Arguments op_scalar_sub {S} _ _. Arguments op_mul_scalar {S} _ _.
Arguments op_add {S} _ _. Arguments op_sub {S} _ _. Arguments op_mul {S} _ _.
Arguments op_is_zero {S} _. Arguments op_eqb {S} _ _. Arguments op_almost_zero {S} _ _.
Arguments op_dagger {S} _. Arguments op_transform {S} _ _. Arguments op_is_hermitian {S} _ _.
Arguments normalize_and_insert {S} _ _ _. Arguments normalize_fuel {S} _ _ _ _.
Arguments pass {S} _ _ _ _ _ _ _. Arguments passes {S} _ _ _ _ _.
Arguments PZero {S} _. Arguments PDone {S} _ _ _ _. Arguments PFuel {S}.
Arguments op_term {S} _ _.

(** many_body_operator.hpp:239-250 and 252-263 when the argument is the object
    itself (h += h, h -= h): insert finds the element being visited, which is also
    [m]; it is updated through the iterator, and if it is then erased the range-for
    loop increments an iterator to an erased element: undefined behaviour. *)
Section Alias.
  Context {S : scalar_ops}.
  Local Open Scope K_scope.
  Fixpoint alias_update (upd : S -> S -> S) (a : omap S) : res (omap S) :=
    match a with
    | [] => Ok []
    | (m, c) :: a' =>
        let c1 := upd c c in
        if kisz c1 then UB
        else do r <- alias_update upd a'; Ok ((m, c1) :: r)
    end.
  Definition op_add_self (a : omap S) : res (omap S) := alias_update (fun x y => x + y) a.
  Definition op_sub_self (a : omap S) : res (omap S) := alias_update (fun x y => x - y) a.
  (** 265-280 : the product is accumulated in a temporary map *)
  Definition op_mul_self (a : omap S) : option (omap S) := op_mul a a.
End Alias.
