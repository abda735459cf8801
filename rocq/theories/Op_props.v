(** Properties C07 - C13 : the algebra of second-quantised operators. *)
From Coq Require Import ZArith NArith List Bool String SpecFloat Ring_theory.
From Verif Require Import Base Indices Scalar Fock OpModel OpExpr OpUnique Op_proofs ScalarInst Op_cex.
Import ListNotations.
Local Open Scope K_scope.

(** C07.  For every sequence m of creation and annihilation operators and every
    coefficient, the operator stored for it (normalize_and_insert into an empty
    operator) acts on every vector exactly as the product of the individual actions;
    and it is in normal form. *)
Theorem C07_normal_order_preserves_action :
  forall (S : scalar_ops) (L : scalar_laws S) (pos : indices -> nat) (m : list cop) (c : S),
  modes_distinct pos (fun i => In i (map ind m)) ->
  exists a, op_term m c = Some a /\ (c <> k0 -> wf a) /\
    forall v g, amp (apply pos a v) g = amp (apply_mono pos m c v) g.
Proof. exact thm_normal_order. Qed.
Print Assumptions C07_normal_order_preserves_action.
Example C07_ex_hyp : modes_distinct pos3 (fun i => In i (map ind [mkCop false up0; mkCop true up1; mkCop true up0])).
Proof. intros i j Hi Hj. apply number_inj; simpl in *; intuition. Qed.
Example C07_ex : op_term (S := ZS) [mkCop false up0; mkCop true up1; mkCop true up0] 3%Z =
  Some [([mkCop true up1], -3)%Z; ([mkCop true up0; mkCop true up1; mkCop false up0], -3)%Z].
Proof. vm_compute. reflexivity. Qed.

(** C08.  Whatever expression the user writes with c, c_dag, n, scalars, +, -, *,
    unary minus, mixed scalar operations and dagger, evaluation ends, the stored
    operator is in normal form and acts on every vector as the map the expression
    denotes (sums, compositions, multiples, adjoints of the individual maps). *)
Theorem C08_expressions_denote_their_linear_maps :
  forall (S : scalar_ops) (L : scalar_laws S) (e : expr S) (pos : indices -> nat),
  modes_distinct pos (uses e) ->
  exists a, eval e = Some a /\ wf a /\ forall v g, amp (apply pos a v) g = amp (meaning pos e v) g.
Proof. exact thm_expr. Qed.
Print Assumptions C08_expressions_denote_their_linear_maps.
Definition hubbard : expr GS :=
  ESub (EAdd (EMulS (EMul (EN up0) (EN dn0)) ((4, 0)%Z : GS))
             (EMulS (EAdd (EMul (ECdag up0) (EC up1)) (EMul (ECdag up1) (EC up0))) ((0, 1)%Z : GS)))
       (EMulS (EN up0) ((2, 0)%Z : GS)).
Example C08_ex_hyp : modes_distinct pos3 (uses hubbard).
Proof. intros i j Hi Hj. apply number_inj; simpl in *; intuition. Qed.

(** C08.  The stored operators obey the laws of an associative algebra, as
    identity of what is stored. *)
Theorem C08_algebra_laws_on_stored_operators :
  forall (S : scalar_ops) (L : scalar_laws S) (a b c : expr S),
  eval (EAdd a b) = eval (EAdd b a) /\
  eval (EAdd (EAdd a b) c) = eval (EAdd a (EAdd b c)) /\
  eval (EMul (EMul a b) c) = eval (EMul a (EMul b c)) /\
  eval (EMul a (EAdd b c)) = eval (EAdd (EMul a b) (EMul a c)) /\
  eval (EMul (EAdd a b) c) = eval (EAdd (EMul a c) (EMul b c)) /\
  eval (ESub a b) = eval (EAdd a (ENeg b)) /\
  eval (ESub a a) = Some [].
Proof. exact thm_ring_laws. Qed.
Print Assumptions C08_algebra_laws_on_stored_operators.

(** C09.  Canonical anticommutation relations, as identity of what is stored, for
    all indices. *)
Theorem C09_c_c_anticommute :
  forall (S : scalar_ops) (L : scalar_laws S) (i j : indices),
  eval (EAdd (EMul (EC i) (EC j)) (EMul (EC j) (EC i)) : expr S) = Some [].
Proof. exact thm_car_cc. Qed.
Print Assumptions C09_c_c_anticommute.
Theorem C09_cdag_cdag_anticommute :
  forall (S : scalar_ops) (L : scalar_laws S) (i j : indices),
  eval (EAdd (EMul (ECdag i) (ECdag j)) (EMul (ECdag j) (ECdag i)) : expr S) = Some [].
Proof. exact thm_car_cdcd. Qed.
Print Assumptions C09_cdag_cdag_anticommute.
Theorem C09_c_cdag_anticommute_to_delta :
  forall (S : scalar_ops) (L : scalar_laws S) (i j : indices),
  eval (EAdd (EMul (EC i) (ECdag j)) (EMul (ECdag j) (EC i)) : expr S) =
  eval (EScal (if ieqb i j then k1 else k0) : expr S).
Proof. exact thm_car_ccd. Qed.
Print Assumptions C09_c_cdag_anticommute_to_delta.
Example C09_ex : ieqb up0 up0 = true /\ ieqb up0 dn0 = false /\ eval (EScal k1 : expr ZS) = Some [([], 1%Z)].
Proof. repeat split. Qed.

(** C10.  For any two expressions: operator== answers true iff the stored operators
    are identical iff the two expressions denote the same linear map. *)
Theorem C10_equality_decides_equality_of_maps :
  forall (S : scalar_ops) (L : scalar_laws S) (e1 e2 : expr S) (pos : indices -> nat) a b,
  modes_distinct pos (fun i => uses e1 i \/ uses e2 i) -> eval e1 = Some a -> eval e2 = Some b ->
  (op_eqb a b = true <-> a = b) /\
  (a = b <-> forall v g, amp (meaning pos e1 v) g = amp (meaning pos e2 v) g).
Proof. exact thm_unique. Qed.
Print Assumptions C10_equality_decides_equality_of_maps.
Example C10_ex : modes_distinct pos3 (fun i => uses (EMul (EC up0) (ECdag up0) : expr ZS) i \/ uses (ESSub (1%Z : ZS) (EN up0) : expr ZS) i)
  /\ eval (EMul (EC up0) (ECdag up0) : expr ZS) = eval (ESSub (1%Z : ZS) (EN up0) : expr ZS).
Proof. split; [intros i j Hi Hj; apply number_inj; simpl in *; intuition | vm_compute; reflexivity]. Qed.

(** C10, counterexample outside expressions: the constructor from (coefficient,
    monomial) stores the monomial as given.  c(i) c_dag(i) built that way is the same
    linear map as the product c(i) * c_dag(i), but operator== answers false. *)
Theorem C10_monomial_constructor_refuted :
  exists (m : monomial) a,
    eval (EMul (EC up0) (ECdag up0) : expr ZS) = Some a /\
    (forall pos f g, mel (S := ZS) pos a f g = mel pos (op_raw (S := ZS) 1%Z m) f g) /\
    op_eqb a (op_raw (S := ZS) 1%Z m) = false.
Proof. exact cex_raw. Qed.
Print Assumptions C10_monomial_constructor_refuted.

(** C11.  dagger(h) is the adjoint; dagger is an involution; is_op_hermitian (with its
    default tolerance 0) answers true iff the represented map is self-adjoint. *)
Theorem C11_dagger_is_the_adjoint :
  forall (S : scalar_ops) (L : scalar_laws S) (e : expr S) (pos : indices -> nat) a,
  modes_distinct pos (uses e) -> eval e = Some a ->
  (forall f g, amp (apply pos (op_dagger a) [(k1, f)]) g = kconj (amp (apply pos a [(k1, g)]) f)) /\
  op_dagger (op_dagger a) = a /\
  (op_is_hermitian (fun _ => false) a = true <->
     forall f g, amp (apply pos a [(k1, f)]) g = kconj (amp (apply pos a [(k1, g)]) f)).
Proof. exact thm_dagger. Qed.
Print Assumptions C11_dagger_is_the_adjoint.
Example C11_ex : exists a, eval hubbard = Some a /\ op_is_hermitian (fun _ => false) a = false.
Proof. eexists. split; vm_compute; reflexivity. Qed.

(** C11.  dagger reverses products, is additive, and conjugates scalars. *)
Theorem C11_dagger_of_products_and_sums :
  forall (S : scalar_ops) (L : scalar_laws S) (a b : expr S),
  eval (EDag (EMul a b)) = eval (EMul (EDag b) (EDag a)) /\
  eval (EDag (EAdd a b)) = eval (EAdd (EDag a) (EDag b)) /\
  forall x, eval (EDag (EMulS a x)) = eval (EMulS (EDag a) (kconj x)).
Proof. exact thm_dagger_mul. Qed.
Print Assumptions C11_dagger_of_products_and_sums.

(** C12, exact coefficients: addition adds coefficients, monomial by monomial
    (associativity is part of C08_algebra_laws_on_stored_operators). *)
Theorem C12_addition_exact :
  forall (S : scalar_ops) (L : scalar_laws S) (a b : expr S) x y z m,
  eval a = Some x -> eval b = Some y -> eval (EAdd a b) = Some z ->
  coef S m z = coef S m x + coef S m y.
Proof. exact thm_add_exact. Qed.
Print Assumptions C12_addition_exact.

(** C12, any zero test (ring coefficients): a coefficient of a sum is the sum of the
    coefficients, or it has been dropped and the exact sum passes the zero test. *)
Theorem C12_addition_with_tolerance :
  forall (S : scalar_ops) (R : ring_theory (@k0 S) k1 kadd kmul ksub kopp eq) m (a b : omap S),
  keys_sorted a -> keys_sorted b ->
  coef S m (op_add a b) = coef S m a + coef S m b \/
  (coef S m (op_add a b) = k0 /\ kisz (coef S m a + coef S m b) = true).
Proof. exact tol_add. Qed.
Print Assumptions C12_addition_with_tolerance.
Example C12_ex : keys_sorted [([mkCop true up0], 1%Z : ZS); ([mkCop false up0], 2%Z : ZS)].
Proof. repeat constructor. Qed.

(** C12, the shipped doubles: with x = -1 - 75 eps, y = 1, z = -1 + 75 eps,
    (x c + y c) + z c and x c + (y c + z c) differ, even for operator==. *)
Theorem C12_addition_associative_double_refuted :
  exists x y z : F64,
    let a := EMulS (EC up0) x in let b := EMulS (EC up0) y in let c := EMulS (EC up0) z in
    exists l r, eval (EAdd (EAdd a b) c) = Some l /\ eval (EAdd a (EAdd b c)) = Some r /\
                op_eqb l r = false.
Proof. exact cex_assoc. Qed.
Print Assumptions C12_addition_associative_double_refuted.

(** C13.  h += h gives h + h (when x + x = 0 only for x = 0). *)
Theorem C13_self_addition :
  forall (S : scalar_ops) (L : scalar_laws S) (a : omap S),
  (forall x : S, x + x = k0 -> x = k0) -> wf a -> op_add_self a = Ok (op_add a a).
Proof. exact thm_alias_add. Qed.
Print Assumptions C13_self_addition.
Example C13_ex : (forall x : ZS, x + x = k0 -> x = k0) /\ op_add_self (S := ZS) [([mkCop true up0], 1%Z)] = Ok [([mkCop true up0], 2%Z)].
Proof. split; [|reflexivity]. intros x. change (Z.add x x = 0%Z -> x = 0%Z). Lia.lia. Qed.

(** C13, refuted part: h -= h is undefined behaviour for every non-zero h (an element
    is erased while the loop stands on it). *)
Theorem C13_self_subtraction_refuted :
  forall (S : scalar_ops) (L : scalar_laws S) (a : omap S), wf a -> a <> [] -> op_sub_self a = UB.
Proof. exact thm_alias_sub. Qed.
Print Assumptions C13_self_subtraction_refuted.

(** C13, doubles: h += h is undefined behaviour when a doubled coefficient is below the
    tolerance (a coefficient of 30 eps is a legal one: 120 eps * 0.25). *)
Theorem C13_self_addition_double_refuted :
  exists (e : expr F64) a, eval e = Some a /\ a <> [] /\ op_add_self a = UB.
Proof. exact cex_self_add. Qed.
Print Assumptions C13_self_addition_double_refuted.
