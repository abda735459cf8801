(** Scalars: the coefficient type of many-body operators and states
    (double, std::complex<double> or real_or_complex in the code; here any
    integral domain with a conjugation and an exact zero test). *)
From Coq Require Import List Bool Ring Ring_theory.
Import ListNotations.

Record scalar_ops : Type := mkScalar {
  K :> Type;
  k0 : K; k1 : K;
  kadd : K -> K -> K; kmul : K -> K -> K; ksub : K -> K -> K; kopp : K -> K;
  kconj : K -> K;
  (** utility/numeric_ops.hpp:36-51 : is_zero *)
  kisz : K -> bool }.
Arguments k0 {_}. Arguments k1 {_}.
Arguments kadd {_} _ _. Arguments kmul {_} _ _. Arguments ksub {_} _ _.
Arguments kopp {_} _. Arguments kconj {_} _. Arguments kisz {_} _.

Declare Scope K_scope.
Delimit Scope K_scope with K.
Notation "x + y" := (kadd x y) : K_scope.
Notation "x * y" := (kmul x y) : K_scope.
Notation "x - y" := (ksub x y) : K_scope.
Notation "- x" := (kopp x) : K_scope.

(** Laws of an exact scalar type. *)
Record scalar_laws (S : scalar_ops) : Prop := {
  sl_ring : ring_theory (@k0 S) k1 kadd kmul ksub kopp eq;
  sl_integral : forall x y : S, kmul x y = k0 -> x = k0 \/ y = k0;
  sl_nontrivial : (k1 : S) <> k0;
  sl_isz : forall x : S, kisz x = true <-> x = k0;
  sl_conj_add : forall x y : S, kconj (kadd x y) = kadd (kconj x) (kconj y);
  sl_conj_mul : forall x y : S, kconj (kmul x y) = kmul (kconj x) (kconj y);
  sl_conj_conj : forall x : S, kconj (kconj x) = x }.

Section Facts.
  Context (S : scalar_ops) (L : scalar_laws S).
  Local Open Scope K_scope.
  Add Ring Kring : (sl_ring S L).

  Fixpoint ksum (l : list S) : S :=
    match l with [] => k0 | x :: l' => x + ksum l' end.

  Lemma ksum_app l1 l2 : ksum (l1 ++ l2) = ksum l1 + ksum l2.
  Proof. induction l1 as [|x l IH]; simpl; [ring|]. rewrite IH. ring. Qed.

  Lemma kconj_0 : kconj (k0 : S) = k0.
  Proof.
    assert (H : kconj (k0 : S) + kconj k0 = kconj k0).
    { rewrite <- (sl_conj_add S L). f_equal. ring. }
    transitivity (kconj (k0:S) + kconj k0 - kconj k0); [ring|]. rewrite H. ring.
  Qed.
  Lemma kconj_1 : kconj (k1 : S) = k1.
  Proof.
    transitivity (kconj k1 * (k1 : S)); [ring|].
    rewrite <- (sl_conj_conj S L k1) at 2. rewrite <- (sl_conj_mul S L).
    transitivity (kconj (kconj (k1 : S))); [f_equal; ring| apply (sl_conj_conj S L)].
  Qed.
  Lemma kconj_opp (x : S) : kconj (- x) = - kconj x.
  Proof.
    assert (H : kconj (- x) + kconj x = k0).
    { rewrite <- (sl_conj_add S L). rewrite <- kconj_0. f_equal. ring. }
    transitivity (kconj (- x) + kconj x - kconj x); [ring|]. rewrite H. ring.
  Qed.
  Lemma kconj_inj (x : S) : kconj x = k0 -> x = k0.
  Proof. intros H. rewrite <- (sl_conj_conj S L x), H. apply kconj_0. Qed.
  Lemma kopp_0 (x : S) : - x = k0 -> x = k0.
  Proof. intros H. transitivity (- - x); [ring|]. rewrite H. ring. Qed.
  Lemma ksub_0 (x y : S) : x - y = k0 -> x = y.
  Proof. intros H. transitivity (x - y + y); [ring|]. rewrite H. ring. Qed.
  Lemma kisz_false (x : S) : kisz x = false <-> x <> k0.
  Proof. rewrite <- (sl_isz S L). destruct (kisz x); split; congruence. Qed.
End Facts.
Arguments ksum {S} l.
