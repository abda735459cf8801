(** Coq's [ring] and [field] for a mathcomp field: wrappers of the operations.
    In a section with [F : fieldType], use [Add Field name : (Fft F).] *)
From mathcomp Require Import all_ssreflect all_algebra.
From Coq Require Export Field.
Set Implicit Arguments.
Unset Strict Implicit.
Unset Printing Implicit Defensive.
Import GRing.Theory.
Local Open Scope ring_scope.
Section S.
Variable F : fieldType.
Definition fad (a b : F) : F := a + b.
Definition fmu (a b : F) : F := a * b.
Definition fop (a : F) : F := - a.
Definition fiv (a : F) : F := a^-1.
Definition fzz : F := 0.
Definition foo : F := 1.
Definition fsu (a b : F) := fad a (fop b).
Definition fdv (a b : F) := fmu a (fiv b).
Lemma Frt : ring_theory fzz foo fad fmu fsu fop eq.
Proof.
split=> *; rewrite /fsu /fzz /foo /fad /fmu /fop ?add0r ?mul1r ?mulrDl ?addrA ?mulrA ?subrr //; [exact: addrC|exact: mulrC].
Qed.
Lemma Fft : field_theory fzz foo fad fmu fsu fop fdv fiv eq.
Proof.
split; [exact: Frt | by apply/eqP; exact: oner_neq0 | by [] | move=> p /eqP H; exact: mulVf].
Qed.
End S.
Ltac fconv F :=
  repeat match goal with
  | |- context [@GRing.add ?V ?a ?b] => change (@GRing.add V a b) with (@fad F a b)
  | |- context [@GRing.mul ?V ?a ?b] => change (@GRing.mul V a b) with (@fmu F a b)
  | |- context [@GRing.opp ?V ?a] => change (@GRing.opp V a) with (@fop F a)
  | |- context [@GRing.inv ?V ?a] => change (@GRing.inv V a) with (@fiv F a)
  | |- context [GRing.zero ?V] => change (GRing.zero V) with (@fzz F)
  | |- context [GRing.one ?V] => change (GRing.one V) with (@foo F)
  end; match goal with |- @eq _ ?a ?b => change (@eq (GRing.Field.sort F) a b) end.
Ltac fring F := fconv F; ring.
Ltac ffield F := fconv F; field; unfold fzz; repeat (split; [apply/eqP; try assumption|]); apply/eqP; try assumption.
