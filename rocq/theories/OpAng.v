(** Proofs: the algebra of angular momentum operators, from the ladder relations. *)
From Coq Require Import ZArith String List Bool Reals Lia Lra Setoid Morphisms Ring.
From Coquelicot Require Import Complex.
From Verif Require Import Base Indices Scalar Fock OpModel OpExpr Op_proofs RealAtom UMatrix OpUtil OpUtilSpec OpAlg OpBody.
Import ListNotations.

(** equations between complex numbers *)
Ltac cplx :=
  repeat match goal with |- context [OpAlg.cf CS ?e ?m] => generalize (OpAlg.cf CS e m); intro end;
  repeat match goal with x : K CS |- _ => destruct x as [? ?] end;
  repeat match goal with x : C |- _ => destruct x as [? ?] end;
  cbv [times half Ci RtoC Cplus Cminus Cmult Copp Cconj kadd kmul ksub kopp k0 k1 CS fst snd];
  first [apply injective_projections; cbn [fst snd]; field | apply injective_projections; cbn [fst snd]; lra].

Section Ang.
  Add Ring KringAn : (sl_ring CS CS_laws).
  Local Open Scope K_scope.
  Notation L := CS_laws.
  Infix "==" := (eqv CS) (at level 70).
  Notation cf := (cf CS).
  Local Instance cf_mA : Proper (eqv CS ==> eq ==> eq) (OpAlg.cf CS) := cf_m CS L.
  Lemma comm_self a : comm CS a a == EScal k0.
  Proof. apply (comm_zero CS L). reflexivity. Qed.
  Lemma comm_anti a b : comm CS a b == EMulS (comm CS b a) (- k1).
  Proof. apply (cf_eqv CS L). intros m. unfold comm. rewrite (cf_muls CS L), !(cf_sub CS L). ring. Qed.

  Context (J : component -> oper).
  Notation X := (J CX). Notation Y := (J CY). Notation Z := (J CZ). Notation P := (J CP). Notation M := (J CM).
  Hypothesis HZP : comm CS Z P == P.
  Hypothesis HZM : comm CS Z M == EMulS M (- k1).
  Hypothesis HPM : comm CS P M == EMulS Z (RtoC 2 : CS).
  Hypothesis HX : X == EMulS (EAdd P M) (half : CS).
  Hypothesis HY : Y == EMulS (ESub P M) (Copp (Cmult half Ci) : CS).
  Hypothesis HZd : hermitian Z.
  Hypothesis HPd : EDag P == M.

  Lemma HMd : EDag M == P.
  Proof. rewrite <- HPd. apply (thm_same_meaning CS L). intros pos v g _. reflexivity. Qed.
  Ltac ex := rewrite ?HX, ?HY, ?(sub_add CS L), ?(comm_muls_l CS L), ?(comm_muls_r CS L), ?(comm_add_l CS L), ?(comm_add_r CS L), ?(comm_muls_l CS L), ?(comm_muls_r CS L).
  Lemma ang_relations : angular_momentum J.
  Proof.
    unfold angular_momentum. change same_op with (eqv CS). change bracket_op with (comm CS). unfold hermitian. change same_op with (eqv CS). unfold times.
    split; [|split; [|split; [|split; [|split; [|split; [|split]]]]]].
    - ex. rewrite (comm_anti M P), HPM, !comm_self. apply (cf_eqv CS L). intros m. rewrite ?(cf_muls CS L), ?(cf_add CS L), ?(cf_muls CS L), ?(cf_zero CS L). cplx.
    - ex. rewrite (comm_anti P Z), (comm_anti M Z), HZP, HZM. apply (cf_eqv CS L). intros m. rewrite ?(cf_muls CS L), ?(cf_add CS L), ?(cf_muls CS L), ?(cf_zero CS L). cplx.
    - ex. rewrite HZP, HZM. apply (cf_eqv CS L). intros m. rewrite ?(cf_muls CS L), ?(cf_add CS L), ?(cf_muls CS L), ?(cf_zero CS L). cplx.
    - rewrite HX, HY. apply (cf_eqv CS L). intros m. rewrite ?(cf_muls CS L), ?(cf_add CS L), ?(cf_muls CS L), ?(cf_sub CS L), ?(cf_add CS L). cplx.
    - rewrite HX, HY. apply (cf_eqv CS L). intros m. rewrite ?(cf_muls CS L), ?(cf_sub CS L), ?(cf_muls CS L), ?(cf_sub CS L), ?(cf_add CS L). cplx.
    - rewrite HX, (dag_muls CS L), (dag_add CS L), HPd, HMd. apply (cf_eqv CS L). intros m. rewrite ?(cf_muls CS L), ?(cf_add CS L).
      assert (kconj (half : CS) = (half : CS)) as ->. { change (Cconj half = half). unfold half, Cconj, RtoC. cbn. f_equal. ring. } ring.
    - rewrite HY, (dag_muls CS L), (sub_add CS L), (dag_add CS L), (dag_muls CS L), HPd, HMd. apply (cf_eqv CS L). intros m. rewrite ?(cf_muls CS L), ?(cf_add CS L), ?(cf_muls CS L).
      assert (kconj (Copp (Cmult half Ci) : CS) = (Cmult half Ci : CS)) as ->. { change (Cconj (Copp (Cmult half Ci)) = Cmult half Ci). unfold half, Cconj, Copp, Cmult, Ci, RtoC. cbn. f_equal; lra. }
      assert (kconj (- k1 : CS) = (- k1)) as ->. { change (Cconj (Copp (RtoC 1)) = Copp (RtoC 1)). unfold Cconj, Copp, RtoC. cbn. f_equal; lra. } cplx.
    - exact HZd.
  Qed.

  (** the square *)
  Notation sq := (square Z P M).
  Lemma square_formula : same_op sq (EAdd (EAdd (EMul X X) (EMul Y Y)) (EMul Z Z)).
  Proof.
    change same_op with (eqv CS). unfold square. rewrite HX, HY.
    rewrite ?(sub_add CS L), ?(mul_muls_l CS L), ?(mul_muls_r CS L), ?(mul_add_l CS L), ?(mul_add_r CS L), ?(mul_muls_l CS L), ?(mul_muls_r CS L).
    apply (cf_eqv CS L). intros m. repeat first [rewrite (cf_muls CS L) | rewrite (cf_add CS L)].
    repeat first [rewrite (mul_muls_l CS L) | rewrite (mul_muls_r CS L)]. repeat first [rewrite (cf_muls CS L) | rewrite (cf_add CS L)]. cplx.
  Qed.
  Lemma comm_square_Z : comm CS Z sq == EScal k0.
  Proof.
    unfold square. repeat first [rewrite (comm_add_r CS L) | rewrite (comm_muls_r CS L) | rewrite (comm_mul_r CS L)].
    rewrite HZP, HZM, comm_self. apply (cf_eqv CS L). intros m.
    repeat first [rewrite (cf_muls CS L) | rewrite (cf_add CS L) | rewrite (mul_muls_l CS L) | rewrite (mul_muls_r CS L) | rewrite (mul_scal_l CS L) | rewrite (mul_scal_r CS L) | rewrite (cf_zero CS L)]. cplx.
  Qed.
  Lemma comm_square_P : comm CS P sq == EScal k0.
  Proof.
    unfold square. repeat first [rewrite (comm_add_r CS L) | rewrite (comm_muls_r CS L) | rewrite (comm_mul_r CS L)].
    rewrite (comm_anti P Z), HPM, HZP, comm_self. apply (cf_eqv CS L). intros m.
    repeat first [rewrite (cf_muls CS L) | rewrite (cf_add CS L) | rewrite (mul_muls_l CS L) | rewrite (mul_muls_r CS L) | rewrite (mul_scal_l CS L) | rewrite (mul_scal_r CS L) | rewrite (cf_zero CS L)]. cplx.
  Qed.
  Lemma comm_square_M : comm CS M sq == EScal k0.
  Proof.
    unfold square. repeat first [rewrite (comm_add_r CS L) | rewrite (comm_muls_r CS L) | rewrite (comm_mul_r CS L)].
    rewrite (comm_anti M Z), (comm_anti M P), HPM, HZM, comm_self. apply (cf_eqv CS L). intros m.
    repeat first [rewrite (cf_muls CS L) | rewrite (cf_add CS L) | rewrite (mul_muls_l CS L) | rewrite (mul_muls_r CS L) | rewrite (mul_scal_l CS L) | rewrite (mul_scal_r CS L) | rewrite (cf_zero CS L)]. cplx.
  Qed.
  Lemma square_commutes c : commute sq (J c).
  Proof.
    symmetry. change (EMul (J c) sq == EMul sq (J c)). apply (comm_zero CS L). destruct c.
    - rewrite HX, (comm_muls_l CS L), (comm_add_l CS L), comm_square_P, comm_square_M. apply (cf_eqv CS L). intros m. rewrite (cf_muls CS L), (cf_add CS L), (cf_zero CS L). ring.
    - rewrite HY, (sub_add CS L), (comm_muls_l CS L), (comm_add_l CS L), (comm_muls_l CS L), comm_square_P, comm_square_M. apply (cf_eqv CS L). intros m. rewrite (cf_muls CS L), (cf_add CS L), (cf_muls CS L), (cf_zero CS L). ring.
    - apply comm_square_Z.
    - apply comm_square_P.
    - apply comm_square_M.
  Qed.
End Ang.

(** the scalar product of two sets of operators with the same relations between components *)
Section Dot.
  Notation L := CS_laws.
  Infix "==" := (eqv CS) (at level 70).
  Local Instance cf_mD : Proper (eqv CS ==> eq ==> eq) (OpAlg.cf CS) := cf_m CS L.
  Lemma dot_formula (A B : component -> oper) : angular_momentum A -> angular_momentum B ->
    same_op (EAdd (EMul (A CZ) (B CZ)) (EMulS (EAdd (EMul (A CP) (B CM)) (EMul (A CM) (B CP))) (half : CS)))
            (EAdd (EAdd (EMul (A CX) (B CX)) (EMul (A CY) (B CY))) (EMul (A CZ) (B CZ))).
  Proof.
    intros (_ & _ & _ & HP & HM & _) (_ & _ & _ & HP' & HM' & _). change same_op with (eqv CS) in *. rewrite HP, HM, HP', HM'. unfold times.
    rewrite ?(sub_add CS L), ?(mul_add_l CS L), ?(mul_add_r CS L). apply (cf_eqv CS L). intros m.
    repeat first [rewrite (cf_muls CS L) | rewrite (cf_add CS L) | rewrite (mul_muls_l CS L) | rewrite (mul_muls_r CS L)]. cplx.
  Qed.
End Dot.
