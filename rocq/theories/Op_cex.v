(** Counterexamples about operators (used by Op_props.v). *)
From Coq Require Import ZArith NArith List Bool String SpecFloat.
From Verif Require Import Base Indices Scalar Fock FockFacts OpModel OpExpr OpUnique Op_proofs ScalarInst.
Import ListNotations.

(** Indices used in the examples: c("up",0), c("up",1), c("dn",0). *)
Definition up0 : indices := [LStr "up"; LInt 0].
Definition up1 : indices := [LStr "up"; LInt 1].
Definition dn0 : indices := [LStr "dn"; LInt 0].
Definition pos3 : indices -> nat := number [dn0; up0; up1].


Lemma cex_raw : exists (m : monomial) a,
    eval (EMul (EC up0) (ECdag up0) : expr ZS) = Some a /\
    (forall pos f g, mel (S := ZS) pos a f g = mel pos (op_raw (S := ZS) 1%Z m) f g) /\
    op_eqb a (op_raw (S := ZS) 1%Z m) = false.
Proof.
  exists [mkCop false up0; mkCop true up0]. eexists. split; [vm_compute; reflexivity|]. split.
  - intros pos f g. pose proof (mel_ctx_contract pos ZS ZS_laws up0 [] [] f g) as H. cbn [app] in H.
    change ((1 * @mel_mono pos ZS [] f g + (-1 * @mel_mono pos ZS [mkCop true up0; mkCop false up0] f g + 0) =
             1 * @mel_mono pos ZS [mkCop false up0; mkCop true up0] f g + 0)%Z).
    rewrite H. change (@ksub ZS) with Z.sub.
    generalize (@mel_mono pos ZS [] f g) (@mel_mono pos ZS [mkCop true up0; mkCop false up0] f g).
    intros u v. change (K ZS) with Z in *. ring.
  - vm_compute. reflexivity.
Qed.

Local Open Scope Z_scope.
Lemma cex_assoc : exists x y z : F64,
    let a := EMulS (EC up0) x in let b := EMulS (EC up0) y in let c := EMulS (EC up0) z in
    exists l r, eval (EAdd (EAdd a b) c) = Some l /\ eval (EAdd a (EAdd b c)) = Some r /\
                op_eqb l r = false.
Proof.
  exists (f_of (-(2^52) - 75) (-52)), (f_of 1 0), (f_of (-(2^52) + 75) (-52)).
  do 2 eexists. repeat split; vm_compute; reflexivity.
Qed.
Lemma cex_self_add : exists (e : expr F64) a, eval e = Some a /\ a <> [] /\ op_add_self a = UB.
Proof.
  exists (EMulS (EMulS (EC up0) (f_of 120 (-52) : F64)) (f_of 1 (-2) : F64)). eexists. split; [vm_compute; reflexivity|].
  split; [discriminate|vm_compute; reflexivity].
Qed.
