(** The scalars of atom_diag<false> (real) and atom_diag<true> (complex) as exact numbers, and
    real energies. *)
From Coq Require Import ZArith NArith List Bool Reals Lra.
From Coquelicot Require Import Coquelicot.
From Verif Require Import Base Scalar AtomDiag AtomDiagSpec.
Import ListNotations.
Local Open Scope R_scope.

Definition r_isz (x : R) : bool := if Req_EM_T x 0 then true else false.
Definition c_isz (z : C) : bool := if Ceq_dec z (RtoC 0) then true else false.
Definition RS : scalar_ops := mkScalar R 0 1 Rplus Rmult Rminus Ropp (fun x => x) r_isz.
Definition CS : scalar_ops := mkScalar C (RtoC 0) (RtoC 1) Cplus Cmult Cminus Copp Cconj c_isz.

Lemma RS_laws : scalar_laws RS.
Proof.
  constructor; cbn; try reflexivity.
  - exact RTheory.
  - apply Rmult_integral.
  - lra.
  - intros x. unfold r_isz. destruct (Req_EM_T x 0); split; intros; congruence.
Qed.
Lemma CS_laws : scalar_laws CS.
Proof.
  constructor; cbn.
  - constructor; intros; change (@eq C) with (@eq C); ring.
  - intros x y H. destruct (Ceq_dec x (RtoC 0)) as [|Hx]; [left; assumption|right]. destruct (Ceq_dec y (RtoC 0)) as [|Hy]; [assumption|]. exfalso. revert H. apply Cmult_neq_0; assumption.
  - intros H. apply (f_equal fst) in H. cbn in H. lra.
  - intros x. unfold c_isz. destruct (Ceq_dec x (RtoC 0)); split; intros; congruence.
  - intros [a b] [c d]. unfold Cconj, Cplus. cbn. f_equal. ring.
  - intros [a b] [c d]. unfold Cconj, Cmult. cbn. f_equal; ring.
  - intros [a b]. unfold Cconj. cbn. f_equal. ring.
Qed.

(** energies are real numbers; [inj] converts a double to the scalar type *)
Definition RE (S : scalar_ops) (inj : R -> S) : energy_ops S :=
  mkEnergy S R (fun x y => if Rlt_dec x y then true else false) Rplus Rminus (fun n => INR n / 10 ^ 10) inj.

(** A scalar type read as complex numbers: real (val = RtoC) or complex (val = identity). *)
Record complex_view (S : scalar_ops) (inj : R -> S) (val : S -> C) : Prop := {
  cv_0 : val k0 = RtoC 0;
  cv_1 : val k1 = RtoC 1;
  cv_add : forall x y, val (kadd x y) = Cplus (val x) (val y);
  cv_sub : forall x y, val (ksub x y) = Cminus (val x) (val y);
  cv_mul : forall x y, val (kmul x y) = Cmult (val x) (val y);
  cv_conj : forall x, val (kconj x) = Cconj (val x);
  cv_inj : forall r, val (inj r) = RtoC r;
  cv_eq : forall x y, val x = val y -> x = y }.
Lemma real_view : complex_view RS (fun x => x) RtoC.
Proof.
  constructor; cbn; intros; try reflexivity.
  - apply RtoC_plus.
  - unfold Cminus, RtoC, Cplus, Copp. cbn. f_equal; ring.
  - apply RtoC_mult.
  - unfold Cconj, RtoC. cbn. f_equal. ring.
  - apply (f_equal fst) in H. exact H.
Qed.
Lemma complex_view_id : complex_view CS RtoC (fun z => z).
Proof. constructor; cbn; intros; try reflexivity. assumption. Qed.

Lemma RE_laws S inj val : scalar_laws S -> complex_view S inj val -> energy_laws S (RE S inj).
Proof.
  intros L V. constructor; cbn.
  - intros x. destruct (Rlt_dec x x); [lra|reflexivity].
  - intros x y z. destruct (Rlt_dec x y), (Rlt_dec y z), (Rlt_dec x z); intros; try discriminate; try reflexivity; lra.
  - intros x y. destruct (Rlt_dec x y), (Rlt_dec y x); intros; try discriminate; lra.
  - intros x y g. destruct (Rlt_dec (x - g) (y - g)), (Rlt_dec x y); try reflexivity; lra.
  - intros x g. apply (cv_eq _ _ _ V). rewrite (cv_add _ _ _ V), !(cv_inj _ _ _ V), <- RtoC_plus. f_equal. ring.
Qed.
