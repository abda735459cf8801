(** Instances of [scalar_ops]: integers, Gaussian integers (exact), and IEEE binary64
    with the tolerance of the code. *)
From Coq Require Import ZArith List Bool Lia Ring_theory ZArithRing InitialRing SpecFloat.
From Verif Require Import Scalar.

(** exact real coefficients *)
Definition ZS : scalar_ops := mkScalar Z 0%Z 1%Z Z.add Z.mul Z.sub Z.opp (fun x => x) (Z.eqb 0).
Lemma ZS_laws : scalar_laws ZS.
Proof.
  split; unfold ZS; cbn.
  - exact Zth.
  - intros x y H. apply Z.mul_eq_0. exact H.
  - discriminate.
  - intros x. change ((0 =? x)%Z = true <-> x = 0%Z). rewrite Z.eqb_eq. split; congruence.
  - reflexivity.
  - reflexivity.
  - reflexivity.
Qed.

(** exact complex coefficients: Gaussian integers *)
Definition GS : scalar_ops :=
  mkScalar (Z * Z) (0, 0)%Z (1, 0)%Z
    (fun x y => (fst x + fst y, snd x + snd y)%Z)
    (fun x y => (fst x * fst y - snd x * snd y, fst x * snd y + snd x * fst y)%Z)
    (fun x y => (fst x - fst y, snd x - snd y)%Z)
    (fun x => (- fst x, - snd x)%Z)
    (fun x => (fst x, - snd x)%Z)
    (fun x => (Z.eqb 0 (fst x) && Z.eqb 0 (snd x))%bool).
Lemma GS_laws : scalar_laws GS.
Proof.
  split; unfold GS; cbn.
  - constructor; intros; repeat match goal with x : (Z * Z)%type |- _ => destruct x end; cbn [fst snd]; apply f_equal2; ring.
  - intros [a b] [c d]; cbn. intros H. injection H as H1 H2.
    assert (E : ((a * a + b * b) * (c * c + d * d) = 0)%Z).
    { transitivity ((a * c - b * d) * (a * c - b * d) + (a * d + b * c) * (a * d + b * c))%Z; [ring|]. rewrite H1, H2. reflexivity. }
    apply Z.mul_eq_0 in E. destruct E as [E|E]; [left|right]; f_equal; nia.
  - discriminate.
  - intros [a b]; cbn. change ((0 =? a)%Z && (0 =? b)%Z = true <-> (a, b) = (0%Z, 0%Z)).
    rewrite andb_true_iff, !Z.eqb_eq. split; [intros [<- <-]; reflexivity|intros E; injection E; auto].
  - intros [a b] [c d]; cbn. f_equal. ring.
  - intros [a b] [c d]; cbn. f_equal; ring.
  - intros [a b]; cbn. f_equal. ring.
Qed.

(** IEEE binary64 with the zero test of utility/numeric_ops.hpp:42-44 :
    |x| < 100 * epsilon, where epsilon = 2^-52.  (Standard library reference
    implementation of IEEE arithmetic, round to nearest even.) *)
Definition f_of (m e : Z) : spec_float := binary_normalize 53 1024 m e false.
Definition tol64 : spec_float := f_of 100 (-52).
Definition F64 : scalar_ops :=
  mkScalar spec_float (S754_zero false) (f_of 1 0)
    (SFadd 53 1024) (SFmul 53 1024) (SFsub 53 1024) SFopp (fun x => x)
    (fun x => SFltb (SFabs x) tol64).
