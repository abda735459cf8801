(** Concrete problems with quantum numbers over the rationals. *)
From Coq Require Import ZArith NArith List Arith Bool Lia Sorted QArith Qcanon.
From Verif Require Import Base Indices Scalar Fock OpModel OpExpr Hilbert ImpOp_run Partition AtomDiag AtomDiagSpec AtomDiag_ex AtomQn AtomQnSpec.
Import ListNotations.
Local Open Scope nat_scope.

(** std::real, the test of the imaginary part and x < y - 1e-8, over the rationals *)
Definition qre (x : QS) : QE := x.
Definition qim (x : QS) : bool := false.
Definition qtol (x y : QE) : bool := q_lt x (y - Q2Qc (1 # 100000000))%Qc.
Lemma qn_laws_Q : qn_laws QS QE qim qtol.
Proof.
  constructor; [reflexivity|]. intros x. unfold qtol. rewrite <- not_true_iff_false, q_lt_iff. intros H. apply Qclt_minus_iff in H.
  replace (x - Q2Qc (1 # 100000000) + - x)%Qc with (- Q2Qc (1 # 100000000))%Qc in H by ring. revert H. apply Qle_not_lt. vm_compute. discriminate.
Qed.

(** the number of electrons *)
Definition num2 : expr QS := EAdd (EN o0) (EN o1).
Definition op_of (e : expr QS) : omap QS := match eval e with Some op => op | None => [] end.

Lemma fock4 f : fock orbs2 f -> (f = 0 \/ f = 1 \/ f = 2 \/ f = 3)%N.
Proof. unfold fock. change (2 ^ N.of_nat (length orbs2))%N with 4%N. lia. Qed.
Ltac all4 H := apply fock4 in H; destruct H as [H|[H|[H|H]]]; subst.

Lemma num2_real : qn_are_real QS qim orbs2 [num2].
Proof. intros q f _ _. reflexivity. Qed.
Lemma num2_apart : qn_apart QS QE qre qtol orbs2 [num2].
Proof.
  intros q f g [<-|[]] Hf Hg. all4 Hf; all4 Hg; cbv zeta; try (left; reflexivity); right; first [left; vm_compute; reflexivity|right; vm_compute; reflexivity].
Qed.
Lemma num2_conserved : conserves QS QE qre orbs2 [num2] ham2.
Proof.
  intros f g Hf Hg Hz. all4 Hf; all4 Hg; try reflexivity; try (exfalso; apply Hz; apply qeqb_eq; vm_compute; reflexivity).
  all: unfold qnum; cbn [map]; f_equal; apply qeqb_eq; vm_compute; reflexivity.
Qed.
Lemma num2_additive : additive QS orbs2 (fun _ => k1) num2.
Proof. intros f g Hf Hg. all4 Hf; all4 Hg; apply qeqb_eq; vm_compute; reflexivity. Qed.

(** H = - n_0 on one orbital, with its number of electrons *)
Definition orb1 : fops := [o0].
Definition ham1 : expr QS := EMulS (EN o0) (q (-1) : QS).
Definition num1 : expr QS := EN o0.
Definition eigen1 (m : mat QS) : list QE * mat QS :=
  match m_rows m with
  | 1%nat => ([m_at m 0 0], of_rows [[AtomDiag_ex.o]])
  | _ => ([q (-1); q 0], of_rows [[z0; AtomDiag_ex.o]; [AtomDiag_ex.o; z0]])
  end.
Lemma solves1 : solves QS QE orb1 ham1 eigen1.
Proof.
  intros B m Hne HS HB Hc Hr Hcl Hm. change (2 ^ N.of_nat (length orb1))%N with 2%N in HB.
  assert (HB4 : forall f, In f B -> (f < 4)%N) by (intros f Hf; specialize (HB f Hf); lia).
  pose proof (below4 B HS HB4) as HBp.
  assert (M2 : mem 2 B = false) by (apply not_true_iff_false; rewrite mem_In; intros H; specialize (HB _ H); lia).
  assert (M3 : mem 3 B = false) by (apply not_true_iff_false; rewrite mem_In; intros H; specialize (HB _ H); lia).
  rewrite M2, M3 in HBp.
  assert (Hm' : forall j i, (j < length B)%nat -> (i < length B)%nat -> m_at m j i = bracket QS orb1 ham1 (nth j B 0%N) (nth i B 0%N)).
  { intros j i Hj Hi. apply Hm; apply nth_error_nth'; assumption. }
  assert (E00 : m_at m 0 0 = bracket QS orb1 ham1 (nth 0 B 0%N) (nth 0 B 0%N)) by (destruct B; [congruence|]; apply Hm'; cbn; lia).
  unfold eigen1. rewrite Hr, E00. clear Hm HS HB HB4 M2 M3 Hc.
  revert HBp. generalize (mem 0 B) (mem 1 B). intros b0 b1 HBp.
  eapply check_ok; [|exact Hm'].
  destruct b0, b1; cbn in HBp; subst B; try congruence; vm_compute; reflexivity.
Qed.
Lemma fock2 f : fock orb1 f -> (f = 0 \/ f = 1)%N.
Proof. unfold fock. change (2 ^ N.of_nat (length orb1))%N with 2%N. lia. Qed.
Ltac all2' H := apply fock2 in H; destruct H as [H|H]; subst.
Lemma num1_apart : qn_apart QS QE qre qtol orb1 [num1].
Proof.
  intros q f g [<-|[]] Hf Hg. all2' Hf; all2' Hg; cbv zeta; try (left; reflexivity); right; first [left; vm_compute; reflexivity|right; vm_compute; reflexivity].
Qed.
Lemma num1_conserved : conserves QS QE qre orb1 [num1] ham1.
Proof.
  intros f g Hf Hg Hz. all2' Hf; all2' Hg; try reflexivity; exfalso; apply Hz; apply qeqb_eq; vm_compute; reflexivity.
Qed.
Lemma num1_additive : additive QS orb1 (fun _ => k1) num1.
Proof. intros f g Hf Hg. all2' Hf; all2' Hg; apply qeqb_eq; vm_compute; reflexivity. Qed.
