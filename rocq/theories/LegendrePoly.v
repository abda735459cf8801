(** Facts about Legendre polynomials: parity, derivatives, integrals. *)
From Coq Require Import ZArith NArith List Arith Bool Lia Reals Lra.
From Coquelicot Require Import Coquelicot.
From Verif Require Import LehmannSpec.
Local Open Scope R_scope.

Notation P := legendre_P.
Lemma pair_P n t : legendre_pair n t = (P n t, P (S n) t).
Proof. unfold legendre_P. cbn [legendre_pair]. destruct (legendre_pair n t) as [p q]. reflexivity. Qed.
Lemma P_0 t : P 0 t = 1. Proof. reflexivity. Qed.
Lemma P_1 t : P 1 t = t. Proof. reflexivity. Qed.
Lemma P_rec n t : P (S (S n)) t = ((2 * INR n + 3) * t * P (S n) t - (INR n + 1) * P n t) / (INR n + 2).
Proof. unfold legendre_P at 1. cbn [legendre_pair]. rewrite pair_P. reflexivity. Qed.
Lemma two_step (Q : nat -> Prop) : Q O -> Q 1%nat -> (forall n, Q n -> Q (S n) -> Q (S (S n))) -> forall n, Q n.
Proof. intros H0 H1 HS n. assert (G : Q n /\ Q (S n)) by (induction n as [|n [A B]]; auto). apply G. Qed.

Lemma P_parity n t : P n (- t) = (if Nat.even n then 1 else -1) * P n t.
Proof.
  revert n. apply two_step; [rewrite !P_0; cbn; ring|rewrite !P_1; cbn; ring|]. intros n A B. pose proof (pos_INR n) as Pn. rewrite !P_rec, A, B. rewrite Nat.even_succ_succ, Nat.even_succ, <- Nat.negb_even.
  destruct (Nat.even n); cbn [negb]; field; lra.
Qed.
Lemma P_one n : P n 1 = 1.
Proof. revert n. apply two_step; [reflexivity|reflexivity|]. intros n A B. pose proof (pos_INR n) as Pn. rewrite P_rec, A, B. field. lra. Qed.

(** derivatives *)
Fixpoint dpair (n : nat) (t : R) : R * R :=
  match n with
  | O => (0, 1)
  | S m => let '(p, q) := dpair m t in (q, ((2 * INR m + 3) * (P (S m) t + t * q) - (INR m + 1) * p) / (INR m + 2))
  end.
Definition D (n : nat) (t : R) : R := fst (dpair n t).
Lemma pair_D n t : dpair n t = (D n t, D (S n) t).
Proof. unfold D. cbn [dpair]. destruct (dpair n t) as [p q]. reflexivity. Qed.
Lemma D_rec n t : D (S (S n)) t = ((2 * INR n + 3) * (P (S n) t + t * D (S n) t) - (INR n + 1) * D n t) / (INR n + 2).
Proof. unfold D at 1. cbn [dpair]. rewrite pair_D. reflexivity. Qed.
Lemma P_derive n t : is_derive (P n) t (D n t).
Proof.
  revert n. apply two_step.
  - apply (is_derive_ext (fun _ => 1)); [intros; reflexivity|]. apply @is_derive_const.
  - apply (is_derive_ext (fun x => x)); [intros; reflexivity|]. apply @is_derive_id.
  - intros n A B. apply (is_derive_ext (fun t => ((2 * INR n + 3) * t * P (S n) t - (INR n + 1) * P n t) / (INR n + 2))); [intros; symmetry; apply P_rec|]. rewrite D_rec.
    assert (E1 : ex_derive (P (S n)) t) by (eexists; exact B). assert (E2 : ex_derive (P n) t) by (eexists; exact A).
    auto_derive; [auto|]. replace (Derive (fun x : R => P (S n) x) t) with (D (S n) t) by (symmetry; apply is_derive_unique; exact B). replace (Derive (fun x : R => P n x) t) with (D n t) by (symmetry; apply is_derive_unique; exact A). pose proof (pos_INR n). field. lra.
Qed.
Lemma D_identities n t :
  (t * D (S n) t - D n t = (INR n + 1) * P (S n) t) /\ ((t * t - 1) * D (S n) t = (INR n + 1) * (t * P (S n) t - P n t)).
Proof.
  induction n as [|n [B C]].
  - change (D 1 t) with 1. change (D 0 t) with 0. rewrite P_1, P_0. cbn [INR]. split; ring.
  - pose proof (pos_INR n) as Pn. rewrite S_INR.
    assert (A : D (S (S n)) t = t * D (S n) t + (INR n + 2) * P (S n) t).
    { rewrite D_rec. replace (D n t) with (t * D (S n) t - (INR n + 1) * P (S n) t) by lra. field. lra. }
    assert (Rc : (INR n + 2) * P (S (S n)) t = (2 * INR n + 3) * t * P (S n) t - (INR n + 1) * P n t) by (rewrite P_rec; field; lra).
    split.
    + transitivity ((t * t - 1) * D (S n) t + (INR n + 2) * t * P (S n) t); [rewrite A; ring|]. rewrite C. transitivity ((INR n + 2) * P (S (S n)) t); [rewrite Rc|]; ring.
    + transitivity (t * ((t * t - 1) * D (S n) t) + (INR n + 2) * (t * t - 1) * P (S n) t); [rewrite A; ring|]. rewrite C.
      transitivity (t * ((INR n + 2) * P (S (S n)) t) - (INR n + 2) * P (S n) t); [rewrite Rc|]; ring.
Qed.
Lemma P_as_derivative n t : (2 * INR n + 3) * P (S n) t = D (S (S n)) t - D n t.
Proof.
  destruct (D_identities n t) as [B _]. pose proof (pos_INR n) as Pn.
  rewrite D_rec. replace (D n t) with (t * D (S n) t - (INR n + 1) * P (S n) t) by lra. field. lra.
Qed.
Lemma P_continuous n t : continuous (P n) t.
Proof. apply (ex_derive_continuous (K := R_AbsRing) (V := R_NormedModule) (P n) t). exists (D n t). apply P_derive. Qed.
Lemma D_continuous n t : continuous (D n) t.
Proof.
  revert n. apply two_step.
  - apply (continuous_ext (fun _ => 0)); [intros; reflexivity|]. apply continuous_const.
  - apply (continuous_ext (fun _ => 1)); [intros; reflexivity|]. apply continuous_const.
  - intros n A B. apply (continuous_ext (fun t => ((2 * INR n + 3) * (P (S n) t + t * D (S n) t) - (INR n + 1) * D n t) * / (INR n + 2))); [intros; symmetry; apply D_rec|].
    apply (continuous_mult (fun t => (2 * INR n + 3) * (P (S n) t + t * D (S n) t) - (INR n + 1) * D n t) (fun _ => / (INR n + 2))); [|apply continuous_const].
    apply (continuous_minus (fun t => (2 * INR n + 3) * (P (S n) t + t * D (S n) t)) (fun t => (INR n + 1) * D n t)).
    + apply (continuous_mult (fun _ => 2 * INR n + 3) (fun t => P (S n) t + t * D (S n) t)); [apply continuous_const|].
      apply (continuous_plus (fun t => P (S n) t) (fun t => t * D (S n) t)); [apply P_continuous|].
      apply (continuous_mult (fun t => t) (D (S n))); [apply continuous_id|exact B].
    + apply (continuous_mult (fun _ => INR n + 1) (D n)); [apply continuous_const|exact A].
Qed.

(** the integral over [-1, 1] vanishes but for n = 0 *)
Lemma P_integral n : is_RInt (P n) (-1) 1 (if (n =? 0)%nat then 2 else 0).
Proof.
  destruct n as [|n]; cbn [Nat.eqb].
  - apply (is_RInt_ext (fun _ => 1)); [intros; reflexivity|]. replace 2 with (scal (1 - -1) 1) by (unfold scal; cbn; unfold mult; cbn; ring). apply @is_RInt_const.
  - pose proof (pos_INR n) as Pn.
    replace 0 with (((P (S (S n)) 1 - P n 1) / (2 * INR n + 3)) - ((P (S (S n)) (-1) - P n (-1)) / (2 * INR n + 3))).
    2:{ rewrite !(P_parity _ 1), !P_one, Nat.even_succ_succ. destruct (Nat.even n); field; lra. }
    apply (is_RInt_derive (fun t => (P (S (S n)) t - P n t) / (2 * INR n + 3)) (P (S n))).
    + intros t _. pose proof (P_derive (S (S n)) t) as A. pose proof (P_derive n t) as B. assert (E1 : ex_derive (P (S (S n))) t) by (eexists; exact A). assert (E2 : ex_derive (P n) t) by (eexists; exact B).
      auto_derive; [auto|]. replace (Derive (fun x : R => P (S (S n)) x) t) with (D (S (S n)) t) by (symmetry; apply is_derive_unique; exact A). replace (Derive (fun x : R => P n x) t) with (D n t) by (symmetry; apply is_derive_unique; exact B).
      apply (Rmult_eq_reg_l (2 * INR n + 3)); [|lra]. rewrite P_as_derivative. field. lra.
    + intros t _. apply P_continuous.
Qed.
