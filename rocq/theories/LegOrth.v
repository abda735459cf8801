(** Orthogonality, higher derivatives and Fourier integrals of the Legendre polynomials. *)
From Coq Require Import ZArith NArith List Arith Bool Lia Reals Lra.
From Coquelicot Require Import Coquelicot.
From Verif Require Import LehmannSpec LegendrePoly.
Local Open Scope R_scope.
Ltac toR := match goal with |- @eq _ ?a ?b => change (@eq R a b) end.

(** ---- orthogonality ---- *)
Definition K (n : nat) (t : R) : R := (1 - t * t) * D n t.
Lemma K_derive n t : is_derive (K n) t (- (INR n * (INR n + 1)) * P n t).
Proof.
  destruct n as [|n].
  - apply (is_derive_ext (fun _ => 0)); [intros x; toR; unfold K; change (D 0 x) with 0; ring|]. replace (- (INR 0 * (INR 0 + 1)) * P 0 t) with 0 by (cbn [INR]; ring). apply @is_derive_const.
  - apply (is_derive_ext (fun x => (INR n + 1) * (P n x - x * P (S n) x))). { intros x. toR. unfold K. destruct (D_identities n x) as [_ B]. replace ((1 - x * x) * D (S n) x) with (- ((x * x - 1) * D (S n) x)) by ring. rewrite B. ring. }
    pose proof (P_derive n t) as A. pose proof (P_derive (S n) t) as B. assert (E1 : ex_derive (P n) t) by (eexists; exact A). assert (E2 : ex_derive (P (S n)) t) by (eexists; exact B).
    auto_derive; [auto|]. replace (Derive (fun x : R => P n x) t) with (D n t) by (symmetry; apply is_derive_unique; exact A). replace (Derive (fun x : R => P (S n) x) t) with (D (S n) t) by (symmetry; apply is_derive_unique; exact B).
    destruct (D_identities n t) as [C _]. rewrite S_INR. replace (D n t) with (t * D (S n) t - (INR n + 1) * P (S n) t) by lra. ring.
Qed.
Lemma PP_continuous m n t : continuous (fun t => P m t * P n t) t.
Proof. apply (continuous_mult (P m) (P n)); apply P_continuous. Qed.
Lemma orthogonal m n : m <> n -> is_RInt (fun t => P m t * P n t) (-1) 1 0.
Proof.
  intros Hmn. set (a := INR m * (INR m + 1)). set (b := INR n * (INR n + 1)).
  assert (Hab : a - b <> 0).
  { unfold a, b. pose proof (pos_INR m). pose proof (pos_INR n). replace (INR m * (INR m + 1) - INR n * (INR n + 1)) with ((INR m - INR n) * (INR m + INR n + 1)) by ring.
    intros Z0. apply Rmult_integral in Z0. destruct Z0 as [Z0|Z0]; [|lra]. apply Hmn, INR_eq. lra. }
  pose (F := fun t => (P m t * K n t - P n t * K m t) / (a - b)).
  replace 0 with (F 1 - F (-1)) by (unfold F, K; field; exact Hab).
  apply (is_RInt_derive F).
  - intros t _. unfold F. pose proof (P_derive m t) as A. pose proof (P_derive n t) as B. pose proof (K_derive m t) as A'. pose proof (K_derive n t) as B'.
    assert (E1 : ex_derive (P m) t) by (eexists; exact A). assert (E2 : ex_derive (P n) t) by (eexists; exact B). assert (E3 : ex_derive (K m) t) by (eexists; exact A'). assert (E4 : ex_derive (K n) t) by (eexists; exact B').
    auto_derive; [auto|]. replace (Derive (fun x : R => P n x) t) with (D n t) by (symmetry; apply is_derive_unique; exact B). replace (Derive (fun x : R => P m x) t) with (D m t) by (symmetry; apply is_derive_unique; exact A).
    replace (Derive (fun x : R => K m x) t) with (- a * P m t) by (symmetry; apply is_derive_unique; exact A'). replace (Derive (fun x : R => K n x) t) with (- b * P n t) by (symmetry; apply is_derive_unique; exact B').
    unfold K. field. exact Hab.
  - intros t _. apply PP_continuous.
Qed.
Lemma PP_ex m n : ex_RInt (fun t => P m t * P n t) (-1) 1.
Proof. apply (ex_RInt_continuous (V := R_CompleteNormedModule)). intros t _. apply PP_continuous. Qed.
Lemma xPP_ex m n : ex_RInt (fun t => t * (P m t * P n t)) (-1) 1.
Proof. apply (ex_RInt_continuous (V := R_CompleteNormedModule)). intros t _. apply (continuous_mult (fun t => t) (fun t => P m t * P n t)); [apply continuous_id|apply PP_continuous]. Qed.
Lemma is_RInt_lin (f g : R -> R) a b x y If Ig : is_RInt f a b If -> is_RInt g a b Ig -> is_RInt (fun t => x * f t + y * g t) a b (x * If + y * Ig).
Proof. intros Hf Hg. apply (is_RInt_plus (fun t => x * f t) (fun t => y * g t)); apply (is_RInt_scal (V := R_NormedModule)); assumption. Qed.
Lemma is_RInt_same (f g : R -> R) a b x y : is_RInt f a b x -> is_RInt g a b y -> (forall t, f t = g t) -> x = y.
Proof.
  intros Hf Hg H. rewrite <- (is_RInt_unique (V := R_CompleteNormedModule) f a b x Hf). apply (is_RInt_unique (V := R_CompleteNormedModule)).
  apply (is_RInt_ext g); [intros t _; symmetry; apply H|exact Hg].
Qed.
Lemma norm_P n : is_RInt (fun t => P n t * P n t) (-1) 1 (2 / (2 * INR n + 1)).
Proof.
  induction n as [|n IH].
  - apply (is_RInt_ext (fun _ => 1)); [intros; toR; rewrite !P_0; ring|]. replace (2 / (2 * INR 0 + 1)) with (scal (1 - -1) 1) by (cbn; unfold mult; cbn; field). apply @is_RInt_const.
  - pose proof (pos_INR n) as Pn.
    destruct (xPP_ex n (S n)) as [X HX].
    (* (2n+3) x P_{n+1} = (n+2) P_{n+2} + (n+1) P_n *)
    assert (E1 : (2 * INR n + 3) * X = (INR n + 1) * (2 / (2 * INR n + 1))).
    { pose proof (is_RInt_lin _ _ _ _ (INR n + 2) (INR n + 1) _ _ (orthogonal (S (S n)) n ltac:(lia)) IH) as A.
      pose proof (is_RInt_scal (V := R_NormedModule) _ _ _ (2 * INR n + 3) _ HX) as B.
      rewrite Rmult_0_r, Rplus_0_l in A. refine (is_RInt_same _ _ _ _ _ _ B A _). intros t. rewrite P_rec. unfold scal. cbn -[P]. unfold mult. cbn -[P]. field. lra. }
    destruct n as [|n].
    { cbn [INR] in *. apply (is_RInt_ext (fun t => t * (P 0 t * P 1 t))); [intros t _; toR; rewrite P_0, !P_1; ring|]. replace (2 / (2 * 1 + 1)) with X by lra. exact HX. }
    destruct (PP_ex (S (S n)) (S (S n))) as [Y HY]. rewrite !S_INR in *.
    assert (E2 : (INR n + 2) * Y = (2 * INR n + 3) * X).
    { pose proof (is_RInt_lin _ _ _ _ (INR n + 2) (INR n + 1) _ _ HY (orthogonal n (S (S n)) ltac:(lia))) as A.
      pose proof (is_RInt_scal (V := R_NormedModule) _ _ _ (2 * INR n + 3) _ HX) as B.
      rewrite Rmult_0_r, Rplus_0_r in A. refine (is_RInt_same _ _ _ _ _ _ A B _). intros t. unfold scal. cbn -[P]. unfold mult. cbn -[P].
      replace (P (S (S n)) t * P (S (S n)) t) with (((2 * INR n + 3) * t * P (S n) t - (INR n + 1) * P n t) / (INR n + 2) * P (S (S n)) t) by (rewrite <- P_rec; reflexivity). field. pose proof (pos_INR n). lra. }
    replace (2 / (2 * (INR n + 1 + 1) + 1)) with Y; [exact HY|].
    pose proof (pos_INR n). assert (E3 : (2 * INR n + 5) * ((INR n + 2) * Y) = 2 * (INR n + 2)).
    { rewrite E2. replace ((2 * INR n + 5) * ((2 * INR n + 3) * X)) with ((2 * INR n + 3) * ((2 * (INR n + 1) + 3) * X)) by ring. rewrite E1. field. lra. }
    apply (Rmult_eq_reg_l ((2 * INR n + 5) * (INR n + 2))); [|nra]. rewrite Rmult_assoc, E3. field. lra.
Qed.
Lemma ortho m n : is_RInt (fun t => P m t * P n t) (-1) 1 (if (m =? n)%nat then 2 / (2 * INR n + 1) else 0).
Proof. destruct (Nat.eqb_spec m n) as [->|Hn]; [apply norm_P|apply orthogonal; exact Hn]. Qed.

(** ---- higher derivatives ---- *)
Fixpoint qpair (q : nat -> R) (n : nat) : R * R :=
  match n with O => (0, q 0%nat) | S m => let '(a, b) := qpair q m in (b, a + (2 * INR m + 3) * q (S m)) end.
Fixpoint Q (k n : nat) (t : R) : R := match k with O => P n t | S k' => fst (qpair (fun n => Q k' n t) n) end.
Lemma qpair_eq q n : qpair q n = (fst (qpair q n), fst (qpair q (S n))).
Proof. cbn [qpair]. destruct (qpair q n). reflexivity. Qed.
Lemma Q_0 k t : Q (S k) 0 t = 0. Proof. reflexivity. Qed.
Lemma Q_1 k t : Q (S k) 1 t = Q k 0 t. Proof. reflexivity. Qed.
Lemma Q_rec k n t : Q (S k) (S (S n)) t = Q (S k) n t + (2 * INR n + 3) * Q k (S n) t.
Proof. cbn [Q]. set (q := fun n => Q k n t). change (Q k (S n) t) with (q (S n)). cbn [qpair]. rewrite (qpair_eq q n). reflexivity. Qed.
Lemma Q1_D n t : Q 1 n t = D n t.
Proof.
  revert n. apply two_step; [reflexivity|reflexivity|]. intros n A B. rewrite Q_rec, A. change (Q 0 (S n) t) with (P (S n) t). rewrite P_as_derivative. ring.
Qed.
Lemma Q_derive k : forall n t, is_derive (Q k n) t (Q (S k) n t).
Proof.
  induction k as [|k IH]; intros n t.
  - rewrite Q1_D. exact (P_derive n t).
  - revert n. apply two_step.
    + apply (is_derive_ext (fun _ => 0)); [intros; reflexivity|]. apply @is_derive_const.
    + apply (is_derive_ext (Q k 0)); [intros; reflexivity|]. rewrite Q_1. apply IH.
    + intros n A B. apply (is_derive_ext (fun x => Q (S k) n x + (2 * INR n + 3) * Q k (S n) x)); [intros; symmetry; apply Q_rec|]. rewrite Q_rec.
      apply (is_derive_plus (K := R_AbsRing) (V := R_NormedModule) (Q (S k) n) (fun x => (2 * INR n + 3) * Q k (S n) x)); [exact A|]. apply is_derive_scal. apply IH.
Qed.
Lemma Q_high k : forall n t, (n < k)%nat -> Q k n t = 0.
Proof.
  induction k as [|k IH]; intros n t Hn; [lia|]. revert Hn. revert n. apply (two_step (fun n => (n < S k)%nat -> Q (S k) n t = 0)); [reflexivity| |].
  - intros H1. rewrite Q_1. apply IH. lia.
  - intros n A B Hn. rewrite Q_rec, A, IH by lia. ring.
Qed.
Lemma Q_parity k : forall n t, Q k n (- t) = (if Nat.even (n + k) then 1 else -1) * Q k n t.
Proof.
  induction k as [|k IH]; intros n t; [rewrite Nat.add_0_r; apply P_parity|]. revert n. apply two_step.
  - rewrite !Q_0. ring.
  - rewrite !Q_1, IH. replace (1 + S k)%nat with (S (S (0 + k))) by lia. rewrite Nat.even_succ_succ. reflexivity.
  - intros n A B. rewrite !Q_rec, A, IH. replace (S (S n) + S k)%nat with (S (S (n + S k))) by lia. rewrite Nat.even_succ_succ. replace (S n + k)%nat with (n + S k)%nat by lia. ring.
Qed.
(** P_n^(k)(1) = (n+k)! / (2^k k! (n-k)!) *)
Lemma Q_one k : forall n, (k <= n)%nat -> Q k n 1 = INR (fact (n + k)) / (2 ^ k * INR (fact k) * INR (fact (n - k))).
Proof.
  induction k as [|k IH]; intros n Hn.
  - cbn [Q]. rewrite P_one, Nat.add_0_r, Nat.sub_0_r. cbn [pow fact INR]. pose proof (INR_fact_neq_0 n). field. assumption.
  - revert Hn. revert n. apply (two_step (fun n => (S k <= n)%nat -> Q (S k) n 1 = INR (fact (n + S k)) / (2 ^ S k * INR (fact (S k)) * INR (fact (n - S k))))); [lia| |].
    + intros H1. assert (k = 0)%nat by lia. subst k. rewrite Q_1. change (Q 0 0 1) with 1. cbn. field.
    + intros n A B Hn. rewrite Q_rec, IH by lia.
      assert (P2 : 2 ^ k <> 0) by (apply pow_nonzero; lra). pose proof (INR_fact_neq_0 k) as Fk. pose proof (pos_INR k) as Pk.
      destruct (Nat.lt_trichotomy n (S k)) as [Hc|[Hc|Hc]].
      * (* n = k or n = k - 1 *)
        rewrite Q_high by lia. assert (n = k \/ S n = k)%nat as [->|<-] by lia.
        -- replace (S k - k)%nat with 1%nat by lia. replace (S (S k) - S k)%nat with 1%nat by lia. replace (S (S k) + S k)%nat with (S (S (S k + k))) by lia.
           change (fact 1) with 1%nat. rewrite (fact_simpl (S (S k + k))), (fact_simpl (S k + k)), (fact_simpl k), !mult_INR, !S_INR, !plus_INR, !S_INR. cbn [pow INR]. field. repeat split; try assumption; lra.
        -- replace (S n - S n)%nat with 0%nat by lia. replace (S (S n) - S (S n))%nat with 0%nat by lia. replace (S (S n) + S (S n))%nat with (S (S (S n + S n))) by lia.
           change (fact 0) with 1%nat. rewrite (fact_simpl (S (S n + S n))), (fact_simpl (S n + S n)), (fact_simpl (S n)), !mult_INR, !S_INR, !plus_INR, !S_INR. rewrite S_INR in Pk. cbn [pow INR] in *. field. repeat split; try assumption; try lra.
      * subst n. rewrite A by lia. replace (S k - S k)%nat with 0%nat by lia. replace (S (S (S k)) - S k)%nat with 2%nat by lia. replace (S (S k) - k)%nat with 2%nat by lia. change (INR (fact 0)) with 1. replace (INR (fact 2)) with 2 by (cbn; ring).
        replace (S (S (S k)) + S k)%nat with (S (S (S k + S k))) by lia. replace (S (S k) + k)%nat with (S k + S k)%nat by lia.
        rewrite (fact_simpl (S (S k + S k))), (fact_simpl (S k + S k)), (fact_simpl k), !mult_INR, !S_INR, !plus_INR, !S_INR. cbn [pow]. field. repeat split; try assumption; try lra.
      * rewrite A by lia. destruct (Nat.le_exists_sub (S (S k)) n) as (d & Ed & _); [lia|].
        replace (S n - k)%nat with (S (S (S d))) by lia. replace (n - S k)%nat with (S d) by lia. replace (S (S n) - S k)%nat with (S (S (S d))) by lia.
        replace (n + S k)%nat with (S n + k)%nat by lia. replace (S (S n) + S k)%nat with (S (S (S n + k))) by lia.
        rewrite (fact_simpl (S (S n + k))), (fact_simpl (S n + k)), (fact_simpl k), (fact_simpl (S (S d))), (fact_simpl (S d)), !mult_INR, !S_INR, !plus_INR, !S_INR.
        rewrite Ed, plus_INR, !S_INR. pose proof (pos_INR d). pose proof (INR_fact_neq_0 (S d)). cbn [pow]. field. repeat split; try assumption; lra.
Qed.
Lemma Q_ex k n t : ex_derive (Q k n) t. Proof. eexists. apply Q_derive. Qed.
Lemma Q_continuous k n t : continuous (Q k n) t.
Proof. apply (ex_derive_continuous (K := R_AbsRing) (V := R_NormedModule) (Q k n) t). apply Q_ex. Qed.
