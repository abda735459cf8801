(** A concrete problem: H = 9 n_0 + 16 n_1 + 12 (c+_0 c_1 + c+_1 c_0) over the rationals. *)
From Coq Require Import ZArith NArith List Arith Bool Lia Sorted QArith Qcanon.
From Verif Require Import Base Indices Scalar Fock OpModel OpExpr Hilbert ImpOp_run Partition AtomDiag AtomDiagSpec.
Import ListNotations.

Definition QS : scalar_ops := mkScalar Qc 0%Qc 1%Qc Qcplus Qcmult Qcminus Qcopp (fun x => x) (fun x => Qeq_bool x 0).
Lemma QS_laws : scalar_laws QS.
Proof.
  constructor; cbn; try reflexivity.
  - exact Qcrt.
  - intros x y H. apply Qcmult_integral. exact H.
  - exact Q_apart_0_1.
  - intros x. split; intros H; [apply Qc_is_canon, Qeq_bool_eq; exact H|subst x; reflexivity].
Qed.
Definition q_lt (x y : Qc) : bool := negb (Qle_bool y x).
Definition QE : energy_ops QS :=
  mkEnergy QS Qc q_lt Qcplus Qcminus (fun n => Q2Qc (Z.of_nat n # 10000000000)) (fun x => x).
Lemma q_lt_iff x y : q_lt x y = true <-> (x < y)%Qc.
Proof. unfold q_lt, Qclt. rewrite negb_true_iff. rewrite <- not_true_iff_false, Qle_bool_iff. split; [apply Qnot_le_lt|apply Qlt_not_le]. Qed.
Lemma QE_laws : energy_laws QS QE.
Proof.
  constructor.
  - intros x. change (q_lt x x = false). rewrite <- not_true_iff_false, q_lt_iff. apply Qlt_irrefl.
  - intros x y z. change (q_lt x y = true -> q_lt y z = true -> q_lt x z = true). rewrite !q_lt_iff. apply Qclt_trans.
  - intros x y. change (q_lt x y = false -> q_lt y x = false -> x = y). unfold q_lt. rewrite !negb_false_iff, !Qle_bool_iff. intros H1 H2. apply Qcle_antisym; assumption.
  - intros x y g. change (q_lt (x - g)%Qc (y - g)%Qc = q_lt x y). apply eq_true_iff_eq. rewrite !q_lt_iff. split; intros H.
    + apply Qclt_minus_iff in H. apply Qclt_minus_iff. replace (y + - x)%Qc with (y - g + - (x - g))%Qc by ring. exact H.
    + apply Qclt_minus_iff in H. apply Qclt_minus_iff. replace (y - g + - (x - g))%Qc with (y + - x)%Qc by ring. exact H.
  - intros x g. change ((x - g + g)%Qc = x). ring.
Qed.

Definition q (z : Z) : Qc := Q2Qc (z # 1).
Definition q5 (z : Z) : Qc := Q2Qc (z # 5).
Definition o0 : indices := [LInt 0]. Definition o1 : indices := [LInt 1].
Definition orbs2 : fops := [o0; o1].
Definition hop2 : expr QS := EMul (ECdag o0) (EC o1).
Definition ham2 : expr QS :=
  EAdd (EAdd (EMulS (EN o0) (q 9 : QS)) (EMulS (EN o1) (q 16 : QS))) (EMulS (EAdd hop2 (EDag hop2)) (q 12 : QS)).
Definition ham2_op : omap QS := match eval ham2 with Some op => op | None => [] end.

(** The closed sets of states are the unions of {0}, {1,2} and {3}. *)
Definition of_rows (rows : list (list Qc)) : mat QS :=
  mkMat (length rows) (length rows) (fun i j => nth j (nth i rows []) 0%Qc : QS).
Definition z0 := q 0. Definition o := q 1.
Definition eigen2_tab (n : nat) (m00 m01 : Qc) : list Qc * mat QS :=
  match n with
  | 1%nat => ([m00], of_rows [[o]])
  | 2%nat => if Qeq_bool m01 0 then ([q 0; q 25], of_rows [[o; z0]; [z0; o]])
             else ([q 0; q 25], of_rows [[q5 4; q5 3]; [q5 (-3); q5 4]])
  | 3%nat => if Qeq_bool m00 0 then ([q 0; q 0; q 25], of_rows [[o; z0; z0]; [z0; q5 4; q5 3]; [z0; q5 (-3); q5 4]])
             else ([q 0; q 25; q 25], of_rows [[q5 4; q5 3; z0]; [q5 (-3); q5 4; z0]; [z0; z0; o]])
  | _ => ([q 0; q 0; q 25; q 25], of_rows [[o; z0; z0; z0]; [z0; q5 4; q5 3; z0]; [z0; q5 (-3); q5 4; z0]; [z0; z0; z0; o]])
  end.
Definition eigen2 (m : mat QS) : list QE * mat QS := eigen2_tab (m_rows m) (m_at m 0 0) (m_at m 0 1).

Definition qeqb (x y : Qc) : bool := Qeq_bool x y.
Lemma qeqb_eq x y : qeqb x y = true -> x = y.
Proof. intros H. apply Qc_is_canon, Qeq_bool_eq, H. Qed.

(** a checker of decompositions *)
Definition all2 (n : nat) (p : nat -> nat -> bool) : bool := forallb (fun i => forallb (p i) (seq 0 n)) (seq 0 n).
Lemma all2_spec n p : all2 n p = true -> forall i j, (i < n)%nat -> (j < n)%nat -> p i j = true.
Proof.
  unfold all2. intros H i j Hi Hj. rewrite forallb_forall in H. specialize (H i). rewrite forallb_forall in H. apply H; apply in_seq; lia.
Qed.
Definition check (n : nat) (m : nat -> nat -> QS) (ev : list QE) (u : mat QS) : bool :=
  (length ev =? n)%nat && (m_rows u =? n)%nat && (m_cols u =? n)%nat &&
  all2 n (fun i j => qeqb (msum QS n (fun k => m_at u k i * m_at u k j)%Qc) (delta QS i j) && qeqb (msum QS n (fun k => m_at u i k * m_at u j k)%Qc) (delta QS i j)) &&
  all2 n (fun a b => negb (a <? b)%nat || match nth_error ev a, nth_error ev b with Some x, Some y => negb (q_lt y x) | _, _ => true end) &&
  all2 n (fun j i => qeqb (m j i) (msum QS n (fun a => m_at u j a * (energy QS QE ev a + 0) * m_at u i a)%Qc)).
Lemma check_ok n m m' ev u : check n m ev u = true -> (forall j i, (j < n)%nat -> (i < n)%nat -> m' j i = m j i) -> decomposes QS QE n m' ev u k0.
Proof.
  unfold check. rewrite !andb_true_iff. intros (((((H1 & H2) & H3) & H4) & H5) & H6) Hm. apply Nat.eqb_eq in H1, H2, H3.
  split; [exact H1|]. split; [exact H2|]. split; [exact H3|]. split; [|split].
  - intros i j Hi Hj. pose proof (all2_spec _ _ H4 i j Hi Hj) as H. cbv beta in H. apply andb_true_iff in H. destruct H as [Ha Hb]. split; apply qeqb_eq; assumption.
  - intros a b x y Hab Ha Hb. assert (La : (a < n)%nat) by (rewrite <- H1; apply nth_error_Some; congruence). assert (Lb : (b < n)%nat) by (rewrite <- H1; apply nth_error_Some; congruence).
    pose proof (all2_spec _ _ H5 a b La Lb) as H. cbv beta in H. rewrite Ha, Hb in H. apply orb_true_iff in H. destruct H as [H|H]; apply negb_true_iff in H; [apply Nat.ltb_ge in H; lia|exact H].
  - intros j i Hj Hi. rewrite (Hm j i Hj Hi). pose proof (all2_spec _ _ H6 j i Hj Hi) as H. apply qeqb_eq in H. exact H.
Qed.

Lemma ham2_eval : eval ham2 = Some ham2_op.
Proof. vm_compute. reflexivity. Qed.
Lemma ham2_uses j : uses ham2 j -> In j orbs2.
Proof. cbn. intuition (subst; auto). Qed.

(** sorted lists of states below 4 *)
Definition pick (b0 b1 b2 b3 : bool) : list N :=
  (if b0 then [0%N] else []) ++ (if b1 then [1%N] else []) ++ (if b2 then [2%N] else []) ++ (if b3 then [3%N] else []).
Lemma sorted_same (B C : list N) : StronglySorted N.lt B -> StronglySorted N.lt C -> (forall f, In f B <-> In f C) -> B = C.
Proof.
  intros HB. revert C. induction HB as [|x B HB IH HF]; intros C HC H.
  - destruct C as [|y C]; [reflexivity|]. destruct (proj2 (H y)). left; reflexivity.
  - inversion HC as [|y C' HC' HF']; subst C. { destruct (proj1 (H x)). left; reflexivity. }
    rewrite Forall_forall in HF, HF'. assert (Exy : x = y).
    { destruct (proj1 (H x) (or_introl eq_refl)) as [|Hx]; [congruence|]. destruct (proj2 (H y) (or_introl eq_refl)) as [|Hy]; [congruence|].
      specialize (HF y Hy). specialize (HF' x Hx). lia. }
    subst y. f_equal. apply IH; [exact HC'|]. intros f. split; intros Hf.
    + destruct (proj1 (H f) (or_intror Hf)) as [<-|]; [|assumption]. specialize (HF x Hf). lia.
    + destruct (proj2 (H f) (or_intror Hf)) as [<-|]; [|assumption]. specialize (HF' x Hf). lia.
Qed.
Definition mem (f : N) (B : list N) : bool := existsb (N.eqb f) B.
Lemma mem_In f B : mem f B = true <-> In f B.
Proof. unfold mem. rewrite existsb_exists. split; [intros (x & Hx & E); apply N.eqb_eq in E; subst; exact Hx|intros H; exists f; split; [exact H|apply N.eqb_refl]]. Qed.
Lemma below4 B : StronglySorted N.lt B -> (forall f, In f B -> (f < 4)%N) -> B = pick (mem 0 B) (mem 1 B) (mem 2 B) (mem 3 B).
Proof.
  intros HS HB. apply sorted_same; [exact HS| |].
  - destruct (mem 0 B), (mem 1 B), (mem 2 B), (mem 3 B); cbn; repeat constructor.
  - intros f. assert (G : In f (pick (mem 0 B) (mem 1 B) (mem 2 B) (mem 3 B)) <-> (f = 0 /\ In 0 B \/ f = 1 /\ In 1 B \/ f = 2 /\ In 2 B \/ f = 3 /\ In 3 B)%N).
    { rewrite <- (mem_In 0 B), <- (mem_In 1 B), <- (mem_In 2 B), <- (mem_In 3 B). generalize (mem 0 B) (mem 1 B) (mem 2 B) (mem 3 B). clear. intros c0 c1 c2 c3. unfold pick. rewrite !in_app_iff.
      assert (Q : forall (b : bool) x, In f (if b then [x] else []) <-> f = x /\ b = true).
      { intros [|] x; cbn; [|intuition discriminate]. split; [intros [H|[]]; auto|intros [H _]; auto]. }
      rewrite !Q. tauto. }
    rewrite G. split.
    + intros Hf. specialize (HB f Hf). assert (Q : (f = 0 \/ f = 1 \/ f = 2 \/ f = 3)%N) by lia. destruct Q as [Q|[Q|[Q|Q]]]; subst f; tauto.
    + intros [[Q H]|[[Q H]|[[Q H]|[Q H]]]]; subst f; exact H.
Qed.

Lemma solves2 : solves QS QE orbs2 ham2 eigen2.
Proof.
  intros B m Hne HS HB Hc Hr Hcl Hm. change (2 ^ N.of_nat (length orbs2))%N with 4%N in HB.
  pose proof (below4 B HS HB) as HBp.
  assert (C12 : mem 1 B = mem 2 B).
  { destruct (mem 1 B) eqn:E1, (mem 2 B) eqn:E2; try reflexivity; exfalso.
    - apply mem_In in E1. assert (N2 : ~ In 2%N B) by (rewrite <- mem_In, E2; discriminate). specialize (Hc 1%N 2%N E1 eq_refl N2).
      apply (f_equal (fun x => qeqb x 0)) in Hc. vm_compute in Hc. discriminate Hc.
    - apply mem_In in E2. assert (N1 : ~ In 1%N B) by (rewrite <- mem_In, E1; discriminate). specialize (Hc 2%N 1%N E2 eq_refl N1).
      apply (f_equal (fun x => qeqb x 0)) in Hc. vm_compute in Hc. discriminate Hc. }
  rewrite <- C12 in HBp. clear C12 Hc. revert HBp. generalize (mem 0 B) (mem 1 B) (mem 3 B). intros b0 b1 b3 HBp.
  assert (Hm' : forall j i, (j < length B)%nat -> (i < length B)%nat -> m_at m j i = bracket QS orbs2 ham2 (nth j B 0%N) (nth i B 0%N)).
  { intros j i Hj Hi. apply Hm; apply nth_error_nth'; assumption. }
  unfold eigen2. rewrite Hr. clear Hm HS HB.
  assert (E00 : m_at m 0 0 = bracket QS orbs2 ham2 (nth 0 B 0%N) (nth 0 B 0%N)) by (destruct B; [congruence|]; apply Hm'; cbn; lia).
  rewrite E00.
  assert (Go : forall m01, ((1 < length B)%nat -> m01 = bracket QS orbs2 ham2 (nth 0 B 0%N) (nth 1 B 0%N)) ->
    check (length B) (fun j i => bracket QS orbs2 ham2 (nth j B 0%N) (nth i B 0%N)) (fst (eigen2_tab (length B) (bracket QS orbs2 ham2 (nth 0 B 0%N) (nth 0 B 0%N)) m01))
      (snd (eigen2_tab (length B) (bracket QS orbs2 ham2 (nth 0 B 0%N) (nth 0 B 0%N)) m01)) = true).
  { intros m01 H01. destruct b0, b1, b3; cbn in HBp; subst B; try congruence;
    try (rewrite H01 by (cbn; lia)); vm_compute; reflexivity. }
  eapply check_ok; [apply Go|exact Hm']. intros H1. apply Hm'; lia.
Qed.

Lemma ham2_conserves : conserves_number QS orbs2 ham2.
Proof.
  intros f g Hf Hg. change (2 ^ N.of_nat (length orbs2))%N with 4%N in Hf, Hg. intros H.
  assert (Qf : In f [0; 1; 2; 3]%N) by (assert (Q : (f = 0 \/ f = 1 \/ f = 2 \/ f = 3)%N) by lia; cbn; intuition auto).
  assert (Qg : In g [0; 1; 2; 3]%N) by (assert (Q : (g = 0 \/ g = 1 \/ g = 2 \/ g = 3)%N) by lia; cbn; intuition auto).
  assert (C : forallb (fun f => forallb (fun g => qeqb (bracket QS orbs2 ham2 g f) 0 || (particles 2 g =? particles 2 f)%nat) [0; 1; 2; 3]%N) [0; 1; 2; 3]%N = true)
    by (vm_compute; reflexivity).
  rewrite forallb_forall in C. specialize (C f Qf). rewrite forallb_forall in C. specialize (C g Qg). apply orb_true_iff in C. destruct C as [C|C].
  - apply qeqb_eq in C. contradiction.
  - apply Nat.eqb_eq in C. exact C.
Qed.
