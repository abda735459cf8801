(** Proofs: the Hamiltonians built from the interaction matrices of U_matrix.py. *)
From Coq Require Import ZArith String List Bool Reals Lia Lra Setoid Morphisms Ring.
From Coquelicot Require Import Complex.
From Verif Require Import Base Indices Scalar Fock OpModel OpExpr Op_proofs RealAtom UMatrix OpUtil OpUtilSpec OpAlg OpBody
  OpUtil_base OpUtil_ham OpUtil_phys OpAng UMatrix_proofs UMatrix_inv UMatrix_neg OpUtil_L OpUtil_rot OpUtil_inv OpUtil_thms OpUtil_thm2 OpUtil_thm3 OpUtil_cub.
Import ListNotations.

Definition inbasis (n : nat) (T' : option (nat -> nat -> C)) (U : tensor4) : tensor4 := match T' with Some M => transform_U_matrix n U M | None => U end.
Lemma U_shape l radial Ui Jh b T U : U_matrix_slater l radial Ui Jh b T = Ok U ->
  exists F T', U = inbasis (2 * l + 1) T' (slater_spherical l F) /\
    match b with Cubic => exists M, spherical_to_cubic l Triqs = Ok M /\ T' = Some M | Other => T' = T /\ T <> None | Spherical => T' = T end /\
    match radial with Some F' => F = F' | None => exists u j, Ui = Some u /\ Jh = Some j /\ U_J_to_radial_integrals l u j = Ok F end.
Proof.
  unfold U_matrix_slater. intros EU.
  match type of EU with bind ?m _ = _ => destruct m as [F| |] eqn:EF; try discriminate EU end. cbn [bind] in EU. exists F.
  assert (HF : match radial with Some F' => F = F' | None => exists u j, Ui = Some u /\ Jh = Some j /\ U_J_to_radial_integrals l u j = Ok F end).
  { destruct radial as [F'|].
    - destruct Ui as [u|], Jh as [j|]; try (injection EF as <-; reflexivity). destruct (length F' =? l + 1)%nat; [|discriminate EF]. destruct (U_J_to_radial_integrals l u j); try discriminate EF. injection EF as <-. reflexivity.
    - destruct Ui as [u|], Jh as [j|]; try discriminate EF. exists u, j. auto. }
  destruct b.
  - exists T. cbn [bind] in EU. split; [|split; [reflexivity|exact HF]]. destruct T; injection EU as <-; reflexivity.
  - destruct (spherical_to_cubic l Triqs) as [M| |] eqn:EM; try discriminate EU. exists (Some M). cbn [bind] in EU. injection EU as <-. split; [reflexivity|]. split; [exists M; split; reflexivity|exact HF].
  - destruct T as [M|]; [|discriminate EU]. exists (Some M). injection EU as <-. split; [reflexivity|]. split; [split; [reflexivity|discriminate]|exact HF].
Qed.

Lemma csum2_swap n (f : nat -> nat -> C) : csum_n n (fun j => csum_n n (fun k => f j k)) = csum_n n (fun k => csum_n n (fun j => f j k)).
Proof. apply csum_swap. Qed.
Lemma inbasis_swap n T' U : (forall a b c d, U a b c d = U b a d c) -> forall i j k m, inbasis n T' U i j k m = inbasis n T' U j i m k.
Proof.
  intros H i j k m. destruct T' as [M|]; cbn [inbasis]; [|apply H].
  unfold transform_U_matrix. rewrite csum2_swap. apply csum_ext. intros a _. apply csum_ext. intros b _. rewrite csum2_swap. apply csum_ext. intros c _. apply csum_ext. intros d _.
  rewrite (H b a d c). ring.
Qed.
Lemma transform_congr n (U V : tensor4) T i j k l : (forall a b c d, U a b c d = V a b c d) -> transform_U_matrix n U T i j k l = transform_U_matrix n V T i j k l.
Proof. intros H. unfold transform_U_matrix. do 4 (apply csum_ext; intros ? _). rewrite H. reflexivity. Qed.
Lemma inbasis_dag n T' U : (forall a b c d, Cconj (U c d a b) = U a b c d) -> forall i j k m, Cconj (inbasis n T' U k m i j) = inbasis n T' U i j k m.
Proof.
  intros H i j k m. destruct T' as [M|]; cbn [inbasis]; [|apply H]. rewrite transform_dag. apply transform_congr. exact H.
Qed.
Lemma slater_dag l F a b c d : Cconj (slater_spherical l F c d a b) = slater_spherical l F a b c d.
Proof. rewrite slater_real. symmetry. apply U_transpose. Qed.

Theorem matrix_symmetries l radial Ui Jh b T U : U_matrix_slater l radial Ui Jh b T = Ok U ->
  (forall i j k m, U i j k m = U j i m k) /\ (forall i j k m, Cconj (U k m i j) = U i j k m).
Proof.
  intros E. destruct (U_shape l radial Ui Jh b T U E) as (F & T' & -> & _). split.
  - apply inbasis_swap. apply U_swap.
  - apply inbasis_dag. apply slater_dag.
Qed.
Theorem matrix_real l radial Ui Jh b T U : U_matrix_slater l radial Ui Jh b T = Ok U -> (b = Cubic /\ (0 < l)%nat) \/ (b = Spherical /\ T = None) ->
  forall i j k m, (i < 2 * l + 1)%nat -> (j < 2 * l + 1)%nat -> (k < 2 * l + 1)%nat -> (m < 2 * l + 1)%nat -> snd (U i j k m) = 0%R.
Proof.
  intros E Hb i j k m Hi Hj Hk Hm. destruct (U_shape l radial Ui Jh b T U E) as (F & T' & -> & HT & _).
  assert (HC : Cconj (inbasis (2 * l + 1) T' (slater_spherical l F) i j k m) = inbasis (2 * l + 1) T' (slater_spherical l F) i j k m).
  { destruct Hb as [[-> Hl]|[-> ->]].
    - destruct HT as (M & EM & ->). cbn [inbasis]. apply cubic_real; assumption.
    - subst T'. cbn [inbasis]. apply slater_real. }
  destruct (inbasis _ _ _ i j k m) as [u v]. unfold Cconj in HC. cbn in HC. injection HC as HC. cbn. lra.
Qed.
Theorem matrix_conserves l radial Ui Jh U : U_matrix_slater l radial Ui Jh Spherical None = Ok U -> forall i j k m, (i + j <> k + m)%nat -> U i j k m = RtoC 0.
Proof.
  intros E i j k m H. destruct (U_shape l radial Ui Jh _ _ U E) as (F & T' & -> & -> & _). cbn [inbasis]. apply U_conserves. exact H.
Qed.

(** ---- the mean of the direct integrals in any unitary basis ---- *)
Section Mean.
  Add Ring KringMn : (sl_ring CS CS_laws).
  Local Open Scope K_scope.
  Notation L := CS_laws.
  Notation Sm := (Sm CS).
  Lemma pair_trace n T (HU : unitary n T) (X : nat -> nat -> CS) : Sm (seq 0 n) (fun i => A n T (fun a => B n T (fun c => X a c) i) i) = Sm (seq 0 n) (fun a => X a a).
  Proof.
    unfold A.
    transitivity (Sm (seq 0 n) (fun a => Sm (seq 0 n) (fun i => cT T i a * B n T (fun c => X a c) i))); [apply (Sm_swap CS L)|].
    apply Sm_ext. intros a Ha. apply in_seq in Ha. unfold B.
    transitivity (Sm (seq 0 n) (fun c => X a c * Sm (seq 0 n) (fun i => cT T i a * tT T i c))).
    - transitivity (Sm (seq 0 n) (fun i => Sm (seq 0 n) (fun c => X a c * (cT T i a * tT T i c)))).
      + apply Sm_ext. intros i _. rewrite <- (Sm_mul_l CS L). apply Sm_ext. intros c _. ring.
      + rewrite (Sm_swap CS L). apply Sm_ext. intros c _. rewrite <- (Sm_mul_l CS L). reflexivity.
    - transitivity (Sm (seq 0 n) (fun c => if (a =? c)%nat then X a c else k0)).
      + apply Sm_ext. intros c Hc. apply in_seq in Hc. rewrite (HU' n T HU a c) by lia. destruct (Nat.eqb a c); ring.
      + rewrite (Sm_single CS L (seq 0 n) a _ (seq_NoDup n 0)); [rewrite Nat.eqb_refl; reflexivity|apply in_seq; lia|]. intros c _ Hne. destruct (Nat.eqb_spec a c); [congruence|reflexivity].
  Qed.
  Ltac tK := match goal with |- ?a = ?b => change (@eq (K CS) a b) end.
  Lemma trace2 n T' (HU : unit_opt n T') (U : tensor4) :
    csum_n n (fun i => csum_n n (fun j => inbasis n T' U i j i j)) = csum_n n (fun a => csum_n n (fun b => U a b a b)).
  Proof.
    destruct T' as [T|]; cbn [inbasis]; [|reflexivity]. cbn [unit_opt] in HU.
    transitivity (Sm (seq 0 n) (fun i => Sm (seq 0 n) (fun j => A n T (fun a => A n T (fun b => B n T (fun c => B n T (fun d => (U a b c d : CS)) j) i) j) i))).
    - etransitivity; [exact (csum_Sm n _)|]. tK. apply Sm_ext. intros i _. etransitivity; [exact (csum_Sm n _)|]. tK. apply Sm_ext. intros j _. apply transform_AB.
    - transitivity (Sm (seq 0 n) (fun i => A n T (fun a => B n T (fun c => Sm (seq 0 n) (fun b => (U a b c b : CS))) i) i)).
      + tK. apply Sm_ext. intros i _.
        transitivity (A n T (fun a => Sm (seq 0 n) (fun j => A n T (fun b => B n T (fun c => B n T (fun d => (U a b c d : CS)) j) i) j)) i).
        * unfold A at 1 3. rewrite (Sm_swap CS L). apply Sm_ext. intros a _. rewrite <- (Sm_mul_l CS L). reflexivity.
        * apply A_ext. intros a _.
          transitivity (Sm (seq 0 n) (fun j => A n T (fun b => B n T (fun d => B n T (fun c => (U a b c d : CS)) i) j) j)).
          { apply Sm_ext. intros j _. apply A_ext. intros b _. unfold B.
            transitivity (Sm (seq 0 n) (fun c => Sm (seq 0 n) (fun d => (U a b c d : CS) * tT T j d * tT T i c))); [apply Sm_ext; intros c _; rewrite (Sm_mul_r CS L); reflexivity|].
            rewrite (Sm_swap CS L). apply Sm_ext. intros d _. rewrite <- (Sm_mul_r CS L). apply Sm_ext. intros c _. ring. }
          rewrite (pair_trace n T HU (fun b d => B n T (fun c => (U a b c d : CS)) i)). unfold B. rewrite (Sm_swap CS L). apply Sm_ext. intros c _. rewrite (Sm_mul_r CS L). reflexivity.
      + tK. rewrite (pair_trace n T HU (fun a c => Sm (seq 0 n) (fun b => (U a b c b : CS)))). symmetry. etransitivity; [exact (csum_Sm n _)|]. tK. apply Sm_ext. intros a _. exact (csum_Sm n _).
  Qed.
End Mean.
Lemma csum_rsum l (f : Z -> R) : csum_n (2 * l + 1) (fun a => RtoC (f (zz l a))) = RtoC (rsum (zrange (- Z.of_nat l) (Z.of_nat l + 1)) f).
Proof.
  unfold zrange. replace (Z.to_nat (Z.of_nat l + 1 - - Z.of_nat l)) with (2 * l + 1)%nat by lia. rewrite rsum_map. unfold csum_n. unfold zz.
  induction (seq 0 (2 * l + 1)) as [|a q IH]; [reflexivity|]. cbn [fold_right]. rewrite rsum_cons, RtoC_plus, IH. do 3 f_equal. lia.
Qed.
Theorem mean_U l radial Ui Jh b T U : U_matrix_slater l radial Ui Jh b T = Ok U -> good_basis (2 * l + 1) b T ->
  exists F0, (match radial with Some F => F0 = nth 0 F 0%R | None => Ui = Some F0 end) /\
    csum_n (2 * l + 1) (fun i => csum_n (2 * l + 1) (fun j => U i j i j)) = RtoC (INR ((2 * l + 1) ^ 2) * F0).
Proof.
  intros E HG. destruct (U_shape l radial Ui Jh b T U E) as (F & T' & -> & HT & HF). exists (nth 0 F 0%R). split.
  - destruct radial as [F'|]; [subst; reflexivity|]. destruct HF as (u & j & -> & -> & HF). destruct l as [|[|[|[|l]]]]; cbn [U_J_to_radial_integrals] in HF; try discriminate HF; injection HF as <-; reflexivity.
  - assert (HU : unit_opt (2 * l + 1) T').
    { destruct b; cbn [good_basis] in HG.
      - subst T'. destruct T; exact HG.
      - destruct HT as (M & EM & ->). cbn [unit_opt]. apply (cubic_unitary l Triqs); [lia|exact EM].
      - destruct HT as (-> & _). destruct HG as (M & -> & HM). exact HM. }
    rewrite (trace2 (2 * l + 1) T' HU).
    transitivity (csum_n (2 * l + 1) (fun a => RtoC (rsum (zrange (- Z.of_nat l) (Z.of_nat l + 1)) (fun m' => slater_z l F (zz l a) m' (zz l a) m')))).
    + apply csum_ext. intros a _. rewrite <- csum_rsum. reflexivity.
    + rewrite (csum_rsum l (fun m => rsum (zrange (- Z.of_nat l) (Z.of_nat l + 1)) (fun m' => slater_z l F m m' m m'))), average_U. f_equal. f_equal.
      rewrite INR_IZR_INZ. f_equal. rewrite Nat2Z.inj_pow. f_equal. lia.
Qed.

Section Ham.
  Add Ring KringHm : (sl_ring CS CS_laws).
  Local Open Scope K_scope.
  Notation L := CS_laws.
  Infix "==" := (eqv CS) (at level 70).
  Notation cf := (cf CS).
  Local Instance cf_mHm : Proper (eqv CS ==> eq ==> eq) (OpAlg.cf CS) := cf_m CS L.
  Context (off : option bool) (mp : option dict) (spins : list string) (n : nat) (lab : string -> nat -> indices).
  Hypothesis HL : labelled off mp spins n lab.
  Notation ks := (ks spins n). Notation mk2 := (mk2 lab).
  Notation obk := (ob CS mk2 ks). Notation qk := (quart CS mk2 ks).

  Lemma slater_real_case l radial Ui Jh b T U : n = (2 * l + 1)%nat -> good_basis n b T -> U_matrix_slater l radial Ui Jh b T = Ok U ->
    b = Cubic \/ (b = Spherical /\ T = None) -> forall i j k m, (i < n)%nat -> (j < n)%nat -> (k < n)%nat -> (m < n)%nat -> snd (U i j k m) = 0%R.
  Proof.
    intros -> HG E Hb. apply (matrix_real l radial Ui Jh b T U E). destruct Hb as [->|Hb]; [left|right; exact Hb]. split; [reflexivity|]. cbn [good_basis] in HG. lia.
  Qed.
  Theorem thm_slater_rotation l radial Ui Jh b T U cpx : n = (2 * l + 1)%nat -> small n -> good_basis n b T -> U_matrix_slater l radial Ui Jh b T = Ok U ->
    (cpx = true \/ b = Cubic \/ (b = Spherical /\ T = None)) ->
    exists H, h_int_slater spins n U off mp cpx = Ok H /\ hermitian H /\ forall c X, L_op c spins n off mp b T = Ok X -> commute H X.
  Proof.
    intros En HS HG EU Hc.
    assert (HR : cpx = true \/ forall a b' c d, (a < n)%nat -> (b' < n)%nat -> (c < n)%nat -> (d < n)%nat -> snd (U a b' c d) = 0%R).
    { destruct Hc as [Hc|Hc]; [left; exact Hc|right]. exact (slater_real_case l radial Ui Jh b T U En HG EU Hc). }
    assert (HA : accepted cpx U n).
    { destruct HR as [->|HR]; [left; reflexivity|right]. intros. rewrite HR by assumption. rewrite Rabs_R0. left. apply Rinv_0_lt_compat. apply pow_lt. lra. }
    destruct (slater_ok off mp spins n lab HL U cpx HA) as (H & E & _). exists H. split; [exact E|]. split.
    - apply (thm_hermitian_slater off mp spins n lab HL U cpx H HA E). intros i j k m _ _ _ _. apply (matrix_symmetries l radial Ui Jh b T U EU).
    - exact (thm_slater_L off mp spins n lab HL HS l radial Ui Jh b T U cpx H En HG EU HR E).
  Qed.

  (** ---- Kanamori ---- *)
  Definition c2 (U : nat -> nat -> R) : nat -> nat -> C := fun i j => RtoC (U i j).
  Theorem thm_kanamori_slater U J Up : exists HK HS, h_int_kanamori spins n (c2 (fst (kanamori_2 U J Up))) (c2 (snd (kanamori_2 U J Up))) (RtoC J) off mp = Ok HK /\
    h_int_slater spins n (kanamori_4 U J Up None) off mp false = Ok HS /\ same_op HK HS.
  Proof.
    destruct (kanamori_ok off mp spins n lab HL (c2 (fst (kanamori_2 U J Up))) (c2 (snd (kanamori_2 U J Up))) (RtoC J)) as (HK & EK & HKq).
    assert (HA : accepted false (kanamori_4 U J Up None) n).
    { right. intros. unfold kanamori_4. cbn. rewrite Rabs_R0. left. apply Rinv_0_lt_compat. apply (pow_lt 10 10). lra. }
    destruct (slater_ok off mp spins n lab HL (kanamori_4 U J Up None) false HA) as (HS & ES & HSq). exists HK, HS. split; [exact EK|]. split; [exact ES|].
    change same_op with (eqv CS). rewrite HKq, HSq.
    rewrite (kanamori_slater off mp spins n lab HL).
    - apply (quart_ext CS L). intros [s1 a1] [s2 a2] [s3 a3] [s4 a4] _ _ _ _. unfold slater_V. cbn [fst snd]. destruct (_ && _)%bool; [|reflexivity].
      unfold kan_tensor, used, kanamori_4, kanamori_2, c2. cbn [fst snd]. set (u := match Up with Some u => u | None => _ end).
      match goal with |- @eq _ (Cmult half ?a) (Cmult half ?b) => assert (Ex : a = b); [|rewrite Ex; reflexivity] end.
      destruct (Nat.eqb_spec a1 a2), (Nat.eqb_spec a2 a3), (Nat.eqb_spec a3 a4), (Nat.eqb_spec a1 a3), (Nat.eqb_spec a2 a4), (Nat.eqb_spec a1 a4); cbn [andb]; try reflexivity; congruence.
    - intros a _. unfold c2, kanamori_2. cbn [fst]. rewrite Nat.eqb_refl. reflexivity.
    - intros a b _ _ Hne. unfold c2, kanamori_2. cbn [fst snd]. destruct (Nat.eqb_spec a b); [contradiction|]. apply RtoC_minus.
  Qed.
End Ham.

Section Two2.
  Notation L := CS_laws.
  Infix "==" := (eqv CS) (at level 70).
  Context (off : option bool) (mp : option dict) (up dn : string) (n : nat) (lab : string -> nat -> indices).
  Hypothesis HL : labelled off mp [up; dn] n lab.
  (** Kanamori with U = U' - J between equal spins is spin-rotation invariant *)
  Theorem thm_kanamori_spin U Up J H : (forall a, (a < n)%nat -> U a a = RtoC 0) -> (forall a b, (a < n)%nat -> (b < n)%nat -> a <> b -> U a b = Cminus (Up a b) J) ->
    h_int_kanamori [up; dn] n U Up J off mp = Ok H -> forall c X, S_op c [up; dn] n off mp = Ok X -> commute H X.
  Proof.
    intros H0 H1 E c X EX. destruct (kanamori_ok off mp [up; dn] n lab HL U Up J) as (H' & E' & EH). rewrite E in E'. injection E' as <-.
    rewrite (kanamori_slater off mp [up; dn] n lab HL U Up J H0 H1) in EH.
    destruct (S_op_ok off mp up dn n lab HL c) as (X' & E' & HX). rewrite EX in E'. injection E' as <-.
    apply commute_sym. apply (commute_m _ _ _ _ HX EH). apply (commute_slater_spin [up; dn] n lab (HD2 off mp up dn n lab HL)).
  Qed.
  Theorem thm_LS b T : small n -> good_basis n b T -> exists JL JS, (forall c, L_op c [up; dn] n off mp b T = Ok (JL c)) /\ (forall c, S_op c [up; dn] n off mp = Ok (JS c)) /\
    (forall c c', commute (JL c) (JS c')) /\ exists X, LS_op [up; dn] n off mp b T = Ok X /\ same_op X (scalar_product JL JS).
  Proof.
    intros HS HG. destruct (good_unit n b T HG) as (T' & EB & HT). destruct (L_ops off mp [up; dn] n lab HL T' b T EB) as (JL & EL & HJL).
    destruct (S_ops off mp up dn n lab HL) as (JS & ES & HJS). exists JL, JS. split; [exact EL|]. split; [exact ES|]. split.
    - intros c c'. apply commute_sym. apply (commute_m _ _ _ _ (HJS c') (HJL c)). apply (commute_spin_orb [up; dn] n lab (HD2 off mp up dn n lab HL)).
    - eexists. split; [unfold LS_op; rewrite !EL, !ES; reflexivity|]. apply dot_formula.
      + apply (angular_m _ _ HJL). apply (LJ_ang off mp [up; dn] n lab HL T' HT HS).
      + apply (angular_m _ _ HJS). apply (SJ_ang off mp up dn n lab HL).
  Qed.
End Two2.
