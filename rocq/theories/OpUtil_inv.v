(** Proofs: the Slater interaction is hermitian and invariant under orbital rotations. *)
From Coq Require Import ZArith String List Bool Reals Lia Lra Setoid Morphisms Ring.
From Coquelicot Require Import Complex.
From Verif Require Import Base Indices Scalar Fock OpModel OpExpr Op_proofs RealAtom UMatrix OpUtil OpUtilSpec OpAlg OpBody
  OpUtil_base OpUtil_ham OpUtil_phys UMatrix_proofs UMatrix_inv OpUtil_L OpUtil_rot.
Import ListNotations.

Section Inv.
  Add Ring KringI : (sl_ring CS CS_laws).
  Local Open Scope K_scope.
  Notation L := CS_laws.
  Notation Sm := (Sm CS).

  Lemma invariant_lin n (x y : CS) (M M' : nat -> nat -> C) U : invariant_under n M U -> invariant_under n M' U ->
    invariant_under n (fun i j => x * (M i j : CS) + y * (M' i j : CS)) U.
  Proof.
    intros H H' i j k l Hi Hj Hk Hl. specialize (H i j k l Hi Hj Hk Hl). specialize (H' i j k l Hi Hj Hk Hl).
    assert (El : forall (a b c : nat -> CS), Sm (seq 0 n) (fun q => (x * a q + y * b q) * c q) = x * Sm (seq 0 n) (fun q => a q * c q) + y * Sm (seq 0 n) (fun q => b q * c q)).
    { intros. rewrite <- !(Sm_mul_l CS L), <- (Sm_add CS L). apply Sm_ext. intros. ring. }
    assert (Er : forall (a b c : nat -> CS), Sm (seq 0 n) (fun q => c q * (x * a q + y * b q)) = x * Sm (seq 0 n) (fun q => c q * a q) + y * Sm (seq 0 n) (fun q => c q * b q)).
    { intros. rewrite <- !(Sm_mul_l CS L), <- (Sm_add CS L). apply Sm_ext. intros. ring. }
    rewrite (El (fun b => M i b) (fun b => M' i b)), (El (fun b => M j b) (fun b => M' j b)), (Er (fun b => M b k) (fun b => M' b k)), (Er (fun b => M b l) (fun b => M' b l)).
    match goal with |- x * ?a1 + y * ?b1 + (x * ?a2 + y * ?b2) = x * ?a3 + y * ?b3 + (x * ?a4 + y * ?b4) =>
      transitivity (x * (a1 + a2) + y * (b1 + b2)); [ring|]; transitivity (x * (a3 + a4) + y * (b3 + b4)); [|ring]; exact (f_equal2 (fun u v : CS => x * u + y * v) H H') end.
  Qed.
  Lemma invariant_ext n (M M' : nat -> nat -> C) U : (forall i j, (i < n)%nat -> (j < n)%nat -> M i j = M' i j) -> invariant_under n M U -> invariant_under n M' U.
  Proof.
    intros E H i j k l Hi Hj Hk Hl. specialize (H i j k l Hi Hj Hk Hl).
    rewrite (sq_ext n _ (fun b => (M i b : CS) * (U b j k l : CS))) by (intros b Hb; rewrite E by assumption; reflexivity).
    rewrite (sq_ext n (fun b => (M' j b : CS) * (U i b k l : CS)) (fun b => (M j b : CS) * (U i b k l : CS))) by (intros b Hb; rewrite E by assumption; reflexivity).
    rewrite (sq_ext n (fun b => (U i j b l : CS) * (M' b k : CS)) (fun b => (U i j b l : CS) * (M b k : CS))) by (intros b Hb; rewrite E by assumption; reflexivity).
    rewrite (sq_ext n (fun b => (U i j k b : CS) * (M' b l : CS)) (fun b => (U i j k b : CS) * (M b l : CS))) by (intros b Hb; rewrite E by assumption; reflexivity).
    exact H.
  Qed.

  Section Slater.
    Context (l : nat) (F : list R).
    Notation n := (2 * l + 1)%nat.
    Hypothesis HS : small n.
    Notation U := (slater_spherical l F).
    Definition zz (a : nat) : Z := (Z.of_nat a - Z.of_nat l)%Z.
    Lemma U_z a b c d : U a b c d = RtoC (slater_z l F (zz a) (zz b) (zz c) (zz d)). Proof. reflexivity. Qed.
    Lemma zz_range a : (a < n)%nat -> in_range (Z.of_nat l) (zz a). Proof. unfold in_range, zz. lia. Qed.
    Lemma upc_ladder a : (a < n)%nat -> upc n a = ladder (Z.of_nat l) (zz a).
    Proof.
      intros H. unfold upc, ladder, zz. f_equal. rewrite INR_IZR_INZ. f_equal. rewrite Nat2Z.inj_mul, Nat2Z.inj_succ, Nat2Z.inj_sub, Nat2Z.inj_sub by lia. lia.
    Qed.
    Lemma row_z i (G : Z -> R) : (i < n)%nat ->
      Sm (seq 0 n) (fun b => (L_matrix n CP i b : CS) * (RtoC (G (zz b)) : CS)) = (RtoC (ladder (Z.of_nat l) (zz i - 1) * G (zz i - 1)%Z) : CS).
    Proof.
      intros H. rewrite (row_plus n HS i (fun b => RtoC (G (zz b)))) by exact H. destruct i as [|b].
      - replace (zz 0 - 1)%Z with (- Z.of_nat l - 1)%Z by (unfold zz; lia). rewrite ladder_bot. change (RtoC 0 = RtoC (0 * G (- Z.of_nat l - 1)%Z)). f_equal. ring.
      - rewrite upc_ladder by lia. replace (zz (Datatypes.S b) - 1)%Z with (zz b) by (unfold zz; lia). symmetry. exact (RtoC_mult _ _).
    Qed.
    Lemma col_z k (G : Z -> R) : (k < n)%nat ->
      Sm (seq 0 n) (fun b => (RtoC (G (zz b)) : CS) * (L_matrix n CP b k : CS)) = (RtoC (ladder (Z.of_nat l) (zz k) * G (zz k + 1)%Z) : CS).
    Proof.
      intros H. rewrite (col_plus n HS k (fun b => RtoC (G (zz b)))) by exact H. destruct (Nat.ltb_spec (Datatypes.S k) n) as [Hk|Hk].
      - rewrite upc_ladder by lia. replace (zz k + 1)%Z with (zz (Datatypes.S k)) by (unfold zz; lia). rewrite Rmult_comm. symmetry. exact (RtoC_mult _ _).
      - replace (zz k) with (Z.of_nat l) by (unfold zz; lia). rewrite ladder_top. change (RtoC 0 = RtoC (0 * G (Z.of_nat l + 1)%Z)). f_equal. ring.
    Qed.
    Lemma inv_plus : invariant_under n (L_matrix n CP) U.
    Proof.
      intros i j k m Hi Hj Hk Hm.
      etransitivity; [exact (f_equal2 (@kadd CS) (row_z i (fun z => slater_z l F z (zz j) (zz k) (zz m)) Hi) (row_z j (fun z => slater_z l F (zz i) z (zz k) (zz m)) Hj))|].
      symmetry. etransitivity; [exact (f_equal2 (@kadd CS) (col_z k (fun z => slater_z l F (zz i) (zz j) z (zz m)) Hk) (col_z m (fun z => slater_z l F (zz i) (zz j) (zz k) z) Hm))|]. symmetry.
      pose proof (slater_z_raise l F (zz i) (zz j) (zz k) (zz m) (zz_range i Hi) (zz_range j Hj) (zz_range k Hk) (zz_range m Hm)) as E.
      etransitivity; [symmetry; exact (RtoC_plus _ _)|]. etransitivity; [|exact (RtoC_plus _ _)]. exact (f_equal RtoC E).
    Qed.
    Lemma U_transpose a b c d : U a b c d = U c d a b.
    Proof. rewrite !U_z, slater_z_transpose. reflexivity. Qed.
    Lemma U_swap a b c d : U a b c d = U b a d c.
    Proof. rewrite !U_z, slater_z_swap. reflexivity. Qed.
    Lemma U_conserves a b c d : (a + b <> c + d)%nat -> U a b c d = RtoC 0.
    Proof. intros H. rewrite U_z, slater_z_conserves; [reflexivity|]. unfold zz. lia. Qed.
    Lemma L_pm o o' : (o < n)%nat -> (o' < n)%nat -> L_matrix n CM o o' = L_matrix n CP o' o.
    Proof. intros H H'. rewrite (L_minus n HS), (L_plus n HS) by assumption. rewrite Nat.eqb_sym. reflexivity. Qed.
    Lemma inv_minus : invariant_under n (L_matrix n CM) U.
    Proof.
      intros i j k m Hi Hj Hk Hm. pose proof (inv_plus k m i j Hk Hm Hi Hj) as E. symmetry.
      etransitivity; [|etransitivity; [exact E|]]; f_equal; apply (sq_ext n); intros b Hb; rewrite L_pm by assumption;
        first [rewrite (U_transpose i j b m) | rewrite (U_transpose i j k b) | rewrite (U_transpose k m b j) | rewrite (U_transpose k m i b)]; ring.
    Qed.
    Lemma inv_z : invariant_under n (L_matrix n CZ) U.
    Proof.
      intros i j k m Hi Hj Hk Hm.
      rewrite (sq_single n i), (sq_single n j), (sq_single n k), (sq_single n m); try assumption.
      - rewrite !(L_z n HS), !Nat.eqb_refl by assumption.
        destruct (Nat.eq_dec (i + j) (k + m)) as [E|E].
        + assert (INR i = INR k + INR m - INR j)%R as Er. { assert (INR i + INR j = INR k + INR m)%R by (rewrite <- !plus_INR; f_equal; exact E). lra. }
          rewrite Er. generalize (U i j k m) ((INR n - 1) / 2)%R. intros [u v] h. apply injective_projections; cbn; ring.
        + rewrite (U_conserves i j k m E). change (RtoC 0) with (@k0 CS). ring.
      - intros b Hb Hne. rewrite (L_z n HS) by assumption. destruct (Nat.eqb_spec b m); [contradiction|]. change (RtoC 0) with (@k0 CS). ring.
      - intros b Hb Hne. rewrite (L_z n HS) by assumption. destruct (Nat.eqb_spec b k); [contradiction|]. change (RtoC 0) with (@k0 CS). ring.
      - intros b Hb Hne. rewrite (L_z n HS) by assumption. destruct (Nat.eqb_spec j b); [congruence|]. change (RtoC 0) with (@k0 CS). ring.
      - intros b Hb Hne. rewrite (L_z n HS) by assumption. destruct (Nat.eqb_spec i b); [congruence|]. change (RtoC 0) with (@k0 CS). ring.
    Qed.
    Lemma inv_all c : invariant_under n (L_matrix n c) U.
    Proof.
      destruct c.
      - apply (invariant_ext n (fun i j => (half : CS) * (L_matrix n CP i j : CS) + (half : CS) * (L_matrix n CM i j : CS))); [|apply invariant_lin; [apply inv_plus|apply inv_minus]].
        intros i j _ _. rewrite L_x. match goal with |- ?a = ?b => change (@eq (K CS) a b) end.
        change (Cmult half (Cplus (L_matrix n CP i j) (L_matrix n CM i j))) with ((half : CS) * ((L_matrix n CP i j : CS) + (L_matrix n CM i j : CS))). ring.
      - apply (invariant_ext n (fun i j => (Copp (Cmult half Ci) : CS) * (L_matrix n CP i j : CS) + (- (Copp (Cmult half Ci) : CS)) * (L_matrix n CM i j : CS))); [|apply invariant_lin; [apply inv_plus|apply inv_minus]].
        intros i j _ _. rewrite L_y. match goal with |- ?a = ?b => change (@eq (K CS) a b) end.
        change (Cmult (Copp (Cmult half Ci)) (Cminus (L_matrix n CP i j) (L_matrix n CM i j))) with ((Copp (Cmult half Ci) : CS) * ((L_matrix n CP i j : CS) - (L_matrix n CM i j : CS))). ring.
      - apply inv_z.
      - apply inv_plus.
      - apply inv_minus.
    Qed.
  End Slater.

  Lemma csum4_swap n (f : nat -> nat -> nat -> nat -> C) :
    csum_n n (fun a => csum_n n (fun b => csum_n n (fun c => csum_n n (fun d => f a b c d)))) =
    csum_n n (fun c => csum_n n (fun d => csum_n n (fun a => csum_n n (fun b => f a b c d)))).
  Proof.
    transitivity (csum_n n (fun a => csum_n n (fun c => csum_n n (fun b => csum_n n (fun d => f a b c d))))).
    - apply csum_ext. intros a _. apply (csum_swap n (fun b c => csum_n n (fun d => f a b c d))).
    - rewrite (csum_swap n (fun a c => csum_n n (fun b => csum_n n (fun d => f a b c d)))). apply csum_ext. intros c _.
      transitivity (csum_n n (fun a => csum_n n (fun d => csum_n n (fun b => f a b c d)))).
      + apply csum_ext. intros a _. apply (csum_swap n (fun b d => f a b c d)).
      + apply (csum_swap n (fun a d => csum_n n (fun b => f a b c d))).
  Qed.
  Lemma transform_dag n (U : tensor4) T i j k l :
    Cconj (transform_U_matrix n U T k l i j) = transform_U_matrix n (fun a b c d => Cconj (U c d a b)) T i j k l.
  Proof.
    unfold transform_U_matrix. rewrite csum4_swap, csum_conj.
    apply csum_ext. intros a _. rewrite csum_conj. apply csum_ext. intros b _. rewrite csum_conj. apply csum_ext. intros c _. rewrite csum_conj. apply csum_ext. intros d _.
    unfold Cconj, Cmult. cbn. f_equal; ring.
  Qed.
End Inv.
