(** Proofs: the matrices of the orbital angular momentum, the invariance of the Slater
    matrix under them, and changes of basis. *)
From Coq Require Import ZArith String List Bool Reals Lia Lra Setoid Morphisms Ring.
From Coquelicot Require Import Complex.
From Verif Require Import Base Indices Scalar Fock OpModel OpExpr Op_proofs RealAtom UMatrix OpUtil OpUtilSpec OpAlg OpBody
  OpUtil_base OpUtil_ham OpUtil_phys UMatrix_proofs UMatrix_inv.
Import ListNotations.

(** ---- entries ---- *)
Definition small (n : nat) : Prop := (INR n <= 100000)%R.

Lemma isclose_ints (a b : R) (z : Z) : (a - b = IZR z)%R -> (Rabs b <= 50001)%R -> isclose a b = (z =? 0)%Z.
Proof.
  intros E Hb. unfold isclose. rewrite E. destruct (Rle_dec _ _) as [H|H]; destruct (Z.eqb_spec z 0) as [->|Hz]; try reflexivity; exfalso.
  - assert (1 <= Rabs (IZR z))%R. { rewrite <- abs_IZR. apply IZR_le. lia. }
    assert (/ 10 ^ 8 + / 10 ^ 5 * Rabs b < 1)%R; [|lra].
    assert (/ 10 ^ 5 * Rabs b <= / 10 ^ 5 * 50001)%R. { apply Rmult_le_compat_l; [|exact Hb]. left. apply Rinv_0_lt_compat. lra. }
    replace (/ 10 ^ 8)%R with (1 / 100000000)%R by (cbn; field). replace (/ 10 ^ 5)%R with (1 / 100000)%R in * by (cbn; field). lra.
  - apply H. rewrite Rabs_R0. pose proof (Rabs_pos b). assert (0 < / 10 ^ 8)%R by (apply Rinv_0_lt_compat; lra).
    assert (0 <= / 10 ^ 5 * Rabs b)%R; [|lra]. apply Rmult_le_pos; [left; apply Rinv_0_lt_compat; lra|assumption].
Qed.

Definition upc (n o : nat) : R := sqrt (INR (Datatypes.S o * (n - 1 - o))).
Section Entries.
  Context (n : nat) (HS : small n).
  Notation l := ((INR n - 1) / 2)%R.
  Lemma bound o : (o < n)%nat -> (- 50000 <= INR o - l <= 50000)%R.
  Proof. intros H. unfold small in HS. pose proof (pos_INR o). assert (INR o <= INR n - 1)%R by (pose proof (le_INR (o + 1) n ltac:(lia)) as P; rewrite plus_INR in P; cbn in P; lra). lra. Qed.
  Lemma up_sq o : (o < n)%nat -> (l * (l + 1) - (INR o - l) * (INR o - l + 1) = INR (Datatypes.S o * (n - 1 - o)))%R.
  Proof. intros H. rewrite mult_INR, S_INR, !minus_INR by lia. cbn. field. Qed.
  Lemma sub_IZR o o' (z : Z) : (INR o - INR o' - IZR z = IZR (Z.of_nat o - Z.of_nat o' - z))%R.
  Proof. rewrite !minus_IZR, <- !INR_IZR_INZ. ring. Qed.
  Lemma L_z o1 o2 : (o1 < n)%nat -> (o2 < n)%nat -> L_matrix n CZ o1 o2 = RtoC (if (o1 =? o2)%nat then INR o1 - l else 0).
  Proof.
    intros H1 H2. unfold L_matrix, L_melem. rewrite (isclose_ints _ _ (Z.of_nat o1 - Z.of_nat o2)).
    - destruct (Nat.eqb_spec o1 o2) as [->|Hne]; [rewrite Z.sub_diag; reflexivity|]. destruct (Z.eqb_spec (Z.of_nat o1 - Z.of_nat o2) 0); [lia|reflexivity].
    - rewrite minus_IZR, <- !INR_IZR_INZ. ring.
    - pose proof (bound o2 H2). apply Rabs_le. lra.
  Qed.
  Lemma L_plus o1 o2 : (o1 < n)%nat -> (o2 < n)%nat -> L_matrix n CP o1 o2 = RtoC (if (o1 =? Datatypes.S o2)%nat then upc n o2 else 0).
  Proof.
    intros H1 H2. unfold L_matrix, L_melem. rewrite (isclose_ints _ _ (Z.of_nat o1 - Z.of_nat o2 - 1)).
    - rewrite up_sq by assumption. destruct (Nat.eqb_spec o1 (Datatypes.S o2)) as [->|Hne].
      + destruct (Z.eqb_spec (Z.of_nat (Datatypes.S o2) - Z.of_nat o2 - 1) 0); [reflexivity|lia].
      + destruct (Z.eqb_spec (Z.of_nat o1 - Z.of_nat o2 - 1) 0); [lia|reflexivity].
    - rewrite !minus_IZR, <- !INR_IZR_INZ. ring.
    - pose proof (bound o2 H2). apply Rabs_le. lra.
  Qed.
  Lemma L_minus o1 o2 : (o1 < n)%nat -> (o2 < n)%nat -> L_matrix n CM o1 o2 = RtoC (if (Datatypes.S o1 =? o2)%nat then upc n o1 else 0).
  Proof.
    intros H1 H2. unfold L_matrix, L_melem. rewrite (isclose_ints _ _ (Z.of_nat o1 - Z.of_nat o2 + 1)).
    - destruct (Nat.eqb_spec (Datatypes.S o1) o2) as [<-|Hne].
      + destruct (Z.eqb_spec (Z.of_nat o1 - Z.of_nat (Datatypes.S o1) + 1) 0); [|lia]. unfold upc. do 2 f_equal.
        rewrite <- up_sq by assumption. rewrite S_INR. ring.
      + destruct (Z.eqb_spec (Z.of_nat o1 - Z.of_nat o2 + 1) 0); [lia|reflexivity].
    - rewrite plus_IZR, !minus_IZR, <- !INR_IZR_INZ. ring.
    - pose proof (bound o2 H2). apply Rabs_le. lra.
  Qed.
  Lemma L_x o1 o2 : L_matrix n CX o1 o2 = Cmult half (Cplus (L_matrix n CP o1 o2) (L_matrix n CM o1 o2)).
  Proof. reflexivity. Qed.
  Lemma L_y o1 o2 : L_matrix n CY o1 o2 = Cmult (Copp (Cmult half Ci)) (Cminus (L_matrix n CP o1 o2) (L_matrix n CM o1 o2)).
  Proof. reflexivity. Qed.
End Entries.

(** ---- matrices ---- *)
Section Mat.
  Add Ring KringM : (sl_ring CS CS_laws).
  Local Open Scope K_scope.
  Notation L := CS_laws.
  Notation Sm := (Sm CS).
  Context (n : nat).
  Notation sq := (seq 0 n).
  Notation mat := (nat -> nat -> CS).
  Definition mcomm (M M' : mat) : mat := fun o o' => Sm sq (fun b => M o b * M' b o' - M' o b * M b o').
  Lemma csum_Sm (f : nat -> CS) : csum_n n f = Sm sq f.
  Proof. unfold csum_n. induction sq as [|a q IH]; [reflexivity|]. cbn [fold_right]. rewrite IH. reflexivity. Qed.
  Lemma sq_single (a : nat) (f : nat -> CS) : (a < n)%nat -> (forall b, (b < n)%nat -> b <> a -> f b = k0) -> Sm sq f = f a.
  Proof. intros Ha H. apply (Sm_single CS L); [apply seq_NoDup|apply in_seq; lia|]. intros b Hb. apply in_seq in Hb. apply H. lia. Qed.
  Lemma sq_zero (f : nat -> CS) : (forall b, (b < n)%nat -> f b = k0) -> Sm sq f = k0.
  Proof. intros H. apply (Sm_zero CS L). intros b Hb. apply in_seq in Hb. apply H. lia. Qed.
  Lemma sq_ext (f g : nat -> CS) : (forall b, (b < n)%nat -> f b = g b) -> Sm sq f = Sm sq g.
  Proof. intros H. apply Sm_ext. intros b Hb. apply in_seq in Hb. apply H. lia. Qed.

  Context (HS : small n).
  Lemma mcomm_z_plus o o' : (o < n)%nat -> (o' < n)%nat -> mcomm (L_matrix n CZ) (L_matrix n CP) o o' = L_matrix n CP o o'.
  Proof.
    intros H H'. unfold mcomm. rewrite (Sm_sub CS L).
    rewrite (sq_single o), (sq_single o'); try assumption.
    - rewrite !(L_z n HS), (L_plus n HS), !Nat.eqb_refl by assumption. destruct (Nat.eqb_spec o (Datatypes.S o')) as [->|].
      + rewrite S_INR. apply injective_projections; cbn; ring.
      + apply injective_projections; cbn; ring.
    - intros b Hb Hne. rewrite (L_z n HS b o') by assumption. destruct (Nat.eqb_spec b o'); [contradiction|]. change (RtoC 0) with (@k0 CS). ring.
    - intros b Hb Hne. rewrite (L_z n HS o b) by assumption. destruct (Nat.eqb_spec o b); [congruence|]. change (RtoC 0) with (@k0 CS). ring.
  Qed.
  Lemma mcomm_z_minus o o' : (o < n)%nat -> (o' < n)%nat -> mcomm (L_matrix n CZ) (L_matrix n CM) o o' = - (L_matrix n CM o o' : CS).
  Proof.
    intros H H'. unfold mcomm. rewrite (Sm_sub CS L).
    rewrite (sq_single o), (sq_single o'); try assumption.
    - rewrite !(L_z n HS), (L_minus n HS), !Nat.eqb_refl by assumption. destruct (Nat.eqb_spec (Datatypes.S o) o') as [<-|].
      + rewrite S_INR. apply injective_projections; cbn; ring.
      + apply injective_projections; cbn; ring.
    - intros b Hb Hne. rewrite (L_z n HS b o') by assumption. destruct (Nat.eqb_spec b o'); [contradiction|]. change (RtoC 0) with (@k0 CS). ring.
    - intros b Hb Hne. rewrite (L_z n HS o b) by assumption. destruct (Nat.eqb_spec o b); [congruence|]. change (RtoC 0) with (@k0 CS). ring.
  Qed.
  Lemma row_plus (o : nat) (f : nat -> CS) : (o < n)%nat ->
    Sm sq (fun b => (L_matrix n CP o b : CS) * f b) = match o with 0%nat => k0 | Datatypes.S b => (RtoC (upc n b) : CS) * f b end.
  Proof.
    intros H. destruct o as [|b0].
    - apply sq_zero. intros b Hb. rewrite (L_plus n HS) by assumption. cbn [Nat.eqb]. change (RtoC 0) with (@k0 CS). ring.
    - rewrite (sq_single b0); [|lia|].
      + rewrite (L_plus n HS), Nat.eqb_refl by lia. reflexivity.
      + intros b Hb Hne. rewrite (L_plus n HS) by assumption. destruct (Nat.eqb_spec (Datatypes.S b0) (Datatypes.S b)); [lia|]. change (RtoC 0) with (@k0 CS). ring.
  Qed.
  Lemma col_plus (o : nat) (f : nat -> CS) : (o < n)%nat ->
    Sm sq (fun b => f b * (L_matrix n CP b o : CS)) = if (Datatypes.S o <? n)%nat then f (Datatypes.S o) * (RtoC (upc n o) : CS) else k0.
  Proof.
    intros H. destruct (Nat.ltb_spec (Datatypes.S o) n) as [Ho|Ho].
    - rewrite (sq_single (Datatypes.S o)); [|assumption|].
      + rewrite (L_plus n HS), Nat.eqb_refl by lia. reflexivity.
      + intros b Hb Hne. rewrite (L_plus n HS) by assumption. destruct (Nat.eqb_spec b (Datatypes.S o)); [lia|]. change (RtoC 0) with (@k0 CS). ring.
    - apply sq_zero. intros b Hb. rewrite (L_plus n HS) by assumption. destruct (Nat.eqb_spec b (Datatypes.S o)); [lia|]. change (RtoC 0) with (@k0 CS). ring.
  Qed.
  Lemma upc_top o : (Datatypes.S o = n)%nat -> upc n o = 0%R.
  Proof. intros H. unfold upc. replace (n - 1 - o)%nat with 0%nat by lia. rewrite Nat.mul_0_r. apply sqrt_0. Qed.
  Lemma upc_upc o : (upc n o * upc n o = INR (Datatypes.S o * (n - 1 - o)))%R.
  Proof. apply sqrt_sqrt. apply pos_INR. Qed.
  Lemma mcomm_plus_minus o o' : (o < n)%nat -> (o' < n)%nat -> mcomm (L_matrix n CP) (L_matrix n CM) o o' = (L_matrix n CZ o o' : CS) * (RtoC 2 : CS).
  Proof.
    intros H H'. unfold mcomm. rewrite (Sm_sub CS L), row_plus, col_plus by assumption.
    rewrite (L_z n HS) by assumption. destruct (Nat.ltb_spec (Datatypes.S o') n) as [Ho'|Ho'].
    - rewrite (L_minus n HS o (Datatypes.S o')) by assumption. cbn [Nat.eqb]. destruct o as [|b].
      + destruct (Nat.eqb_spec 0 o') as [<-|]; [|apply injective_projections; cbn; ring].
        pose proof (upc_upc 0) as E. rewrite Nat.mul_1_l, Nat.sub_0_r, minus_INR in E by lia. cbn [INR] in E. apply injective_projections; cbn [fst snd RtoC k0 CS ksub kmul Cmult Cminus Cplus Copp].
        * change (INR 0) with 0%R. lra.
        * ring.
      + rewrite (L_minus n HS b o') by lia. destruct (Nat.eqb_spec (Datatypes.S b) o') as [<-|]; [|apply injective_projections; cbn; ring].
        pose proof (upc_upc b) as E. pose proof (upc_upc (Datatypes.S b)) as E2. rewrite mult_INR, S_INR, !minus_INR in E by lia. rewrite mult_INR, !S_INR, !minus_INR, S_INR in E2 by lia.
        rewrite ?S_INR in E2. change (INR 1) with 1%R in *. change (INR 0) with 0%R in *. apply injective_projections; cbn [fst snd RtoC k0 CS ksub kmul Cmult Cminus Cplus Copp].
        * rewrite S_INR. lra.
        * ring.
    - assert (Datatypes.S o' = n) as En by lia. destruct o as [|b].
      + destruct (Nat.eqb_spec 0 o') as [<-|]; [|apply injective_projections; cbn; ring].
        apply injective_projections; cbn [fst snd RtoC k0 CS ksub kmul Cmult Cminus Cplus Copp]; [|ring]. rewrite <- En. cbn. field.
      + rewrite (L_minus n HS b o') by lia. destruct (Nat.eqb_spec (Datatypes.S b) o') as [<-|]; [|apply injective_projections; cbn; ring].
        pose proof (upc_upc b) as E. rewrite mult_INR, S_INR, !minus_INR in E by lia. rewrite <- En in *. rewrite !S_INR in *. cbn [INR] in E.
        apply injective_projections; cbn [fst snd RtoC k0 CS ksub kmul Cmult Cminus Cplus Copp]; [|ring]. lra.
  Qed.
End Mat.
