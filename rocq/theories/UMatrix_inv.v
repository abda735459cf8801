(** Proofs: symmetries and rotation invariance of the Slater interaction matrix. *)
From Coq Require Import ZArith List Bool Reals Lia Lra FinFun.
From Verif Require Import Base UMatrix UMatrix_proofs.
Import ListNotations.
Local Open Scope R_scope.

Section Ame.
  Context (l k : Z).
  Notation A := (angular_matrix_element l k).
  Definition tq (q m m' : Z) : R := par m * three_j l (- m) k q l m'.
  Definition core (m1 m2 m3 m4 : Z) : R := rsum (zrange (- k) (k + 1)) (fun q => par q * (tq q m1 m3 * tq (- q) m2 m4)).
  Definition kfac : R := IZR ((2 * l + 1) ^ 2) * three_j l 0 k 0 l 0 ^ 2.
  Lemma ame_core m1 m2 m3 m4 : A m1 m2 m3 m4 = core m1 m2 m3 m4 * kfac.
  Proof.
    unfold angular_matrix_element, core, kfac. f_equal. apply rsum_ext. intros q _. unfold tq. rewrite !par_add. ring.
  Qed.
  Lemma tq_zero q m m' : (m <> m' + q)%Z -> tq q m m' = 0.
  Proof. intros H. unfold tq. rewrite three_j_zero by lia. ring. Qed.
  Lemma tq_transpose q m m' : tq q m m' = par q * tq (- q) m' m.
  Proof.
    destruct (Z.eq_dec m (m' + q)) as [E|H].
    - unfold tq. rewrite <- three_j_reverse. replace (- - m)%Z with m by lia. replace (par m) with (par q * par m') by (rewrite E, par_add; ring). ring.
    - rewrite !tq_zero by lia. ring.
  Qed.
  Theorem ame_swap m1 m2 m3 m4 : A m1 m2 m3 m4 = A m2 m1 m4 m3.
  Proof.
    rewrite !ame_core. f_equal. unfold core. rewrite rsum_neg. apply rsum_ext. intros q _. rewrite par_opp. replace (- - q)%Z with q by lia. ring.
  Qed.
  Theorem ame_transpose m1 m2 m3 m4 : A m1 m2 m3 m4 = A m3 m4 m1 m2.
  Proof.
    rewrite !ame_core. f_equal. unfold core. rewrite rsum_neg. apply rsum_ext. intros q _. rewrite par_opp, (tq_transpose (- q) m1), (tq_transpose (- - q) m2).
    replace (- - q)%Z with q by lia. rewrite par_opp. transitivity (par q * (par q * par q) * (tq q m3 m1 * tq (- q) m4 m2)); [ring|]. rewrite par_sq. ring.
  Qed.
  Theorem ame_conserves m1 m2 m3 m4 : (m1 + m2 <> m3 + m4)%Z -> A m1 m2 m3 m4 = 0.
  Proof.
    intros H. rewrite ame_core. replace (core m1 m2 m3 m4) with 0; [ring|]. symmetry. apply rsum_zero. intros q _.
    destruct (Z.eq_dec m1 (m3 + q)) as [E|E]; [rewrite (tq_zero (- q)) by lia|rewrite (tq_zero q) by lia]; ring.
  Qed.

  Lemma tq_raise q m m' : in_range k q -> in_range l m -> in_range l m' ->
    ladder l (m - 1) * tq q (m - 1) m' - ladder l m' * tq q m (m' + 1) = ladder k q * tq (q + 1) m m'.
  Proof.
    intros Hq Hm Hm'. unfold tq. pose proof (three_j_raise l (- m) k q l m' ltac:(unfold in_range in *; lia) Hq Hm') as E.
    replace (ladder l (- m)) with (ladder l (m - 1)) in E by (rewrite <- ladder_neg; f_equal; lia).
    replace (- (m - 1))%Z with (- m + 1)%Z by lia. replace (par (m - 1)) with (- par m) by (rewrite par_sub, par_1; ring).
    transitivity (- par m * (ladder l (m - 1) * three_j l (- m + 1) k q l m' + ladder k q * three_j l (- m) k (q + 1) l m' + ladder l m' * three_j l (- m) k q l (m' + 1)) + par m * (ladder k q * three_j l (- m) k (q + 1) l m')); [ring|].
    rewrite E. ring.
  Qed.

  Theorem ame_raise m1 m2 m3 m4 : (0 <= k)%Z -> in_range l m1 -> in_range l m2 -> in_range l m3 -> in_range l m4 ->
    ladder l (m1 - 1) * A (m1 - 1)%Z m2 m3 m4 + ladder l (m2 - 1) * A m1 (m2 - 1)%Z m3 m4 =
    ladder l m3 * A m1 m2 (m3 + 1)%Z m4 + ladder l m4 * A m1 m2 m3 (m4 + 1)%Z.
  Proof.
    intros Hk H1 H2 H3 H4. rewrite !ame_core.
    assert (E : ladder l (m1 - 1) * core (m1 - 1)%Z m2 m3 m4 + ladder l (m2 - 1) * core m1 (m2 - 1)%Z m3 m4
                - ladder l m3 * core m1 m2 (m3 + 1)%Z m4 - ladder l m4 * core m1 m2 m3 (m4 + 1)%Z = 0).
    { unfold core. rewrite <- !rsum_scal.
      transitivity (rsum (zrange (- k) (k + 1)) (fun q => par q * (ladder k q * tq (q + 1) m1 m3 * tq (- q) m2 m4)) +
                    rsum (zrange (- k) (k + 1)) (fun q => par q * (tq q m1 m3 * (ladder k (- q) * tq (- q + 1) m2 m4)))).
      - assert (D : forall (lst : list Z) f1 f2 f3 f4 g1 g2, (forall x, In x lst -> f1 x + f2 x - f3 x - f4 x = g1 x + g2 x) ->
            rsum lst f1 + rsum lst f2 - rsum lst f3 - rsum lst f4 = rsum lst g1 + rsum lst g2).
        { intros lst f1 f2 f3 f4 g1 g2 H. rewrite <- (rsum_plus lst g1 g2), <- (rsum_ext lst _ _ H).
          induction lst as [|x lst IH]; rewrite ?rsum_nil, ?rsum_cons; [ring|]. rewrite <- IH; [ring|]. intros. apply H. right. assumption. }
        apply D. intros q Hq. apply zrange_in in Hq.
        rewrite <- (tq_raise q m1 m3), <- (tq_raise (- q) m2 m4) by (unfold in_range in *; lia). ring.
      - (* both sums live on q = -k .. k-1 after a shift *)
        rewrite <- (rsum_widen (- k) k (- k) (k + 1) (fun q => par q * (ladder k q * tq (q + 1) m1 m3 * tq (- q) m2 m4))); [|lia|lia|].
        2: { intros t Ht Hb. replace t with k by lia. rewrite ladder_top. ring. }
        rewrite <- (rsum_widen (- k + 1) (k + 1) (- k) (k + 1)); [|lia|lia|].
        2: { intros t Ht Hb. replace t with (- k)%Z by lia. replace (- - k)%Z with k by lia. rewrite ladder_top. ring. }
        rewrite rsum_shift, <- rsum_plus. apply rsum_zero. intros q _.
        rewrite par_add, par_1. replace (- (q + 1))%Z with (- q - 1)%Z by lia. rewrite ladder_neg. replace (- q - 1 + 1)%Z with (- q)%Z by lia. ring. }
    transitivity ((ladder l (m1 - 1) * core (m1 - 1)%Z m2 m3 m4 + ladder l (m2 - 1) * core m1 (m2 - 1)%Z m3 m4
                - ladder l m3 * core m1 m2 (m3 + 1)%Z m4 - ladder l m4 * core m1 m2 m3 (m4 + 1)%Z) * kfac
                + (ladder l m3 * core m1 m2 (m3 + 1)%Z m4 + ladder l m4 * core m1 m2 m3 (m4 + 1)%Z) * kfac); [ring|].
    rewrite E. ring.
  Qed.
End Ame.

(** ---- the interaction matrix in the spherical basis, as real numbers on Z ---- *)
Definition slater_z (l : nat) (F : list R) (m1 m2 m3 m4 : Z) : R :=
  rsum (combine (seq 0 (length F)) F) (fun nF => snd nF * angular_matrix_element (Z.of_nat l) (2 * Z.of_nat (fst nF)) m1 m2 m3 m4).
Section SlaterZ.
  Context (l : nat) (F : list R).
  Notation U := (slater_z l F). Notation L := (Z.of_nat l).
  Lemma slater_z_swap m1 m2 m3 m4 : U m1 m2 m3 m4 = U m2 m1 m4 m3.
  Proof. apply rsum_ext. intros x _. rewrite ame_swap. reflexivity. Qed.
  Lemma slater_z_transpose m1 m2 m3 m4 : U m1 m2 m3 m4 = U m3 m4 m1 m2.
  Proof. apply rsum_ext. intros x _. rewrite ame_transpose. reflexivity. Qed.
  Lemma slater_z_conserves m1 m2 m3 m4 : (m1 + m2 <> m3 + m4)%Z -> U m1 m2 m3 m4 = 0.
  Proof. intros H. apply rsum_zero. intros x _. rewrite ame_conserves by exact H. ring. Qed.
  Lemma slater_z_raise m1 m2 m3 m4 : in_range L m1 -> in_range L m2 -> in_range L m3 -> in_range L m4 ->
    ladder L (m1 - 1) * U (m1 - 1)%Z m2 m3 m4 + ladder L (m2 - 1) * U m1 (m2 - 1)%Z m3 m4 =
    ladder L m3 * U m1 m2 (m3 + 1)%Z m4 + ladder L m4 * U m1 m2 m3 (m4 + 1)%Z.
  Proof.
    intros H1 H2 H3 H4. unfold slater_z. rewrite <- !rsum_scal, <- !rsum_plus. apply rsum_ext. intros x _.
    pose proof (ame_raise L (2 * Z.of_nat (fst x)) m1 m2 m3 m4 ltac:(lia) H1 H2 H3 H4) as E.
    transitivity (snd x * (ladder L (m1 - 1) * angular_matrix_element L (2 * Z.of_nat (fst x)) (m1 - 1) m2 m3 m4 +
      ladder L (m2 - 1) * angular_matrix_element L (2 * Z.of_nat (fst x)) m1 (m2 - 1) m3 m4)); [ring|]. rewrite E. ring.
  Qed.
End SlaterZ.
