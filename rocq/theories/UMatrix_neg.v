(** Proofs: reversal of all m, average of the interaction, U/J and radial integrals. *)
From Coq Require Import ZArith List Bool Reals Lia Lra FinFun Permutation.
From Verif Require Import Base UMatrix UMatrix_proofs UMatrix_inv.
Import ListNotations.
Local Open Scope R_scope.

Lemma rsum_perm {A} (l m : list A) f : Permutation l m -> rsum l f = rsum m f.
Proof. induction 1; rewrite ?rsum_cons; try congruence; ring. Qed.
Lemma rsum_reverse c f : rsum (zrange 0 (c + 1)) f = rsum (zrange 0 (c + 1)) (fun t => f (c - t)%Z).
Proof.
  rewrite <- (rsum_map (zrange 0 (c + 1)) (fun t => (c - t)%Z) f). apply rsum_perm. apply NoDup_Permutation; [apply zrange_NoDup| |].
  - apply Injective_map_NoDup; [intros x y E; lia|apply zrange_NoDup].
  - intros x. rewrite in_map_iff, zrange_in. split.
    + intros H. exists (c - x)%Z. rewrite zrange_in. lia.
    + intros (t & <- & Ht). rewrite zrange_in in Ht. lia.
Qed.
Lemma racah_neg a b c d e : racah (d - c) (e - c) c (a + c) (b + c) = par c * racah a b c d e.
Proof.
  unfold racah. rewrite rsum_reverse, <- rsum_scal. apply rsum_ext. intros t _. unfold term.
  replace (d - c + (c - t))%Z with (d - t)%Z by lia. replace (e - c + (c - t))%Z with (e - t)%Z by lia. replace (c - (c - t))%Z with t by lia.
  replace (a + c - (c - t))%Z with (a + t)%Z by lia. replace (b + c - (c - t))%Z with (b + t)%Z by lia. rewrite par_sub. ring.
Qed.
Theorem three_j_neg j1 m1 j2 m2 j3 m3 : three_j j1 (- m1) j2 (- m2) j3 (- m3) = par (j1 + j2 + j3) * three_j j1 m1 j2 m2 j3 m3.
Proof.
  assert (Hd : ((m1 + m2 + m3 = 0)%Z /\ in_range j1 m1 /\ in_range j2 m2 /\ in_range j3 m3 /\ triangle j1 j2 j3) \/
    ((m1 + m2 + m3 <> 0)%Z \/ ~ in_range j1 m1 \/ ~ in_range j2 m2 \/ ~ in_range j3 m3 \/ ~ triangle j1 j2 j3)).
  { unfold in_range, triangle. lia. }
  destruct Hd as [(H0 & H1 & H2 & H3 & HT)|Hz].
  - rewrite !three_j_formula; unfold in_range, triangle in *; try lia.
    pose proof (racah_neg (j3 - j2 + m1) (j3 - j1 - m2) (j1 + j2 - j3) (j1 - m1) (j2 + m2)) as P.
    replace (racah (j3 - j2 + - m1) (j3 - j1 - - m2) (j1 + j2 - j3) (j1 - - m1) (j2 + - m2))
      with (racah (j1 - m1 - (j1 + j2 - j3)) (j2 + m2 - (j1 + j2 - j3)) (j1 + j2 - j3) (j3 - j2 + m1 + (j1 + j2 - j3)) (j3 - j1 - m2 + (j1 + j2 - j3))) by (f_equal; lia).
    rewrite P.
    assert (E1 : forall j m, norm j (- m) = norm j m).
    { intros. unfold norm. f_equal. replace (j - - m)%Z with (j + m)%Z by lia. replace (j + - m)%Z with (j - m)%Z by lia. ring. }
    rewrite !E1. replace (par (j1 - j2 - - m3)) with (par (j1 - j2 - m3)) by (apply par_even; exists (- m3)%Z; lia).
    replace (par (j1 + j2 - j3)) with (par (j1 + j2 + j3)) by (apply par_even; exists j3; lia). ring.
  - rewrite !three_j_zero; [ring|exact Hz|]. unfold in_range, triangle in *. lia.
Qed.

Section Ame2.
  Context (l k : Z).
  Notation A := (angular_matrix_element l k).
  Lemma tq_neg q m m' : tq l k (- q) (- m) (- m') = par k * tq l k q m m'.
  Proof.
    unfold tq. rewrite three_j_neg, par_opp. replace (par (l + k + l)) with (par k) by (apply par_even; exists (- l)%Z; lia). ring.
  Qed.
  Theorem ame_neg m1 m2 m3 m4 : A (- m1)%Z (- m2)%Z (- m3)%Z (- m4)%Z = A m1 m2 m3 m4.
  Proof.
    rewrite !ame_core. f_equal. unfold core. rewrite rsum_neg. apply rsum_ext. intros q _. rewrite par_opp, tq_neg. rewrite (tq_neg (- q)).
    transitivity ((par k * par k) * (par q * (tq l k q m1 m3 * tq l k (- q) m2 m4))); [ring|]. rewrite par_sq. ring.
  Qed.
  (** tensor operators of rank k > 0 have no trace *)
  Lemma ladder_pos : (0 < k)%Z -> ladder k (-1) <> 0.
  Proof.
    intros Hk E. unfold ladder in E. apply sqrt_eq_0 in E; [apply eq_IZR_R0 in E; nia|]. apply IZR_le. nia.
  Qed.
  Lemma trace_zero : (0 < k)%Z -> rsum (zrange (- l) (l + 1)) (fun m => tq l k 0 m m) = 0.
  Proof.
    intros Hk. apply (Rmult_eq_reg_l (ladder k (-1))); [|apply ladder_pos; exact Hk]. rewrite Rmult_0_r, <- rsum_scal.
    rewrite (rsum_ext _ _ (fun m => ladder l (m - 1) * tq l k (-1) (m - 1) m - ladder l m * tq l k (-1) m (m + 1))).
    2: { intros m Hm. apply zrange_in in Hm. symmetry. apply tq_raise; unfold in_range; lia. }
    assert (T : forall h, (0 <= h)%Z -> rsum (zrange (- l) (- l + h)) (fun m => ladder l (m - 1) * tq l k (-1) (m - 1) m - ladder l m * tq l k (-1) m (m + 1)) =
       ladder l (- l - 1) * tq l k (-1) (- l - 1) (- l) - ladder l (- l + h - 1) * tq l k (-1) (- l + h - 1) (- l + h)).
    { intros h Hh. pattern h. apply natlike_ind; [|clear h Hh|exact Hh].
      - replace (zrange (- l) (- l + 0)) with (@nil Z). 2: { unfold zrange. replace (Z.to_nat (- l + 0 - - l)) with 0%nat by lia. reflexivity. }
        rewrite rsum_nil. replace (- l + 0 - 1)%Z with (- l - 1)%Z by lia. replace (- l + 0)%Z with (- l)%Z by lia. ring.
      - intros h Hh IH. unfold Z.succ. rewrite (zrange_split _ (- l + h)) by lia. rewrite rsum_app, IH. replace (- l + (h + 1))%Z with (- l + h + 1)%Z by lia.
        rewrite rsum_one. replace (- l + h + 1 - 1)%Z with (- l + h)%Z by lia. ring. }
    destruct (Z.lt_ge_cases l 0) as [Hl|Hl].
    - replace (zrange (- l) (l + 1)) with (@nil Z); [reflexivity|]. unfold zrange. replace (Z.to_nat (l + 1 - - l)) with 0%nat by lia. reflexivity.
    - pose proof (T (2 * l + 1)%Z ltac:(lia)) as E. replace (- l + (2 * l + 1))%Z with (l + 1)%Z in E by lia. rewrite E. rewrite ladder_bot. replace (l + 1 - 1)%Z with l by lia.
      rewrite ladder_top. ring.
  Qed.
  Lemma ame_direct m1 m2 : (0 <= k)%Z -> A m1 m2 m1 m2 = tq l k 0 m1 m1 * tq l k 0 m2 m2 * kfac l k.
  Proof.
    intros Hk. rewrite ame_core. f_equal. unfold core. rewrite (rsum_single _ 0%Z).
    - change (- 0)%Z with 0%Z. change (par 0) with 1. ring.
    - apply zrange_NoDup.
    - apply zrange_in. lia.
    - intros q _ Hq. rewrite (tq_zero l k q m1 m1) by lia. ring.
  Qed.
End Ame2.

Lemma three_j_k0 l m : in_range l m -> three_j l (- m) 0 0 l m = par (l - m) * sqrt (1 / IZR (2 * l + 1)).
Proof.
  unfold in_range. intros H. rewrite three_j_formula by (unfold in_range, triangle; lia).
  unfold racah. replace (l + 0 - l + 1)%Z with (0 + 1)%Z by lia. rewrite rsum_one. unfold term.
  replace (l - 0 + - m + 0)%Z with (l - m)%Z by lia. replace (l - l - 0 + 0)%Z with 0%Z by lia. replace (l + 0 - l - 0)%Z with 0%Z by lia. replace (l - - m - 0)%Z with (l + m)%Z by lia.
  replace (0 + 0 - 0)%Z with 0%Z by lia. replace (l - 0 - m)%Z with (l - m)%Z by lia.
  rewrite !ifact_pos by lia. change (fact 0) with (INR 1). change (INR 1) with 1. change (par 0) with 1.
  unfold norm. replace (l - - m)%Z with (l + m)%Z by lia. replace (l + - m)%Z with (l - m)%Z by lia. change (fact (0 - 0)) with 1. change (fact (0 + 0)) with 1.
  rewrite (Rmult_comm (fact (l + m))). rewrite (Rmult_1_l 1), sqrt_1.
  unfold delta3. replace (l + 0 - l)%Z with 0%Z by lia. replace (- l + 0 + l)%Z with 0%Z by lia. change (fact 0) with 1. replace (l - 0 + l)%Z with (2 * l)%Z by lia. replace (l + 0 + l + 1)%Z with (2 * l + 1)%Z by lia.
  rewrite (fact_succ (2 * l + 1)) by lia. replace (2 * l + 1 - 1)%Z with (2 * l)%Z by lia.
  assert (Hn : IZR (2 * l + 1) <> 0) by (apply not_0_IZR; lia). pose proof (fact_pos (2 * l)) as P1. pose proof (fact_pos (l - m)) as P2. pose proof (fact_pos (l + m)) as P3.
  replace (1 * fact (2 * l) * 1 / (IZR (2 * l + 1) * fact (2 * l))) with (1 / IZR (2 * l + 1)) by (field; split; lra).
  pose proof (sqrt_def (fact (l - m) * fact (l + m)) ltac:(nra)) as Q. set (w := sqrt (fact (l - m) * fact (l + m))) in *.
  transitivity (par (l - m) * sqrt (1 / IZR (2 * l + 1)) * ((w * w) * (/ fact (l - m) * / fact (l + m)))).
  - field. split; lra.
  - rewrite Q. field. split; lra.
Qed.
Lemma ame_k0 l m1 m2 : in_range l m1 -> in_range l m2 -> angular_matrix_element l 0 m1 m2 m1 m2 = 1.
Proof.
  intros H1 H2. unfold in_range in *. rewrite ame_direct by lia. unfold tq, kfac. rewrite !three_j_k0 by assumption.
  pose proof (three_j_k0 l 0 ltac:(unfold in_range; lia)) as E. change (- 0)%Z with 0%Z in E. rewrite E.
  set (s := sqrt (1 / IZR (2 * l + 1))). assert (Hn : IZR (2 * l + 1) > 0) by (apply (IZR_lt 0); lia).
  assert (Hs : s * s = 1 / IZR (2 * l + 1)) by (apply sqrt_def; apply Rlt_le, Rdiv_lt_0_compat; lra).
  rewrite Z.pow_2_r, mult_IZR, !par_sub.
  pose proof (par_sq m1) as Q1. pose proof (par_sq m2) as Q2. pose proof (par_sq l) as Q3. change (par 0) with 1.
  transitivity ((par m1 * par m1) * (par m2 * par m2) * (par l * par l) * (par l * par l) * ((s * s) * (s * s) * (IZR (2 * l + 1) * IZR (2 * l + 1)))); [ring|].
  rewrite Q1, Q2, Q3, Hs. field. lra.
Qed.

Section Average.
  Context (l : nat) (F : list R).
  Notation U := (slater_z l F). Notation L := (Z.of_nat l).
  Theorem slater_z_neg m1 m2 m3 m4 : U (- m1)%Z (- m2)%Z (- m3)%Z (- m4)%Z = U m1 m2 m3 m4.
  Proof. apply rsum_ext. intros x _. rewrite ame_neg. reflexivity. Qed.
  Lemma rsum_const {A} (lst : list A) c : rsum lst (fun _ => c) = INR (length lst) * c.
  Proof. induction lst as [|x lst IH]; [rewrite rsum_nil; cbn; ring|]. rewrite rsum_cons, IH. change (length (x :: lst)) with (S (length lst)). rewrite S_INR. ring. Qed.
  Lemma zrange_length a b : length (zrange a b) = Z.to_nat (b - a).
  Proof. unfold zrange. rewrite map_length, seq_length. reflexivity. Qed.
  (** the mean of the direct integrals is F0 *)
  Theorem average_U : rsum (zrange (- L) (L + 1)) (fun m => rsum (zrange (- L) (L + 1)) (fun m' => U m m' m m')) = IZR ((2 * L + 1) ^ 2) * nth 0 F 0.
  Proof.
    unfold slater_z.
    rewrite (rsum_ext _ _ (fun m => rsum (combine (seq 0 (length F)) F) (fun x => rsum (zrange (- L) (L + 1)) (fun m' => snd x * angular_matrix_element L (2 * Z.of_nat (fst x)) m m' m m')))) by (intros; apply rsum_swap).
    rewrite rsum_swap.
    rewrite (rsum_ext _ _ (fun x => match fst x with 0%nat => IZR ((2 * L + 1) ^ 2) * snd x | _ => 0 end)).
    - destruct F as [|f0 F']; [cbn [combine seq length nth]; rewrite rsum_nil; ring|]. cbn [length seq combine nth]. rewrite rsum_cons. cbn [fst snd].
      rewrite rsum_zero; [ring|]. intros [i x] Hx. apply in_combine_l in Hx. apply in_seq in Hx. cbn [fst]. destruct i; [lia|reflexivity].
    - intros [i x] _. cbn [fst snd]. destruct i as [|i].
      + rewrite (rsum_ext _ _ (fun _ => INR (length (zrange (- L) (L + 1))) * x)).
        * rewrite rsum_const, zrange_length. rewrite INR_IZR_INZ, Z2Nat.id by lia. replace (L + 1 - - L)%Z with (2 * L + 1)%Z by lia. rewrite Z.pow_2_r, mult_IZR. ring.
        * intros m Hm. rewrite <- rsum_const. apply rsum_ext. intros m' Hm'. change (2 * Z.of_nat 0)%Z with 0%Z. apply zrange_in in Hm, Hm'. rewrite ame_k0 by (unfold in_range; lia). ring.
      + set (k := (2 * Z.of_nat (S i))%Z). assert (Hk : (0 < k)%Z) by (unfold k; lia).
        rewrite (rsum_ext _ _ (fun m => tq L k 0 m m * kfac L k * x * rsum (zrange (- L) (L + 1)) (fun m' => tq L k 0 m' m'))).
        * apply rsum_zero. intros m _. rewrite trace_zero by exact Hk. ring.
        * intros m _. rewrite <- rsum_scal. apply rsum_ext. intros m' _. rewrite ame_direct by lia. ring.
  Qed.
End Average.

Lemma U_J_round l U J F : U_J_to_radial_integrals l U J = Ok F -> radial_integrals_to_U_J l F = Ok (U, J).
Proof.
  destruct l as [|[|[|[|l]]]]; cbn [U_J_to_radial_integrals]; intros E; try discriminate E; injection E as <-; cbn [radial_integrals_to_U_J]; do 2 f_equal; field.
Qed.
