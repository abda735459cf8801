(** Proofs about bound_and_bisect. *)
From Coq Require Import ZArith Reals List Bool Lia Lra.
From Verif Require Import Base BoundBisect BoundBisectSpec.
Local Open Scope R_scope.

Lemma Rltb_true x y : Rltb x y = true <-> x < y.
Proof. unfold Rltb. destruct (Rlt_dec x y); split; intros; try reflexivity; try assumption; [discriminate|contradiction]. Qed.
Lemma Rltb_false x y : Rltb x y = false <-> y <= x.
Proof. unfold Rltb. destruct (Rlt_dec x y); split; intros; try reflexivity; try discriminate; lra. Qed.

Lemma walk_ok p s n : forall x z, walk p s n x = Ok z -> p z = true /\ exists k, (k <= n)%nat /\ z = x + INR k * s /\ forall j, (j < k)%nat -> p (x + INR j * s) = false.
Proof.
  induction n as [|n IH]; intros x z H; cbn [walk] in H; destruct (p x) eqn:E.
  - injection H as <-. split; [exact E|]. exists 0%nat. split; [lia|]. split; [cbn; lra|lia].
  - discriminate H.
  - injection H as <-. split; [exact E|]. exists 0%nat. split; [lia|]. split; [cbn; lra|lia].
  - apply IH in H. destruct H as (H1 & k & H2 & H3 & H4). split; [exact H1|]. exists (S k). split; [lia|]. split.
    + rewrite H3, S_INR. lra.
    + intros [|j] Hj; [cbn; rewrite Rmult_0_l, Rplus_0_r; exact E|]. rewrite S_INR. replace (x + (INR j + 1) * s) with (x + s + INR j * s) by lra. apply H4. lia.
Qed.
Lemma walk_throw p s n : forall x, (walk p s n x = Throw <-> forall k, (k <= n)%nat -> p (x + INR k * s) = false) /\ walk p s n x <> UB.
Proof.
  induction n as [|n IH]; intros x; cbn [walk]; destruct (p x) eqn:E; (split; [split|]); try discriminate.
  - intros H. specialize (H 0%nat (le_n _)). cbn in H. rewrite Rmult_0_l, Rplus_0_r in H. congruence.
  - intros _ k Hk. assert (k = 0)%nat by lia. subst k. cbn. rewrite Rmult_0_l, Rplus_0_r. exact E.
  - intros _. reflexivity.
  - intros H. specialize (H 0%nat ltac:(lia)). cbn in H. rewrite Rmult_0_l, Rplus_0_r in H. congruence.
  - intros H [|k] Hk; [cbn; rewrite Rmult_0_l, Rplus_0_r; exact E|]. rewrite S_INR. replace (x + (INR k + 1) * s) with (x + s + INR k * s) by lra. apply (proj1 (IH (x + s))); [exact H|lia].
  - intros H. apply (proj1 (IH (x + s))). intros k Hk. specialize (H (S k) ltac:(lia)). rewrite S_INR in H. replace (x + s + INR k * s) with (x + (INR k + 1) * s) by lra. exact H.
  - apply IH.
Qed.
Lemma walk_finds p s n x k : (k <= n)%nat -> p (x + INR k * s) = true -> exists z, walk p s n x = Ok z.
Proof.
  intros Hk Hp. destruct (walk_throw p s n x) as [H1 H2]. destruct (walk p s n x) as [z| |]; [eauto| |congruence].
  rewrite (proj1 H1 eq_refl k Hk) in Hp. discriminate Hp.
Qed.

Definition way (F : R -> R) (x_0 dx : R) : R := if Rltb (F (x_0 + dx) - F x_0) 0 then dx * -1 else dx.
Lemma way_abs F x dx : Rabs (way F x dx) = Rabs dx.
Proof. unfold way. destruct (Rltb _ 0); [|reflexivity]. rewrite Rabs_mult, (Rabs_left (-1)) by lra. lra. Qed.
Lemma bounds_ok F x_0 dx n a b : determine_bounds F x_0 dx n = Ok (a, b) ->
  F a < 0 < F b /\ exists i j, (i <= Z.to_nat n)%nat /\ (j <= Z.to_nat n)%nat /\ a = x_0 - INR i * way F x_0 dx /\ b = x_0 + INR j * way F x_0 dx.
Proof.
  unfold determine_bounds. fold (way F x_0 dx). destruct (walk _ (- way F x_0 dx) _ x_0) as [a'| |] eqn:Ea; cbn [bind]; try discriminate.
  destruct (walk _ (way F x_0 dx) _ x_0) as [b'| |] eqn:Eb; cbn [bind]; try discriminate. intros H. injection H as <- <-.
  apply walk_ok in Ea. apply walk_ok in Eb. destruct Ea as (A1 & i & A2 & A3 & _). destruct Eb as (B1 & j & B2 & B3 & _). apply Rltb_true in A1. apply Rltb_true in B1.
  split; [split; assumption|]. exists i, j. repeat split; try assumption. rewrite A3. lra.
Qed.
(** the step goes in the direction in which F grows *)
Lemma way_up F x_0 dx n : monotone F -> (F (x_0 + dx) <> F x_0 \/ (increasing F /\ 0 < dx) \/ (decreasing F /\ dx < 0)) ->
  (F (x_0 - INR n * Rabs dx) < 0 < F (x_0 + INR n * Rabs dx)) \/ (F (x_0 + INR n * Rabs dx) < 0 < F (x_0 - INR n * Rabs dx)) ->
  F (x_0 - INR n * way F x_0 dx) < 0 < F (x_0 + INR n * way F x_0 dx).
Proof.
  intros M D C. assert (Hn : 0 <= INR n) by apply pos_INR. unfold way. destruct (Rltb (F (x_0 + dx) - F x_0) 0) eqn:E; [apply Rltb_true in E|apply Rltb_false in E].
  - destruct M as [M|M]; destruct (Rle_or_lt 0 dx) as [Hd|Hd].
    + specialize (M x_0 (x_0 + dx) ltac:(lra)). lra.
    + rewrite Rabs_left in C by lra. replace (x_0 - INR n * (dx * -1)) with (x_0 - INR n * - dx) by lra. replace (x_0 + INR n * (dx * -1)) with (x_0 + INR n * - dx) by lra.
      destruct C as [C|C]; [exact C|]. assert (G : x_0 - INR n * - dx <= x_0 + INR n * - dx) by nra. specialize (M _ _ G). lra.
    + rewrite Rabs_right in C by lra. replace (x_0 - INR n * (dx * -1)) with (x_0 + INR n * dx) by lra. replace (x_0 + INR n * (dx * -1)) with (x_0 - INR n * dx) by lra.
      destruct C as [C|C]; [|exact C]. assert (G : x_0 - INR n * dx <= x_0 + INR n * dx) by nra. specialize (M _ _ G). lra.
    + specialize (M (x_0 + dx) x_0 ltac:(lra)). lra.
  - assert (D' : (increasing F /\ 0 < dx) \/ (decreasing F /\ dx < 0)).
    { destruct D as [D|D]; [|exact D]. assert (Hne : dx <> 0) by (intros ->; rewrite Rplus_0_r in D; congruence).
      destruct M as [M|M]; destruct (Rle_or_lt 0 dx) as [Hd|Hd].
      - left. split; [exact M|lra].
      - specialize (M (x_0 + dx) x_0 ltac:(lra)). lra.
      - specialize (M x_0 (x_0 + dx) ltac:(lra)). lra.
      - right. split; [exact M|lra]. }
    destruct D' as [[M' Hd]|[M' Hd]].
    + rewrite Rabs_right in C by lra. destruct C as [C|C]; [exact C|]. assert (G : x_0 - INR n * dx <= x_0 + INR n * dx) by nra. specialize (M' _ _ G). lra.
    + rewrite Rabs_left in C by lra. replace (x_0 - INR n * - dx) with (x_0 + INR n * dx) in C by lra. replace (x_0 + INR n * - dx) with (x_0 - INR n * dx) in C by lra.
      destruct C as [C|C]; [|exact C]. assert (G : x_0 + INR n * dx <= x_0 - INR n * dx) by nra. specialize (M' _ _ G). lra.
Qed.
Lemma bounds_found F x_0 dx n : monotone F -> (F (x_0 + dx) <> F x_0 \/ (increasing F /\ 0 < dx) \/ (decreasing F /\ dx < 0)) ->
  (F (x_0 - INR (Z.to_nat n) * Rabs dx) < 0 < F (x_0 + INR (Z.to_nat n) * Rabs dx)) \/ (F (x_0 + INR (Z.to_nat n) * Rabs dx) < 0 < F (x_0 - INR (Z.to_nat n) * Rabs dx)) ->
  exists a b, determine_bounds F x_0 dx n = Ok (a, b).
Proof.
  intros M D C. destruct (way_up F x_0 dx _ M D C) as [W1 W2]. unfold determine_bounds. fold (way F x_0 dx).
  destruct (walk_finds (fun x => Rltb (F x) 0) (- way F x_0 dx) (Z.to_nat n) x_0 (Z.to_nat n) (le_n _)) as (a & ->).
  { apply Rltb_true. replace (x_0 + INR (Z.to_nat n) * - way F x_0 dx) with (x_0 - INR (Z.to_nat n) * way F x_0 dx) by lra. exact W1. }
  destruct (walk_finds (fun x => Rltb 0 (F x)) (way F x_0 dx) (Z.to_nat n) x_0 (Z.to_nat n) (le_n _)) as (b & ->).
  { apply Rltb_true. exact W2. }
  exists a, b. reflexivity.
Qed.
Lemma mono_shift f y : monotone f -> monotone (fun x => f x - y).
Proof. intros [M|M]; [left|right]; intros x x' H; specialize (M x x' H); lra. Qed.
