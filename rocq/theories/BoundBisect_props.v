(** C85: the solver bound_and_bisect of python/triqs/utility. *)
From Coq Require Import ZArith Reals List Bool Lia Lra.
From Verif Require Import Base BoundBisect BoundBisectSpec BoundBisect_proofs.
Local Open Scope R_scope.

(** C85.  Whatever the function: bounds that are returned are points of the grid x_0 + k dx, at most
    maxiter steps away, where the function is negative and positive. *)
Theorem C85_bounds : forall (F : R -> R) (x_0 dx : R) (maxiter : Z) (a b : R), determine_bounds F x_0 dx maxiter = Ok (a, b) ->
  F a < 0 < F b /\ exists i j : Z, (Z.abs i <= Z.max 0 maxiter)%Z /\ (Z.abs j <= Z.max 0 maxiter)%Z /\ a = x_0 + IZR i * dx /\ b = x_0 + IZR j * dx.
Proof.
  intros F x_0 dx n a b H. destruct (bounds_ok F x_0 dx n a b H) as (H1 & i & j & Hi & Hj & -> & ->). split; [exact H1|]. unfold way. destruct (Rltb _ 0).
  - exists (Z.of_nat i), (- Z.of_nat j)%Z. split; [lia|]. split; [lia|]. rewrite opp_IZR, <- !INR_IZR_INZ. split; lra.
  - exists (- Z.of_nat i)%Z, (Z.of_nat j). split; [lia|]. split; [lia|]. rewrite opp_IZR, <- !INR_IZR_INZ. split; lra.
Qed.
Print Assumptions C85_bounds.

(** They are the first such points in the two directions: in no step before does the function have that sign. *)
Theorem C85_first_bounds : forall (F : R -> R) (x_0 dx : R) (maxiter : Z) (a b : R), determine_bounds F x_0 dx maxiter = Ok (a, b) ->
  exists (s : R) (i j : nat), (s = dx \/ s = - dx) /\ a = x_0 - INR i * s /\ b = x_0 + INR j * s /\
    (forall k, (k < i)%nat -> 0 <= F (x_0 - INR k * s)) /\ (forall k, (k < j)%nat -> F (x_0 + INR k * s) <= 0).
Proof.
  intros F x_0 dx n a b. unfold determine_bounds. fold (way F x_0 dx). destruct (walk _ (- way F x_0 dx) _ x_0) as [a'| |] eqn:Ea; cbn [bind]; try discriminate.
  destruct (walk _ (way F x_0 dx) _ x_0) as [b'| |] eqn:Eb; cbn [bind]; try discriminate. intros H. injection H as <- <-.
  apply walk_ok in Ea. apply walk_ok in Eb. destruct Ea as (_ & i & _ & A3 & A4). destruct Eb as (_ & j & _ & B3 & B4).
  exists (way F x_0 dx), i, j. split; [unfold way; destruct (Rltb _ 0); [right; lra|left; reflexivity]|]. split; [rewrite A3; lra|]. split; [exact B3|]. split.
  - intros k Hk. apply Rltb_false. specialize (A4 k Hk). replace (x_0 - INR k * way F x_0 dx) with (x_0 + INR k * - way F x_0 dx) by lra. exact A4.
  - intros k Hk. apply Rltb_false. exact (B4 k Hk).
Qed.
Print Assumptions C85_first_bounds.

(** C85.  For a continuous monotone f that is not flat at the starting point and that crosses y
    within maxiter steps, the bounds are found, and what is returned is a point and the value of f
    there; the point is within the tolerance of a solution of f(z) = y. *)
Theorem C85_solves : forall bisect tol (f : R -> R) (x_0 y dx xtol : R) (maxiter : Z), bisects bisect tol ->
  continuity f -> monotone f -> f (x_0 + dx) <> f x_0 -> crosses f x_0 y dx (Z.to_nat maxiter) ->
  (exists a b, determine_bounds (fun x => f x - y) x_0 dx maxiter = Ok (a, b)) /\
  forall x fx, bound_and_bisect bisect f x_0 y dx xtol maxiter = Ok (x, fx) -> fx = f x /\ exists z, f z = y /\ Rabs (x - z) <= tol xtol.
Proof.
  intros bis tol f x_0 y dx xtol n Hb Hc Hm Hf Hx. split.
  - apply bounds_found; [apply mono_shift; exact Hm|left; lra|]. unfold crosses in Hx. cbv zeta in Hx. lra.
  - intros x fx H. unfold bound_and_bisect in H. destruct (determine_bounds _ x_0 dx n) as [[a b]| |] eqn:E; cbn [bind fst snd] in H; try discriminate H.
    destruct (bis _ a b xtol n) as [x'| |] eqn:Eb; cbn [bind] in H; try discriminate H. injection H as <- <-. split; [reflexivity|].
    destruct (bounds_ok _ x_0 dx n a b E) as [Hab _].
    assert (Hc' : continuity (fun x => f x - y)) by (apply continuity_minus; [exact Hc|apply continuity_const; intros u v; reflexivity]).
    destruct (Hb _ a b xtol n x' Hc' Hab Eb) as (z & Hz & _ & Hd). exists z. split; [lra|exact Hd].
Qed.
Print Assumptions C85_solves.

(** A flat start is harmless if dx points in the direction in which f grows. *)
Theorem C85_flat_start : forall (f : R -> R) (x_0 y dx : R) (maxiter : Z),
  (increasing f /\ 0 < dx) \/ (decreasing f /\ dx < 0) -> crosses f x_0 y dx (Z.to_nat maxiter) ->
  exists a b, determine_bounds (fun x => f x - y) x_0 dx maxiter = Ok (a, b).
Proof.
  intros f x_0 y dx n D Hx. apply bounds_found.
  - apply mono_shift. destruct D as [[D _]|[D _]]; [left|right]; exact D.
  - right. destruct D as [[D H]|[D H]]; [left|right]; (split; [intros u v Huv; specialize (D u v Huv); lra|exact H]).
  - unfold crosses in Hx. cbv zeta in Hx. lra.
Qed.
Print Assumptions C85_flat_start.

(** Otherwise it is not: "the zero of every continuous monotone function that crosses y within
    maxiter steps is found" is false.  The function that falls from 1 to -1 between 2 and 4 is flat
    at 0, and the search goes away from the zero for any number of steps. *)
Definition ramp (x : R) : R := Rmax (-1) (Rmin 1 (3 - x)).
Theorem C85_flat_start_refuted : continuity ramp /\ monotone ramp /\ (forall n, (5 <= n)%nat -> crosses ramp 0 0 1 n) /\
  forall maxiter, determine_bounds (fun x => ramp x - 0) 0 1 maxiter = Throw.
Proof.
  split; [|split; [|split]].
  - assert (Hmin : continuity (fun x => Rmin 1 (3 - x))).
    { intros x e He. exists e. split; [exact He|]. intros x' [_ H]. unfold R_dist, dist in *. cbn in *. unfold R_dist in *.
      apply Rle_lt_trans with (Rabs (x' - x)); [|exact H]. unfold Rmin. destruct (Rle_dec 1 (3 - x')), (Rle_dec 1 (3 - x)); unfold Rabs; repeat destruct (Rcase_abs _); lra. }
    intros x e He. destruct (Hmin x e He) as (d & Hd & H). exists d. split; [exact Hd|]. intros x' Hx'. specialize (H x' Hx'). unfold dist in *. cbn in *. unfold R_dist in *.
    apply Rle_lt_trans with (Rabs (Rmin 1 (3 - x') - Rmin 1 (3 - x))); [|exact H]. unfold ramp. generalize (Rmin 1 (3 - x')) (Rmin 1 (3 - x)). intros u v.
    unfold Rmax. destruct (Rle_dec (-1) u), (Rle_dec (-1) v); unfold Rabs; repeat destruct (Rcase_abs _); lra.
  - right. intros x x' H. unfold ramp, Rmax, Rmin. destruct (Rle_dec 1 (3 - x)), (Rle_dec 1 (3 - x')); repeat destruct (Rle_dec (-1) _); lra.
  - intros n Hn. right. cbv zeta. rewrite Rabs_R1, Rmult_1_r. assert (H5 : 5 <= INR n) by (apply le_INR in Hn; replace 5 with (INR 5) by (cbn; lra); exact Hn).
    unfold ramp, Rmax, Rmin. repeat destruct (Rle_dec _ _); lra.
  - intros n. unfold determine_bounds. fold (way (fun x => ramp x - 0) 0 1).
    assert (Hw : way (fun x => ramp x - 0) 0 1 = 1).
    { unfold way. replace (Rltb _ 0) with false; [reflexivity|]. symmetry. apply Rltb_false. unfold ramp, Rmax, Rmin. repeat destruct (Rle_dec _ _); lra. }
    rewrite Hw. replace (walk _ (- (1)) (Z.to_nat n) 0) with (@Throw R); [reflexivity|]. symmetry. apply walk_throw. intros k _. apply Rltb_false.
    pose proof (pos_INR k) as Hk. unfold ramp, Rmax, Rmin. repeat destruct (Rle_dec _ _); lra.
Qed.
Print Assumptions C85_flat_start_refuted.

(** f(x) = 2 - x, started at 5: the step is turned round, the bounds are 5 and 1, so that the
    "lower" bound is the larger one.  The hypotheses of C85_solves hold. *)
Example C85_example : determine_bounds (fun x => (2 - x) - 0) 5 1 4 = Ok (5, 1) /\
  continuity (fun x => 2 - x) /\ monotone (fun x => 2 - x) /\ 2 - (5 + 1) <> 2 - 5 /\ crosses (fun x => 2 - x) 5 0 1 4.
Proof.
  split; [|split; [|split; [|split]]].
  - unfold determine_bounds. change (Z.to_nat 4) with 4%nat.
    replace (Rltb (2 - (5 + 1) - 0 - (2 - 5 - 0)) 0) with true by (symmetry; apply Rltb_true; lra).
    cbn [walk]. replace (Rltb (2 - 5 - 0) 0) with true by (symmetry; apply Rltb_true; lra). cbn [bind].
    replace (Rltb 0 (2 - 5 - 0)) with false by (symmetry; apply Rltb_false; lra).
    replace (Rltb 0 (2 - (5 + 1 * -1) - 0)) with false by (symmetry; apply Rltb_false; lra).
    replace (Rltb 0 (2 - (5 + 1 * -1 + 1 * -1) - 0)) with false by (symmetry; apply Rltb_false; lra).
    replace (Rltb 0 (2 - (5 + 1 * -1 + 1 * -1 + 1 * -1) - 0)) with false by (symmetry; apply Rltb_false; lra).
    replace (Rltb 0 (2 - (5 + 1 * -1 + 1 * -1 + 1 * -1 + 1 * -1) - 0)) with true by (symmetry; apply Rltb_true; lra).
    cbn [bind]. f_equal. f_equal. lra.
  - apply continuity_minus; [apply continuity_const; intros u v; reflexivity|apply derivable_continuous, derivable_id].
  - right. intros x x' H. lra.
  - lra.
  - right. cbv zeta. rewrite Rabs_R1. cbn [INR]. lra.
Qed.
