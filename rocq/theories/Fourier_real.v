(** Fourier transforms between real times and real frequencies. *)
From Coq Require Import ZArith Reals List Bool Arith Lia Lra.
From Coquelicot Require Import Coquelicot.
From Verif Require Import Base LinMesh Mesh Lattice ThermalSpec Csum Fourier FourierSpec Fourier_dft Fourier_lat.
Import ListNotations.
Local Open Scope R_scope.

Lemma turns_1 L j k : turns [L] j k = INR j * INR k / INR L.
Proof. cbn [turns prodn]. rewrite !Nat.div_1_r, mult_INR. ring. Qed.
Lemma li_pt_eq m j : li_built m -> li_pt m j = li_min m + INR j * li_delta m.
Proof.
  intros (a & b & n & Hn & Hab & ->). unfold li_pt, li_value, li_make. cbn [li_L li_min li_max li_delta]. destruct (Z.eqb_spec n 1) as [E|_]; [lia|].
  rewrite <- INR_IZR_INZ. field. assert (2 <= IZR n) by (apply IZR_le; exact Hn). lra.
Qed.
Lemma li_delta_pos m : li_built m -> 0 < li_delta m.
Proof.
  intros (a & b & n & Hn & Hab & ->). unfold li_make. cbn [li_delta]. destruct (Z.eqb_spec n 1) as [E|_]; [lia|].
  assert (2 <= IZR n) by (apply IZR_le; exact Hn). apply Rdiv_lt_0_compat; lra.
Qed.
Lemma rows_INR m : (0 < li_L m)%Z -> INR (li_rows m) = IZR (li_L m) /\ (0 < li_rows m)%nat.
Proof. intros H. unfold li_rows. rewrite INR_IZR_INZ, Z2Nat.id by lia. split; [reflexivity|lia]. Qed.
Lemma compatible_same wm tm : real_compatible wm tm = true -> li_L wm = li_L tm /\ li_rows wm = li_rows tm /\ li_delta tm <> 0 /\ li_delta wm <> 0.
Proof.
  unfold real_compatible. rewrite andb_true_iff. intros [E T]. apply Z.eqb_eq in E. split; [exact E|]. split; [unfold li_rows; rewrite E; reflexivity|].
  destruct (Rlt_dec _ _) as [|H]; [discriminate|]. assert (G : forall x, x = 0 -> / 10 ^ 10 < Rabs (x / (2 * PI) - 1)).
  { intros x ->. unfold Rdiv. rewrite Rmult_0_l. replace (0 - 1) with (- (1)) by ring. rewrite Rabs_Ropp, Rabs_R1. lra. }
  split; intros Z; apply H, G; rewrite Z; ring.
Qed.
Lemma conjugate_compatible wm tm : conjugate_meshes wm tm -> real_compatible wm tm = true.
Proof.
  intros (H2 & E & D). unfold real_compatible. rewrite E, Z.eqb_refl. cbn [andb]. destruct (Rlt_dec _ _) as [H|]; [|reflexivity]. exfalso.
  rewrite D in H. assert (P := PI_RGT_0). replace (2 * PI / (2 * PI) - 1) with 0 in H by (field; lra). rewrite Rabs_R0 in H. lra.
Qed.

Section Direct.
  Variables (wm tm : linear) (n : nat) (km : rows) (mom : (nat -> C) * (nat -> C)).
  Hypothesis HL : (0 < li_L tm)%Z.
  Hypothesis Hc : real_compatible wm tm = true.
  Hypothesis Hm : real_moments n km = Ok mom.
  Notation L := (li_rows tm).
  Notation tail_t c j := (real_tail_t (real_a wm) (fst mom c) (snd mom c) (li_pt tm j)).
  Notation tail_w c k := (real_tail_w (real_a wm) (fst mom c) (snd mom c) (li_pt wm k)).

  Lemma direct_form gt : exists gw, fourier_t_to_w wm tm n gt km = Ok gw /\ forall k c, (k < L)%nat ->
    gw k c = Cplus (Cmult (Cmult (RtoC (li_delta tm)) (expi ((li_pt wm k - li_min wm) * li_min tm)))
                     (dft 1 [L] (fun j => Cmult (Cminus (gt j c) (tail_t c j)) (expi (li_pt tm j * li_min wm))) k)) (tail_w c k).
  Proof.
    unfold fourier_t_to_w. rewrite Hm, Hc. cbn [bind negb]. destruct (rows_INR tm HL) as [_ Hp].
    rewrite base_ok by (cbn [prodn]; lia). cbn [bind]. eexists. split; [reflexivity|]. intros k c Hk. cbn [prodn]. rewrite Nat.mul_1_r.
    destruct (Nat.ltb_spec k L) as [_|]; [|lia]. reflexivity.
  Qed.
  Lemma inverse_form gw : exists gt, fourier_w_to_t tm wm n gw km = Ok gt /\ forall j c, (j < L)%nat ->
    gt j c = Cplus (Cmult (Cmult (RtoC (1 / (li_delta tm * INR L))) (expi (li_min wm * (li_min tm - li_pt tm j))))
                     (dft (-1) [L] (fun k => Cmult (Cminus (gw k c) (tail_w c k)) (expi (- (li_pt wm k * li_min tm)))) j)) (tail_t c j).
  Proof.
    unfold fourier_w_to_t. rewrite Hm, Hc. cbn [bind negb]. destruct (rows_INR tm HL) as [EL Hp]. destruct (compatible_same _ _ Hc) as (E1 & E2 & _).
    rewrite E2, E1. rewrite base_ok by (cbn [prodn]; lia). cbn [bind]. eexists. split; [reflexivity|]. intros k c Hk. cbn [prodn]. rewrite Nat.mul_1_r, <- EL.
    destruct (Nat.ltb_spec k L) as [_|]; [|lia]. reflexivity.
  Qed.
  Lemma dft_mul_l sgn dims a f k : dft sgn dims (fun j => Cmult a (f j)) k = Cmult a (dft sgn dims f k).
  Proof. unfold dft. rewrite <- csum_l. apply csum_ext. intros j _. ring. Qed.
  Lemma round_t gt : exists gw gt', fourier_t_to_w wm tm n gt km = Ok gw /\ fourier_w_to_t tm wm n gw km = Ok gt' /\ same_rows L gt gt'.
  Proof.
    destruct (direct_form gt) as (gw & E & V). destruct (inverse_form gw) as (gt' & E' & V'). exists gw, gt'. split; [exact E|]. split; [exact E'|].
    intros j c Hj. rewrite (V' j c Hj). destruct (rows_INR tm HL) as [_ Hp]. destruct (compatible_same _ _ Hc) as (_ & _ & Hd & _).
    set (X := fun j => Cmult (Cminus (gt j c) (tail_t c j)) (expi (li_pt tm j * li_min wm))).
    rewrite (dft_ext _ _ _ (fun k => Cmult (Cmult (RtoC (li_delta tm)) (expi (- (li_min wm * li_min tm)))) (dft 1 [L] X k))).
    2:{ intros k Hk. cbn [prodn] in Hk. rewrite V by lia. fold X. replace (expi (- (li_min wm * li_min tm))) with (Cmult (expi ((li_pt wm k - li_min wm) * li_min tm)) (expi (- (li_pt wm k * li_min tm)))) by (rewrite <- expi_add; f_equal; ring). ring. }
    rewrite dft_mul_l. replace (-1) with (- (1)) by ring. rewrite dft_inverse by (cbn [prodn]; lia || (left; reflexivity)). unfold X. cbn [prodn]. rewrite Nat.mul_1_r.
    replace (expi (li_min wm * (li_min tm - li_pt tm j))) with (Cmult (expi (li_min wm * li_min tm)) (expi (- (li_pt tm j * li_min wm)))) by (rewrite <- expi_add; f_equal; ring).
    set (A := expi (li_min wm * li_min tm)). set (B := expi (li_pt tm j * li_min wm)).
    assert (QA : Cmult A (expi (- (li_min wm * li_min tm))) = RtoC 1) by apply expi_inv. assert (QB : Cmult B (expi (- (li_pt tm j * li_min wm))) = RtoC 1) by apply expi_inv.
    set (A' := expi (- (li_min wm * li_min tm))) in *. set (B' := expi (- (li_pt tm j * li_min wm))) in *.
    assert (QL : Cmult (RtoC (1 / (li_delta tm * INR L))) (Cmult (RtoC (li_delta tm)) (RtoC (INR L))) = RtoC 1).
    { rewrite <- !RtoC_mult. f_equal. field. split; [apply not_0_INR; lia|exact Hd]. }
    transitivity (Cplus (Cmult (Cmult (Cmult (RtoC (1 / (li_delta tm * INR L))) (Cmult (RtoC (li_delta tm)) (RtoC (INR L)))) (Cmult (Cmult A A') (Cmult B B'))) (Cminus (gt j c) (tail_t c j))) (tail_t c j)).
    - rewrite QL, QA, QB. ring.
    - ring.
  Qed.
  Lemma round_w gw : exists gt gw', fourier_w_to_t tm wm n gw km = Ok gt /\ fourier_t_to_w wm tm n gt km = Ok gw' /\ same_rows L gw gw'.
  Proof.
    destruct (inverse_form gw) as (gt & E & V). destruct (direct_form gt) as (gw' & E' & V'). exists gt, gw'. split; [exact E|]. split; [exact E'|].
    intros k c Hk. rewrite (V' k c Hk). destruct (rows_INR tm HL) as [_ Hp]. destruct (compatible_same _ _ Hc) as (_ & _ & Hd & _).
    set (Y := fun k => Cmult (Cminus (gw k c) (tail_w c k)) (expi (- (li_pt wm k * li_min tm)))).
    rewrite (dft_ext _ _ _ (fun j => Cmult (Cmult (RtoC (1 / (li_delta tm * INR L))) (expi (li_min wm * li_min tm))) (dft (-1) [L] Y j))).
    2:{ intros j Hj. cbn [prodn] in Hj. rewrite V by lia. fold Y. replace (expi (li_min wm * li_min tm)) with (Cmult (expi (li_min wm * (li_min tm - li_pt tm j))) (expi (li_pt tm j * li_min wm))) by (rewrite <- expi_add; f_equal; ring). ring. }
    rewrite dft_mul_l. replace 1 with (- (-1)) at 2 by ring. rewrite dft_inverse by (cbn [prodn]; lia || (right; reflexivity)). unfold Y. cbn [prodn]. rewrite Nat.mul_1_r.
    replace (expi ((li_pt wm k - li_min wm) * li_min tm)) with (Cmult (expi (li_pt wm k * li_min tm)) (expi (- (li_min wm * li_min tm)))) by (rewrite <- expi_add; f_equal; ring).
    set (A := expi (li_min wm * li_min tm)). set (B := expi (li_pt wm k * li_min tm)).
    assert (QA : Cmult A (expi (- (li_min wm * li_min tm))) = RtoC 1) by apply expi_inv. assert (QB : Cmult B (expi (- (li_pt wm k * li_min tm))) = RtoC 1) by apply expi_inv.
    set (A' := expi (- (li_min wm * li_min tm))) in *. set (B' := expi (- (li_pt wm k * li_min tm))) in *.
    assert (QL : Cmult (RtoC (1 / (li_delta tm * INR L))) (Cmult (RtoC (li_delta tm)) (RtoC (INR L))) = RtoC 1).
    { rewrite <- !RtoC_mult. f_equal. field. split; [apply not_0_INR; lia|exact Hd]. }
    transitivity (Cplus (Cmult (Cmult (Cmult (RtoC (1 / (li_delta tm * INR L))) (Cmult (RtoC (li_delta tm)) (RtoC (INR L)))) (Cmult (Cmult A A') (Cmult B B'))) (Cminus (gw k c) (tail_w c k))) (tail_w c k)).
    - rewrite QL, QA, QB. ring.
    - ring.
  Qed.
  (** the sums, for meshes that match exactly *)
  Hypothesis Ht : li_built tm.
  Hypothesis Hw : li_built wm.
  Hypothesis Hx : conjugate_meshes wm tm.
  Lemma jk_phase j k : li_delta tm * li_delta wm * (INR j * INR k) = 2 * PI * (INR j * INR k / INR L).
  Proof.
    destruct Hx as (H2 & _ & D). destruct (rows_INR tm HL) as [EL Hp]. rewrite <- EL in D. rewrite <- D. field. apply not_0_INR. lia.
  Qed.
  Lemma direct_sum gt : exists gw, fourier_t_to_w wm tm n gt km = Ok gw /\ forall k c, (k < L)%nat ->
    gw k c = Cplus (Cmult (RtoC (li_delta tm)) (total L (fun j => Cmult (expi (li_pt wm k * li_pt tm j)) (Cminus (gt j c) (tail_t c j))))) (tail_w c k).
  Proof.
    destruct (direct_form gt) as (gw & E & V). exists gw. split; [exact E|]. intros k c Hk. rewrite (V k c Hk). f_equal. unfold dft, total. cbn [prodn]. rewrite Nat.mul_1_r.
    rewrite <- Cmult_assoc, <- csum_l. f_equal. apply csum_ext. intros j _. rewrite turns_1, Rmult_1_l, <- jk_phase.
    rewrite (li_pt_eq wm k Hw), (li_pt_eq tm j Ht).
    replace (expi ((li_min wm + INR k * li_delta wm) * (li_min tm + INR j * li_delta tm)))
      with (Cmult (Cmult (expi ((li_min wm + INR k * li_delta wm - li_min wm) * li_min tm)) (expi ((li_min tm + INR j * li_delta tm) * li_min wm))) (expi (li_delta tm * li_delta wm * (INR j * INR k)))); [ring|].
    rewrite <- !expi_add. f_equal. ring.
  Qed.
  Lemma inverse_sum gw : exists gt, fourier_w_to_t tm wm n gw km = Ok gt /\ forall j c, (j < L)%nat ->
    gt j c = Cplus (Cmult (RtoC (li_delta wm / (2 * PI))) (total L (fun k => Cmult (expi (- (li_pt wm k * li_pt tm j))) (Cminus (gw k c) (tail_w c k))))) (tail_t c j).
  Proof.
    destruct (inverse_form gw) as (gt & E & V). exists gt. split; [exact E|]. intros j c Hj. rewrite (V j c Hj). f_equal.
    replace (li_delta wm / (2 * PI)) with (1 / (li_delta tm * INR L)).
    2:{ destruct Hx as (H2 & _ & D). destruct (rows_INR tm HL) as [EL Hp]. rewrite <- EL in D. rewrite <- D. pose proof (li_delta_pos _ Ht). pose proof (li_delta_pos _ Hw). field. repeat split; try lra. apply not_0_INR. lia. }
    unfold dft, total. cbn [prodn]. rewrite Nat.mul_1_r.
    rewrite <- Cmult_assoc, <- csum_l. f_equal. apply csum_ext. intros k _. rewrite turns_1. replace (INR k * INR j) with (INR j * INR k) by ring. rewrite <- jk_phase.
    rewrite (li_pt_eq wm k Hw), (li_pt_eq tm j Ht).
    replace (expi (- ((li_min wm + INR k * li_delta wm) * (li_min tm + INR j * li_delta tm))))
      with (Cmult (Cmult (expi (li_min wm * (li_min tm - (li_min tm + INR j * li_delta tm)))) (expi (- ((li_min wm + INR k * li_delta wm) * li_min tm)))) (expi (-1 * (li_delta tm * li_delta wm * (INR j * INR k))))); [ring|].
    rewrite <- !expi_add. f_equal. ring.
  Qed.
End Direct.

(** the tail: two poles with the right moments *)
Lemma Cmod_nz z : Cmod z <> 0 -> z <> RtoC 0.
Proof. intros H E. rewrite E, Cmod_0 in H. lra. Qed.
Lemma pole_nz w a : a <> 0 -> Cplus (RtoC w) (Cmult Ci (RtoC a)) <> RtoC 0 /\ Cminus (RtoC w) (Cmult Ci (RtoC a)) <> RtoC 0.
Proof. intros H. split; intros E; apply (f_equal snd) in E; cbn in E; lra. Qed.
Lemma Ci_sq : Cmult Ci Ci = RtoC (-1).
Proof. apply Ceq; cbn; ring. Qed.
Lemma tail_w_eq a m1 m2 w : a <> 0 -> real_tail_w a m1 m2 w = Cdiv (Cplus (Cmult m1 (RtoC w)) m2) (RtoC (w * w + a * a)).
Proof.
  intros Ha. unfold real_tail_w, real_a1, real_a2, th_expo_inv, th_expo_neg_inv. destruct (pole_nz w a Ha) as [P Q].
  assert (Ra : RtoC a <> RtoC 0) by (apply RtoC_nz; exact Ha). assert (R2 : RtoC 2 <> RtoC 0) by (apply RtoC_nz; lra).
  assert (S : RtoC (w * w + a * a) = Cmult (Cplus (RtoC w) (Cmult Ci (RtoC a))) (Cminus (RtoC w) (Cmult Ci (RtoC a)))) by (apply Ceq; cbn; ring).
  rewrite S. set (p := Cplus (RtoC w) (Cmult Ci (RtoC a))) in *. set (q := Cminus (RtoC w) (Cmult Ci (RtoC a))) in *.
  transitivity (Cdiv (Cplus (Cmult m1 (Cplus p q)) (Cmult (Cdiv (Cmult Ci m2) (RtoC a)) (Cminus q p))) (Cmult (RtoC 2) (Cmult p q))); [field; repeat split; assumption|].
  replace (Cplus p q) with (Cmult (RtoC 2) (RtoC w)) by (unfold p, q; rewrite <- RtoC_mult; apply Ceq; cbn; ring).
  replace (Cminus q p) with (Cmult (RtoC (-2)) (Cmult Ci (RtoC a))) by (unfold p, q; apply Ceq; cbn; ring).
  replace (Cmult (Cdiv (Cmult Ci m2) (RtoC a)) (Cmult (RtoC (-2)) (Cmult Ci (RtoC a)))) with (Cmult (Cmult (Cmult Ci Ci) (RtoC (-2))) m2) by (field; exact Ra).
  rewrite Ci_sq. replace (Cmult (RtoC (-1)) (RtoC (-2))) with (RtoC 2) by (apply Ceq; cbn; ring). field. repeat split; assumption.
Qed.
Lemma tail_zero a : a <> 0 -> (forall t, real_tail_t a (RtoC 0) (RtoC 0) t = RtoC 0) /\ (forall w, real_tail_w a (RtoC 0) (RtoC 0) w = RtoC 0).
Proof.
  intros Ha. assert (Ra : RtoC a <> RtoC 0) by (apply RtoC_nz; exact Ha). assert (R2 : RtoC 2 <> RtoC 0) by (apply RtoC_nz; lra).
  assert (Z : real_a1 a (RtoC 0) (RtoC 0) = RtoC 0 /\ real_a2 a (RtoC 0) (RtoC 0) = RtoC 0) by (unfold real_a1, real_a2; split; field; split; assumption).
  destruct Z as [Z1 Z2]. split; intros x; unfold real_tail_t, real_tail_w; rewrite Z1, Z2; ring.
Qed.
