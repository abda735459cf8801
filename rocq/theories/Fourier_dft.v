(** The discrete Fourier transform in any number of dimensions and its inverse. *)
From Coq Require Import ZArith Reals List Bool Arith Lia Lra.
From Coquelicot Require Import Complex.
From Verif Require Import Base ThermalSpec Csum Fourier.
Import ListNotations.
Local Open Scope R_scope.

Lemma Ceq (z w : C) : fst z = fst w -> snd z = snd w -> z = w.
Proof. destruct z, w. cbn. intros -> ->. reflexivity. Qed.
Lemma expi_add x y : expi (x + y) = Cmult (expi x) (expi y).
Proof. apply Ceq; cbn; [rewrite cos_plus|rewrite sin_plus]; ring. Qed.
Lemma expi_0 : expi 0 = RtoC 1.
Proof. apply Ceq; cbn; [apply cos_0|apply sin_0]. Qed.
Lemma expi_opp x : expi (- x) = Cconj (expi x).
Proof. apply Ceq; cbn; [apply cos_neg|apply sin_neg]. Qed.
Lemma expi_inv x : Cmult (expi x) (expi (- x)) = RtoC 1.
Proof. rewrite <- expi_add, Rplus_opp_r. apply expi_0. Qed.
Lemma expi_2pi_nat n : expi (2 * PI * INR n) = RtoC 1.
Proof. apply Ceq; cbn; [replace (2 * PI * INR n) with (0 + 2 * INR n * PI) by ring; rewrite cos_period; apply cos_0|replace (2 * PI * INR n) with (0 + 2 * INR n * PI) by ring; rewrite sin_period; apply sin_0]. Qed.
Lemma Cconj_1 : Cconj (RtoC 1) = RtoC 1.
Proof. apply Ceq; cbn; lra. Qed.
Lemma expi_2pi n : expi (2 * PI * IZR n) = RtoC 1.
Proof.
  destruct (Z_le_gt_dec 0 n) as [H|H].
  - rewrite <- (Z2Nat.id n H), <- INR_IZR_INZ. apply expi_2pi_nat.
  - replace (2 * PI * IZR n) with (- (2 * PI * IZR (- n))) by (rewrite opp_IZR; ring).
    rewrite <- (Z2Nat.id (- n)) by lia. rewrite <- INR_IZR_INZ, expi_opp, expi_2pi_nat. apply Cconj_1.
Qed.
Lemma expi_period x n : expi (x + 2 * PI * IZR n) = expi x.
Proof. rewrite expi_add, expi_2pi. ring. Qed.
Lemma expi_one x : expi (2 * x) = RtoC 1 -> exists k : Z, x = IZR k * PI.
Proof.
  intros H. apply (f_equal fst) in H. cbn in H. rewrite cos_2a_sin in H. apply sin_eq_0_0. nra.
Qed.
Lemma expi_mod x : Cmod (expi x) = 1.
Proof. unfold Cmod, expi. cbn [fst snd]. replace (cos x ^ 2 + sin x ^ 2) with 1; [apply sqrt_1|]. pose proof (sin2_cos2 x) as H. unfold Rsqr in H. lra. Qed.
Lemma expi_nz x : expi x <> RtoC 0.
Proof. intros H. pose proof (expi_mod x) as M. rewrite H, Cmod_0 in M. lra. Qed.

Lemma geometric x n : Cmult (Cminus (expi x) (RtoC 1)) (csum (seq 0 n) (fun j => expi (INR j * x))) = Cminus (expi (INR n * x)) (RtoC 1).
Proof.
  induction n as [|n IH]; [cbn [seq]; unfold csum; cbn [fold_right INR]; rewrite Rmult_0_l, expi_0; ring|].
  rewrite seq_S, csum_app, csum_cons. unfold csum at 2. cbn [fold_right plus].
  replace (Cmult (Cminus (expi x) (RtoC 1)) (Cplus (csum (seq 0 n) (fun j => expi (INR j * x))) (Cplus (expi (INR n * x)) (RtoC 0))))
    with (Cplus (Cmult (Cminus (expi x) (RtoC 1)) (csum (seq 0 n) (fun j => expi (INR j * x)))) (Cmult (Cminus (expi x) (RtoC 1)) (expi (INR n * x)))) by ring.
  rewrite IH. rewrite S_INR. replace ((INR n + 1) * x) with (INR n * x + x) by ring. rewrite expi_add. ring.
Qed.
Lemma csum_one n : csum (seq 0 n) (fun _ => RtoC 1) = RtoC (INR n).
Proof.
  induction n as [|n IH]; [reflexivity|]. rewrite seq_S, csum_app, IH, csum_cons, S_INR. unfold csum. cbn [fold_right]. rewrite RtoC_plus. ring.
Qed.
Lemma Cmult_zero_r a b : Cmult a b = RtoC 0 -> a <> RtoC 0 -> b = RtoC 0.
Proof. intros H Ha. replace b with (Cmult (Cmult (Cinv a) a) b) by (rewrite Cinv_l by exact Ha; ring). replace (Cmult (Cmult (Cinv a) a) b) with (Cmult (Cinv a) (Cmult a b)) by ring. rewrite H. ring. Qed.
Lemma roots (L : nat) (d : Z) : (L <> 0)%nat ->
  csum (seq 0 L) (fun j => expi (2 * PI * (INR j * IZR d / INR L))) = if (d mod Z.of_nat L =? 0)%Z then RtoC (INR L) else RtoC 0.
Proof.
  intros HL. assert (HR : INR L <> 0) by (apply not_0_INR; exact HL). destruct (Z.eqb_spec (d mod Z.of_nat L) 0) as [H|H].
  - rewrite <- csum_one. apply csum_ext. intros j _. apply Z.mod_divide in H; [|lia]. destruct H as [k ->].
    replace (2 * PI * (INR j * IZR (k * Z.of_nat L) / INR L)) with (2 * PI * IZR (Z.of_nat j * k)); [apply expi_2pi|].
    rewrite !mult_IZR, <- !INR_IZR_INZ. field. exact HR.
  - pose proof (geometric (2 * (PI * (IZR d / INR L))) L) as G.
    replace (expi (INR L * (2 * (PI * (IZR d / INR L))))) with (RtoC 1) in G by (symmetry; rewrite <- (expi_2pi d); f_equal; field; exact HR).
    replace (Cminus (RtoC 1) (RtoC 1)) with (RtoC 0) in G by ring. apply Cmult_zero_r in G.
    + rewrite <- G. apply csum_ext. intros j _. f_equal. field. exact HR.
    + intros E. assert (E1 : expi (2 * (PI * (IZR d / INR L))) = RtoC 1) by (replace (expi (2 * (PI * (IZR d / INR L)))) with (Cplus (Cminus (expi (2 * (PI * (IZR d / INR L)))) (RtoC 1)) (RtoC 1)) by ring; rewrite E; ring).
      apply expi_one in E1. destruct E1 as [k Hk]. apply H. apply Z.mod_divide; [lia|]. exists k. apply eq_IZR. rewrite mult_IZR, <- INR_IZR_INZ.
      assert (P := PI_RGT_0). assert (Q : IZR d / INR L = IZR k) by (apply (Rmult_eq_reg_l PI); lra). rewrite <- Q. field. exact HR.
Qed.

(** ---- several dimensions ---- *)
Lemma csum_S (f : nat -> C) n : csum (seq 0 (S n)) f = Cplus (csum (seq 0 n) f) (f n).
Proof. rewrite seq_S, csum_app, csum_cons. cbn [plus]. unfold csum at 2. cbn [fold_right]. ring. Qed.
Lemma csum_prod (f : nat -> C) d s : csum (seq 0 (d * s)) f = csum (seq 0 d) (fun a => csum (seq 0 s) (fun b => f (a * s + b)%nat)).
Proof.
  induction d as [|d IH]; [reflexivity|]. rewrite csum_S, <- IH. replace (S d * s)%nat with (d * s + s)%nat by lia. rewrite seq_app, csum_app. cbn [plus]. f_equal.
  replace (seq (d * s) s) with (map (fun b => (d * s + b)%nat) (seq 0 s)); [rewrite csum_map; ring|].
  generalize (d * s)%nat. intros m. clear. assert (G : forall s0, map (fun b => (m + b)%nat) (seq s0 s) = seq (m + s0) s); [|rewrite G; f_equal; lia].
  induction s as [|s IH]; intros s0; [reflexivity|]. cbn [seq map]. f_equal. rewrite IH. f_equal. lia.
Qed.
Lemma prodn_pos d ds : (prodn (d :: ds) <> 0)%nat -> (d <> 0)%nat /\ (prodn ds <> 0)%nat.
Proof. cbn [prodn]. nia. Qed.
Lemma turns_sym dims : forall j k, turns dims j k = turns dims k j.
Proof. induction dims as [|d ds IH]; intros j k; [reflexivity|]. cbn [turns]. rewrite IH, Nat.mul_comm. reflexivity. Qed.
Lemma turns_cons d ds j a b : (b < prodn ds)%nat ->
  turns (d :: ds) j (a * prodn ds + b) = INR a * INR (j / prodn ds) / INR d + turns ds (j mod prodn ds) b.
Proof.
  intros H. cbn [turns]. rewrite (Nat.add_comm (a * prodn ds)), Nat.div_add, (Nat.div_small b) by lia.
  rewrite Nat.mod_add, (Nat.mod_small b) by lia. rewrite mult_INR. cbn [plus]. unfold Rdiv. ring.
Qed.
Lemma orth dims : (prodn dims <> 0)%nat -> forall j j', (j < prodn dims)%nat -> (j' < prodn dims)%nat ->
  csum (seq 0 (prodn dims)) (fun k => expi (2 * PI * (turns dims j k - turns dims j' k))) = if (j =? j')%nat then RtoC (INR (prodn dims)) else RtoC 0.
Proof.
  induction dims as [|d ds IH]; intros Hp j j' Hj Hj'.
  - cbn [prodn] in *. replace j with 0%nat by lia. replace j' with 0%nat by lia. cbn [seq turns Nat.eqb]. rewrite csum_cons. unfold csum. cbn [fold_right].
    replace (2 * PI * (0 - 0)) with 0 by ring. rewrite expi_0. cbn [INR]. ring.
  - destruct (prodn_pos _ _ Hp) as [Hd Hs]. specialize (IH Hs). remember (prodn ds) as s eqn:Es. cbn [prodn] in *. rewrite <- Es in *. rewrite csum_prod.
    set (e := (Z.of_nat (j / s) - Z.of_nat (j' / s))%Z).
    rewrite (csum_ext _ (fun a => Cmult (expi (2 * PI * (INR a * IZR e / INR d))) (csum (seq 0 s) (fun b => expi (2 * PI * (turns ds (j mod s) b - turns ds (j' mod s) b)))))).
    2:{ intros a _. rewrite <- csum_l. apply csum_ext. intros b Hb. apply in_seq in Hb. subst s. rewrite !turns_cons by lia. rewrite <- expi_add. f_equal.
        unfold e. rewrite minus_IZR, <- !INR_IZR_INZ. unfold Rdiv. ring. }
    rewrite csum_r, (roots d e Hd). rewrite IH by (apply Nat.mod_upper_bound; exact Hs).
    assert (J1 : (j / s < d)%nat) by (apply Nat.div_lt_upper_bound; nia). assert (J2 : (j' / s < d)%nat) by (apply Nat.div_lt_upper_bound; nia).
    destruct (Nat.eqb_spec j j') as [->|Hne].
    + unfold e. rewrite Z.sub_diag, Z.mod_0_l, Z.eqb_refl, Nat.eqb_refl by lia. rewrite mult_INR, RtoC_mult. ring.
    + destruct (Nat.eqb_spec (j mod s) (j' mod s)) as [Hm|Hm]; [|ring].
      destruct (Z.eqb_spec (e mod Z.of_nat d) 0) as [Hz|Hz]; [|ring]. exfalso. apply Hne.
      assert (E0 : e = 0%Z). { apply Z.mod_divide in Hz; [|lia]. destruct Hz as [k Hk]. assert (Hb : (- Z.of_nat d < e < Z.of_nat d)%Z) by (unfold e; revert J1 J2; generalize (j / s)%nat (j' / s)%nat; intros; lia). destruct (Z.eq_dec k 0) as [->|Hk0]; [lia|]. exfalso. clear - Hk Hk0 Hb Hd. generalize dependent e. intros e -> Hb. nia. }
      rewrite (Nat.div_mod j s), (Nat.div_mod j' s) by exact Hs. rewrite Hm. assert (j / s = j' / s)%nat by (unfold e in E0; lia). congruence.
Qed.
Lemma dft_ext sgn dims f g k : (forall j, (j < prodn dims)%nat -> f j = g j) -> dft sgn dims f k = dft sgn dims g k.
Proof. intros H. unfold dft. apply csum_ext. intros j Hj. apply in_seq in Hj. rewrite H by lia. reflexivity. Qed.
(** the transform with the opposite sign undoes the transform, up to the number of points *)
Lemma dft_inverse sgn dims f k : sgn = 1 \/ sgn = -1 -> (k < prodn dims)%nat ->
  dft (- sgn) dims (dft sgn dims f) k = Cmult (RtoC (INR (prodn dims))) (f k).
Proof.
  intros Hs Hk. assert (Hp : (prodn dims <> 0)%nat) by lia. unfold dft.
  rewrite (csum_ext _ (fun j => csum (seq 0 (prodn dims)) (fun i => Cmult (f i) (expi (2 * PI * (if Req_EM_T sgn 1 then turns dims i j - turns dims k j else turns dims k j - turns dims i j)))))).
  2:{ intros j _. rewrite <- csum_r. apply csum_ext. intros i _. rewrite <- Cmult_assoc, <- expi_add. f_equal. f_equal. rewrite (turns_sym dims j k).
      destruct Hs as [-> | ->]; destruct (Req_EM_T _ 1) as [q|q]; try ring; exfalso; lra. }
  rewrite csum_swap. rewrite (csum_ext _ (fun i => Cmult (f i) (if (i =? k)%nat then RtoC (INR (prodn dims)) else RtoC 0))).
  2:{ intros i Hi. apply in_seq in Hi. rewrite csum_l. f_equal. destruct (Req_EM_T sgn 1) as [q|q].
      - rewrite orth by (try lia; exact Hp). reflexivity.
      - rewrite orth by (try lia; exact Hp). rewrite Nat.eqb_sym. reflexivity. }
  rewrite (csum_single _ _ k Hk); [rewrite Nat.eqb_refl; ring|]. intros i _ Hne. destruct (Nat.eqb_spec i k) as [->|_]; [congruence|ring].
Qed.
