From Coq Require Import ZArith Reals List Bool Arith Lia Lra.
From Coquelicot Require Import Coquelicot.
From Verif Require Import Base Fourier FourierSpec Fourier_dft KGrid_proofs TightBindingSpec Bath BathSpec.
Import ListNotations.
Local Open Scope R_scope.

Lemma axis n f : axis_sum n f = csum f (seq 0 n).
Proof. induction n as [|n IH]; [reflexivity|]. rewrite seq_S, KGrid_proofs.csum_app. cbn [axis_sum csum Nat.add]. rewrite IH. ring. Qed.
Lemma freq_value beta s first n w : (w < n)%nat ->
  linspace (mesh_value beta s first) (mesh_value beta s (first + Z.of_nat n - 1)%Z) n w = i_times (omega beta s (first + Z.of_nat w)).
Proof.
  intros Hw. unfold mesh_value, i_times, omega. destruct n as [|[|n]]; [lia| |].
  - assert (w = 0)%nat by lia. subst w. cbn [linspace]. replace (first + Z.of_nat 0)%Z with first by lia. reflexivity.
  - unfold linspace. replace (S (S n) - 1)%nat with (S n) by lia. assert (P : INR (S n) <> 0) by (apply not_0_INR; lia). apply injective_projections; cbn [fst snd Cplus Cminus Cmult Copp RtoC].
    + unfold Rdiv. ring.
    + replace (2 * (first + Z.of_nat (S (S n)) - 1) + (if s then 1 else 0))%Z with (2 * first + (if s then 1 else 0) + 2 * Z.of_nat (S n))%Z by lia.
      replace (2 * (first + Z.of_nat w) + (if s then 1 else 0))%Z with (2 * first + (if s then 1 else 0) + 2 * Z.of_nat w)%Z by lia. rewrite !plus_IZR with (m := (2 * Z.of_nat _)%Z), !mult_IZR, <- !INR_IZR_INZ.
      unfold Rdiv. generalize (/ beta). intros b. field. exact P.
Qed.
Lemma time_value beta n w : (w < n)%nat -> fst (linspace (RtoC 0) (RtoC beta) n w) = beta * (INR w / INR (n - 1)).
Proof.
  intros Hw. destruct n as [|[|n]]; [lia| |].
  - assert (w = 0)%nat by lia. subst w. cbn. unfold Rdiv. ring.
  - unfold linspace. replace (S (S n) - 1)%nat with (S n) by lia. cbn [fst snd Cplus Cminus Cmult Copp RtoC]. ring.
Qed.
Lemma stable beta tau e : - exp (- tau * e + beta * neg_part e) / (1 + exp (- beta * Rabs e)) = - (exp (- tau * e) / (1 + exp (- beta * e))).
Proof.
  pose proof (exp_pos (- beta * e)) as P1. pose proof (exp_pos (beta * e)) as P2. unfold neg_part. destruct (Rlt_dec e 0) as [H|H].
  - rewrite Rabs_left by exact H. rewrite exp_plus. replace (- beta * - e) with (beta * e) by ring.
    assert (Q : exp (- beta * e) * exp (beta * e) = 1) by (rewrite <- exp_plus; replace (- beta * e + beta * e) with 0 by ring; apply exp_0).
    replace (exp (- beta * e)) with (/ exp (beta * e)) in * by (apply (Rmult_eq_reg_r (exp (beta * e))); [rewrite Rinv_l; lra|lra]). field. lra.
  - rewrite Rabs_right by lra. replace (- tau * e + beta * 0) with (- tau * e) by ring. unfold Rdiv. ring.
Qed.
Lemma exponent beta tau e : 0 <= tau <= beta -> - tau * e + beta * neg_part e <= 0.
Proof. intros H. unfold neg_part. destruct (Rlt_dec e 0); nra. Qed.
Lemma bounded beta tau e : 0 <= tau <= beta -> Rabs (- exp (- tau * e + beta * neg_part e) / (1 + exp (- beta * Rabs e))) <= 1.
Proof.
  intros H. pose proof (exponent beta tau e H) as E. pose proof (exp_pos (- tau * e + beta * neg_part e)) as P1. pose proof (exp_pos (- beta * Rabs e)) as P2.
  assert (L : exp (- tau * e + beta * neg_part e) <= 1) by (rewrite <- exp_0; destruct E as [E|E]; [left; apply exp_increasing, E|rewrite E; lra]).
  replace (- exp (- tau * e + beta * neg_part e) / (1 + exp (- beta * Rabs e))) with (- (exp (- tau * e + beta * neg_part e) / (1 + exp (- beta * Rabs e)))) by (field; lra).
  rewrite Rabs_Ropp, Rabs_right.
  - apply (Rmult_le_reg_r (1 + exp (- beta * Rabs e))); [lra|]. unfold Rdiv. rewrite Rmult_assoc, Rinv_l, Rmult_1_r by lra. lra.
  - apply Rle_ge, Rlt_le, Rdiv_lt_0_compat; lra.
Qed.

(** conjugation, scalars *)
Lemma csum_conj {A} (f : A -> C) l : Cconj (csum f l) = csum (fun x => Cconj (f x)) l.
Proof. induction l as [|x l IH]; cbn [csum]; [apply injective_projections; cbn; ring|]. rewrite <- IH. apply injective_projections; cbn; ring. Qed.
Lemma conj_mult a b : Cconj (a * b)%C = (Cconj a * Cconj b)%C.
Proof. apply injective_projections; cbn; ring. Qed.
Lemma conj_conj a : Cconj (Cconj a) = a.
Proof. apply injective_projections; cbn; ring. Qed.
Lemma conj_inv a : Cconj (/ a)%C = (/ Cconj a)%C.
Proof. unfold Cinv, Cconj. cbn [fst snd]. replace ((- snd a) ^ 2) with (snd a ^ 2) by ring. apply injective_projections; cbn [fst snd]; unfold Rdiv; ring. Qed.
Lemma conj_sub a b : Cconj (a - b)%C = (Cconj a - Cconj b)%C.
Proof. apply injective_projections; cbn; ring. Qed.
Lemma conj_R x : Cconj (RtoC x) = RtoC x.
Proof. apply injective_projections; cbn; ring. Qed.
Lemma bath_conj V eps z k l : Cconj (bath_z V eps z k l) = bath_z V eps (Cconj z) l k.
Proof. unfold bath_z. rewrite csum_conj. apply KGrid_proofs.csum_ext'. intros j _. unfold Cdiv. rewrite !conj_mult, conj_conj, conj_inv, conj_sub, conj_R. ring. Qed.

(** integrals *)
Lemma cint_scal (c : C) f x y z : cintegral f x y z -> cintegral (fun t => c * f t)%C x y (c * z)%C.
Proof.
  intros [H1 H2]. split; cbn [fst snd Cmult].
  - apply (is_RInt_ext (fun t => minus (scal (fst c) (fst (f t))) (scal (snd c) (snd (f t))))); [intros t _; reflexivity|]. apply (is_RInt_minus (V := R_NormedModule)); apply (is_RInt_scal (V := R_NormedModule)); assumption.
  - apply (is_RInt_ext (fun t => plus (scal (fst c) (snd (f t))) (scal (snd c) (fst (f t))))); [intros t _; reflexivity|]. apply (is_RInt_plus (V := R_NormedModule)); apply (is_RInt_scal (V := R_NormedModule)); assumption.
Qed.
Lemma cint_plus f g x y z w : cintegral f x y z -> cintegral g x y w -> cintegral (fun t => f t + g t)%C x y (z + w)%C.
Proof. intros [H1 H2] [H3 H4]. split; cbn [fst snd Cplus]; apply (is_RInt_plus (V := R_NormedModule)); assumption. Qed.
Lemma cint_zero x y : cintegral (fun _ => RtoC 0) x y (RtoC 0).
Proof.
  assert (H : is_RInt (fun _ : R => 0) x y 0). { pose proof (is_RInt_const (V := R_NormedModule) x y 0) as K. assert (Z : @scal R_Ring R_NormedModule (y - x) 0 = 0) by (unfold scal; cbn; unfold mult; cbn; ring). rewrite Z in K. exact K. }
  split; exact H.
Qed.
Lemma cint_csum {A} (f : R -> A -> C) (z : A -> C) x y l : (forall a, In a l -> cintegral (fun t => f t a) x y (z a)) -> cintegral (fun t => csum (f t) l) x y (csum z l).
Proof. induction l as [|a l IH]; intros H; cbn [csum]; [apply cint_zero|]. apply cint_plus; [apply H; left; reflexivity|]. apply IH. intros b Hb. apply H. right. exact Hb. Qed.
Lemma cint_ext f g x y z : (forall t, f t = g t) -> cintegral f x y z -> cintegral g x y z.
Proof. intros E [H1 H2]. split; [apply (is_RInt_ext (fun t => fst (f t)))|apply (is_RInt_ext (fun t => snd (f t)))]; try assumption; intros t _; rewrite E; reflexivity. Qed.
Lemma pole beta n e : 0 < beta -> let w := omega beta true n in
  cintegral (fun t => phase (w * t) * RtoC (- (exp (- t * e) / (1 + exp (- beta * e)))))%C 0 beta (/ (i_times w - RtoC e))%C.
Proof.
  intros Hb w. assert (WB : w * beta = PI + 2 * PI * IZR n). { unfold w, omega. rewrite plus_IZR, mult_IZR. field. lra. }
  assert (W0 : w <> 0). { intros X. rewrite X, Rmult_0_l in WB. assert (PI * IZR (1 + 2 * n) = PI * 0) by (rewrite plus_IZR, mult_IZR; lra). apply Rmult_eq_reg_l in H; [apply eq_IZR in H; lia|pose proof PI_RGT_0; lra]. }
  assert (D : 0 < e * e + w * w) by nra. pose proof (expi_period PI n) as EP. rewrite <- WB in EP. assert (CB : cos (w * beta) = -1) by (apply (f_equal fst) in EP; cbn in EP; rewrite EP; apply cos_PI). assert (SB : sin (w * beta) = 0) by (apply (f_equal snd) in EP; cbn in EP; rewrite EP; apply sin_PI).
  set (N := 1 + exp (- beta * e)). assert (NP : 0 < N) by (unfold N; pose proof (exp_pos (- beta * e)); lra).
  set (F := fun t => exp (- t * e) * (e * cos (w * t) - w * sin (w * t)) / ((e * e + w * w) * N)). set (G := fun t => exp (- t * e) * (w * cos (w * t) + e * sin (w * t)) / ((e * e + w * w) * N)).
  split.
  - replace (fst (/ (i_times w - RtoC e))%C) with (minus (F beta) (F 0)).
    + apply (is_RInt_derive (V := R_CompleteNormedModule) F).
      * intros t _. unfold F. cbn [fst snd phase Cmult RtoC]. auto_derive; [trivial|]. field. split; [lra|]. nra.
      * intros t _. cbn [fst snd phase Cmult RtoC]. apply (ex_derive_continuous (fun x => cos (w * x) * - (exp (- x * e) / N) - sin (w * x) * 0)). auto_derive. lra.
    + unfold F, minus, plus, opp. cbn. rewrite CB, SB, Rmult_0_r, cos_0, sin_0, Ropp_0, Rmult_0_l, exp_0. fold N. assert (exp (- beta * e) = N - 1) as -> by (unfold N; ring). field. repeat split; nra.
  - replace (snd (/ (i_times w - RtoC e))%C) with (minus (G beta) (G 0)).
    + apply (is_RInt_derive (V := R_CompleteNormedModule) G).
      * intros t _. unfold G. cbn [fst snd phase Cmult RtoC]. auto_derive; [trivial|]. field. split; [lra|]. nra.
      * intros t _. cbn [fst snd phase Cmult RtoC]. apply (ex_derive_continuous (fun x => cos (w * x) * 0 + sin (w * x) * - (exp (- x * e) / N))). auto_derive. lra.
    + unfold G, minus, plus, opp. cbn. rewrite CB, SB, !Rmult_0_r, cos_0, sin_0, Ropp_0, Rmult_0_l, exp_0. fold N. assert (exp (- beta * e) = N - 1) as -> by (unfold N; ring). field. repeat split; nra.
Qed.

(** quadratic forms *)
Lemma csum_scal_r {A} (c : C) (f : A -> C) l : csum (fun x => f x * c)%C l = (csum f l * c)%C.
Proof. induction l as [|x l IH]; cbn [csum]; [ring|rewrite IH; ring]. Qed.
Lemma form_sum {A} n (g : A -> nat -> nat -> C) x J : form n (fun k l => csum (fun j => g j k l) J) x = csum (fun j => form n (g j) x) J.
Proof.
  unfold form. rewrite KGrid_proofs.csum_swap. symmetry. rewrite KGrid_proofs.csum_swap. symmetry.
  rewrite KGrid_proofs.csum_swap. apply KGrid_proofs.csum_ext'. intros k _. rewrite KGrid_proofs.csum_swap. apply KGrid_proofs.csum_ext'. intros l _.
  rewrite <- KGrid_proofs.csum_scal, <- csum_scal_r. reflexivity.
Qed.
Lemma form_one n (v : nat -> C) (c : C) x : let a := csum (fun k => Cconj (x k) * v k)%C (seq 0 n) in form n (fun k l => v k * Cconj (v l) * c)%C x = (c * (a * Cconj a))%C.
Proof.
  intros a. unfold form. rewrite (KGrid_proofs.csum_ext' _ (fun k => Cconj (x k) * v k * (c * Cconj a))%C).
  - rewrite csum_scal_r. fold a. ring.
  - intros k _. unfold a. rewrite csum_conj, <- !KGrid_proofs.csum_scal. apply KGrid_proofs.csum_ext'. intros l _. rewrite conj_mult, conj_conj. ring.
Qed.
Lemma mod_sq a : (a * Cconj a)%C = RtoC (fst a * fst a + snd a * snd a).
Proof. apply injective_projections; cbn; ring. Qed.
Lemma csum_real {A} (f : A -> C) l : (forall a, In a l -> 0 <= fst (f a) /\ snd (f a) = 0) -> 0 <= fst (csum f l) /\ snd (csum f l) = 0.
Proof.
  induction l as [|a l IH]; intros H; cbn [csum]; [cbn; lra|]. destruct (H a (or_introl eq_refl)) as [H1 H2]. destruct IH as [H3 H4]; [intros b Hb; apply H; right; exact Hb|]. cbn [fst snd Cplus]. lra.
Qed.
Lemma csum_im {A} (f : A -> C) w l : (forall a, In a l -> snd (f a) * w <= 0) -> snd (csum f l) * w <= 0.
Proof. induction l as [|a l IH]; intros H; cbn [csum]; [cbn; lra|]. pose proof (H a (or_introl eq_refl)). assert (snd (csum f l) * w <= 0) by (apply IH; intros b Hb; apply H; right; exact Hb). cbn [snd Cplus]. lra. Qed.
Lemma each_iff m : forall V eps r, length V = length eps -> (make_each V eps m = Ok r <->
  length r = length V /\ forall n v e, nth_error V n = Some v -> nth_error eps n = Some e -> exists d, nth_error r n = Some d /\ make_delta v e m = Ok d).
Proof.
  induction V as [|v V IH]; intros [|e eps] r L; try discriminate L; cbn [make_each].
  - split; [intros E; injection E as <-; split; [reflexivity|intros [|n] v e H; discriminate H]|]. intros [H _]. destruct r; [reflexivity|discriminate H].
  - assert (L' : length V = length eps) by (cbn in L; lia). split.
    + destruct (make_delta v e m) as [d| |] eqn:E; cbn [bind]; try discriminate. destruct (make_each V eps m) as [r'| |] eqn:E'; cbn [bind]; try discriminate. intros X. injection X as <-.
      destruct (proj1 (IH eps r' L') E') as [H1 H2]. split; [cbn; lia|]. intros [|n] v' e' Hv He; cbn [nth_error] in *; [injection Hv as <-; injection He as <-; exists d; split; [reflexivity|exact E]|]. exact (H2 n v' e' Hv He).
    + intros [H1 H2]. destruct (H2 0%nat v e eq_refl eq_refl) as (d & Hd & Ed). destruct r as [|d' r]; [discriminate Hd|]. cbn in Hd. injection Hd as ->. rewrite Ed. cbn [bind].
      rewrite (proj2 (IH eps r L')); [reflexivity|]. split; [cbn in H1; lia|]. intros n v' e' Hv He. exact (H2 (S n) v' e' Hv He).
Qed.
Lemma nth_combine {A B} (a : list A) (b : list B) n x y : nth_error a n = Some x -> nth_error b n = Some y -> nth_error (combine a b) n = Some (x, y).
Proof. revert b n. induction a as [|a0 a IH]; intros [|b0 b] [|n] H1 H2; try discriminate; cbn in *; [congruence|apply IH; assumption]. Qed.
