(** One term of each kind of Green's function, and the integrals that relate them. *)
From Coq Require Import ZArith NArith List Arith Bool Lia Reals Lra.
From Coquelicot Require Import Coquelicot.
From Verif Require Import Base Scalar AtomDiag RealAtom ThermalSpec Csum Lehmann LehmannSpec Lehmann_fill LegendrePoly.
Import ListNotations.
Local Open Scope R_scope.

(** -e^{-tau p} / (1 + e^{-beta p}) *)
Definition ftau (beta tau p : R) : R := - (exp (- tau * p) / (1 + exp (- beta * p))).

Section Terms.
  Context (S : scalar_ops) (inj : R -> S) (val : S -> C).
  Notation run := (fun {P} (step : P -> R -> S -> C -> C) x prs => run S step x prs (RtoC 0)).

  Lemma run_sum {P} (step : P -> R -> S -> C -> C) (phi : P -> R -> C) x prs : (forall p r v, step x p r v = Cplus v (Cmult (val r) (phi x p))) ->
    Lehmann_fill.run S step x prs (RtoC 0) = csum prs (fun pr => Cmult (val (snd pr)) (phi x (fst pr))).
  Proof.
    intros H. unfold Lehmann_fill.run. assert (G : forall v, fold_left (fun v pr => step x (fst pr) (snd pr) v) prs v = Cplus v (csum prs (fun pr => Cmult (val (snd pr)) (phi x (fst pr))))).
    { induction prs as [|pr prs IH]; intros v; cbn [fold_left]; [unfold csum; cbn [fold_right]; ring|]. rewrite IH, H, csum_cons. ring. }
    rewrite G. ring.
  Qed.
  Lemma tau_step_eq beta tau p r v : tau_step S val beta tau p r v = Cplus v (Cmult (val r) (RtoC (ftau beta tau p))).
  Proof.
    unfold tau_step, ftau. f_equal. pose proof (exp_pos (- beta * p)) as P1. pose proof (exp_pos (beta * p)) as P2. destruct (Rlt_dec 0 p) as [Hp|Hp].
    - rewrite RtoC_opp, RtoC_div by lra. unfold Cdiv. ring.
    - replace (exp (- tau * p) / (1 + exp (- beta * p))) with (exp ((beta - tau) * p) / (exp (beta * p) + 1)).
      + rewrite RtoC_opp, RtoC_div by lra. unfold Cdiv. ring.
      + replace (exp ((beta - tau) * p)) with (exp (beta * p) * exp (- tau * p)) by (rewrite <- exp_plus; f_equal; ring).
        replace (exp (- beta * p)) with (/ exp (beta * p)) by (rewrite <- exp_Ropp; f_equal; ring). field. split; lra.
  Qed.
  Lemma ftau_bound beta tau p : 0 <= tau <= beta -> Rabs (ftau beta tau p) <= 1.
  Proof.
    intros [H1 H2]. unfold ftau. rewrite Rabs_Ropp. pose proof (exp_pos (- beta * p)) as P1. pose proof (exp_pos (- tau * p)) as P2.
    rewrite Rabs_pos_eq by (apply Rlt_le, Rdiv_lt_0_compat; lra). apply Rle_div_l; [lra|]. rewrite Rmult_1_l.
    destruct (Rle_dec 0 p) as [Hp|Hp].
    - assert (exp (- tau * p) <= 1); [|lra]. rewrite <- exp_0. destruct (Req_dec (- tau * p) 0) as [->|Hne]; [lra|]. left. apply exp_increasing. nra.
    - assert (exp (- tau * p) <= exp (- beta * p)); [|lra]. destruct (Req_dec (- tau * p) (- beta * p)) as [->|Hne]; [lra|]. left. apply exp_increasing. nra.
  Qed.

  (** ---- Matsubara frequencies ---- *)
  Lemma int_cos p w b : p * p + w * w <> 0 -> cos (w * b) = -1 -> sin (w * b) = 0 -> is_RInt (fun t => cos (w * t) * exp (- t * p)) 0 b (p * (1 + exp (- b * p)) / (p * p + w * w)).
  Proof.
    intros Hn Hc Hs.
    replace (p * (1 + exp (- b * p)) / (p * p + w * w)) with (exp (- b * p) * (- p * cos (w * b) + w * sin (w * b)) / (p * p + w * w) - exp (- 0 * p) * (- p * cos (w * 0) + w * sin (w * 0)) / (p * p + w * w)).
    2:{ rewrite Hc, Hs. replace (- 0 * p) with 0 by ring. replace (w * 0) with 0 by ring. rewrite exp_0, cos_0, sin_0. field. exact Hn. }
    apply (is_RInt_derive (fun t => exp (- t * p) * (- p * cos (w * t) + w * sin (w * t)) / (p * p + w * w)) (fun t => cos (w * t) * exp (- t * p))).
    - intros t _. auto_derive; [auto|]. field. exact Hn.
    - intros t _. apply (ex_derive_continuous (fun t => cos (w * t) * exp (- t * p))). auto_derive. auto.
  Qed.
  Lemma int_sin p w b : p * p + w * w <> 0 -> cos (w * b) = -1 -> sin (w * b) = 0 -> is_RInt (fun t => sin (w * t) * exp (- t * p)) 0 b (w * (1 + exp (- b * p)) / (p * p + w * w)).
  Proof.
    intros Hn Hc Hs.
    replace (w * (1 + exp (- b * p)) / (p * p + w * w)) with (exp (- b * p) * (- p * sin (w * b) - w * cos (w * b)) / (p * p + w * w) - exp (- 0 * p) * (- p * sin (w * 0) - w * cos (w * 0)) / (p * p + w * w)).
    2:{ rewrite Hc, Hs. replace (- 0 * p) with 0 by ring. replace (w * 0) with 0 by ring. rewrite exp_0, cos_0, sin_0. field. exact Hn. }
    apply (is_RInt_derive (fun t => exp (- t * p) * (- p * sin (w * t) - w * cos (w * t)) / (p * p + w * w)) (fun t => sin (w * t) * exp (- t * p))).
    - intros t _. auto_derive; [auto|]. field. exact Hn.
    - intros t _. apply (ex_derive_continuous (fun t => sin (w * t) * exp (- t * p))). auto_derive. auto.
  Qed.
  Lemma cintegral_add f g x y z w : cintegral f x y z -> cintegral g x y w -> cintegral (fun t => Cplus (f t) (g t)) x y (Cplus z w).
  Proof. intros [A B] [A' B']. split; cbn [fst snd Cplus]; [exact (is_RInt_plus _ _ _ _ _ _ A A')|exact (is_RInt_plus _ _ _ _ _ _ B B')]. Qed.
  Lemma cintegral_zero x y : cintegral (fun _ => RtoC 0) x y (RtoC 0).
  Proof.
    assert (Q : is_RInt (fun _ : R => 0) x y 0). { pose proof (is_RInt_const (V := R_NormedModule) x y 0) as Q. assert (E : scal (y - x) (0 : R_NormedModule) = (0 : R)) by (unfold scal; cbn; unfold mult; cbn; ring). rewrite E in Q. exact Q. }
    split; cbn [fst snd RtoC]; exact Q.
  Qed.
  Lemma cintegral_csum {A} (f : R -> A -> C) (z : A -> C) x y xs : (forall a, In a xs -> cintegral (fun t => f t a) x y (z a)) -> cintegral (fun t => csum xs (f t)) x y (csum xs z).
  Proof.
    induction xs as [|a xs IH]; intros H; [apply cintegral_zero|]. rewrite csum_cons.
    pose proof (cintegral_add _ _ _ _ _ _ (H a (or_introl eq_refl)) (IH (fun b Hb => H b (or_intror Hb)))) as Q. exact Q.
  Qed.
  Lemma cintegral_ext f g x y z : (forall t, f t = g t) -> cintegral f x y z -> cintegral g x y z.
  Proof. intros H [A B]. split; [eapply is_RInt_ext; [|exact A]|eapply is_RInt_ext; [|exact B]]; intros t _; cbn; rewrite H; reflexivity. Qed.
  Lemma cintegral_real (f : R -> R) c x y v : is_RInt f x y v -> cintegral (fun t => Cmult c (RtoC (f t))) x y (Cmult c (RtoC v)).
  Proof.
    intros H. split; cbn [fst snd Cmult RtoC].
    - replace (fst c * v - snd c * 0) with (scal (fst c) v) by (unfold scal; cbn; unfold mult; cbn; ring).
      eapply is_RInt_ext; [|exact (is_RInt_scal f x y (fst c) v H)]. intros t _. unfold scal; cbn; unfold mult; cbn. ring.
    - replace (fst c * 0 + snd c * v) with (scal (snd c) v) by (unfold scal; cbn; unfold mult; cbn; ring).
      eapply is_RInt_ext; [|exact (is_RInt_scal f x y (snd c) v H)]. intros t _. unfold scal; cbn; unfold mult; cbn. ring.
  Qed.
  Lemma freq_facts beta (k : Z) : 0 < beta -> let w := (2 * IZR k + 1) * PI / beta in w <> 0 /\ cos (w * beta) = -1 /\ sin (w * beta) = 0.
  Proof.
    intros Hb w. assert (Q : w * beta = PI + 2 * IZR k * PI) by (unfold w; field; lra).
    split.
    - intros H. unfold w in H. assert (H2 : 2 * IZR k + 1 = 0).
      { apply (Rmult_eq_reg_r (PI / beta)); [|apply Rgt_not_eq, Rdiv_lt_0_compat; [apply PI_RGT_0|lra]]. rewrite Rmult_0_l, <- H. field. lra. }
      assert (H3 : IZR (2 * k + 1) = IZR 0) by (rewrite plus_IZR, mult_IZR; lra). apply eq_IZR in H3. lia.
    - rewrite Q. destruct (Z_le_gt_dec 0 k) as [Hk|Hk].
      + replace (IZR k) with (INR (Z.to_nat k)) by (rewrite INR_IZR_INZ, Z2Nat.id by lia; reflexivity). rewrite cos_period, sin_period. split; [apply cos_PI|apply sin_PI].
      + split.
        * rewrite <- (cos_period _ (Z.to_nat (- k))). rewrite INR_IZR_INZ, Z2Nat.id, opp_IZR by lia. rewrite <- cos_PI. f_equal. ring.
        * rewrite <- (sin_period _ (Z.to_nat (- k))). rewrite INR_IZR_INZ, Z2Nat.id, opp_IZR by lia. rewrite <- sin_PI. f_equal. ring.
  Qed.
  Lemma term_fourier beta (k : Z) p c : 0 < beta -> let w := (2 * IZR k + 1) * PI / beta in
    cintegral (fun tau => Cmult (cis (w * tau)) (Cmult c (RtoC (ftau beta tau p)))) 0 beta (Cmult c (Cinv (Cminus (Cmult Ci (RtoC w)) (RtoC p)))).
  Proof.
    intros Hb w. destruct (freq_facts beta k Hb) as (Hw & Hc & Hs). fold w in Hw, Hc, Hs. pose proof (exp_pos (- beta * p)) as P1.
    assert (Hn : p * p + w * w <> 0) by (pose proof (Rsqr_pos_lt w Hw) as Q; unfold Rsqr in Q; nra).
    pose proof (int_cos p w beta Hn Hc Hs) as IC. pose proof (int_sin p w beta Hn Hc Hs) as IS.
    assert (IC' : is_RInt (fun t => cos (w * t) * ftau beta t p) 0 beta (- p / (p * p + w * w))).
    { replace (- p / (p * p + w * w)) with (scal (- / (1 + exp (- beta * p))) (p * (1 + exp (- beta * p)) / (p * p + w * w))) by (unfold scal; cbn; unfold mult; cbn; field; split; lra).
      eapply is_RInt_ext; [|exact (is_RInt_scal _ _ _ _ _ IC)]. intros t _. unfold ftau, scal; cbn; unfold mult; cbn. field. lra. }
    assert (IS' : is_RInt (fun t => sin (w * t) * ftau beta t p) 0 beta (- w / (p * p + w * w))).
    { replace (- w / (p * p + w * w)) with (scal (- / (1 + exp (- beta * p))) (w * (1 + exp (- beta * p)) / (p * p + w * w))) by (unfold scal; cbn; unfold mult; cbn; field; split; lra).
      eapply is_RInt_ext; [|exact (is_RInt_scal _ _ _ _ _ IS)]. intros t _. unfold ftau, scal; cbn; unfold mult; cbn. field. lra. }
    replace (Cmult c (Cinv (Cminus (Cmult Ci (RtoC w)) (RtoC p)))) with (Cplus (Cmult c (RtoC (- p / (p * p + w * w)))) (Cmult (Cmult Ci c) (RtoC (- w / (p * p + w * w))))).
    - eapply cintegral_ext; [|apply cintegral_add; [apply cintegral_real; exact IC'|apply cintegral_real; exact IS']]. intros t. cbv beta.
      rewrite !RtoC_mult. destruct c as [x y]. unfold cis, Cplus, Cmult, Ci, RtoC. cbn [fst snd]. f_equal; ring.
    - destruct c as [x y]. unfold Cminus, Copp, Cinv, Cplus, Cmult, Ci, RtoC. cbn [fst snd]. f_equal; field; repeat split; try exact Hn; intros Q; apply Hn; nra.
  Qed.

  (** ---- Legendre coefficients ---- *)
  Section Bessel.
    Variable cyl_bessel_i : R -> R -> R.
    Hypothesis HB : forall m x, 0 < x -> is_RInt (fun t => exp (x * t) * legendre_P m t) (-1) 1 (2 * (sqrt (PI / (2 * x)) * cyl_bessel_i (INR m + 0.5) x)).
    Lemma bessel_int m x : 0 <= x -> is_RInt (fun t => exp (x * t) * legendre_P m t) (-1) 1 (2 * mod_cyl_bessel_i cyl_bessel_i m x).
    Proof.
      intros Hx. unfold mod_cyl_bessel_i. destruct (Req_EM_T x 0) as [->|Hne]; [|apply HB; lra].
      pose proof (P_integral m) as Q. replace (2 * (if (m =? 0)%nat then 1 else 0)) with (if (m =? 0)%nat then 2 else 0) by (destruct (m =? 0)%nat; ring).
      eapply is_RInt_ext; [|exact Q]. intros t _. cbv beta. refine ((fun H : @eq R _ _ => H) _). replace (0 * t) with 0 by ring. rewrite exp_0. ring.
    Qed.
    Lemma bessel_neg m x : 0 <= x -> is_RInt (fun t => exp (- x * t) * legendre_P m t) (-1) 1 ((if Nat.even m then 1 else -1) * (2 * mod_cyl_bessel_i cyl_bessel_i m x)).
    Proof.
      intros Hx. pose proof (bessel_int m x Hx) as Q.
      assert (Q2 : is_RInt (fun y => scal (-1) ((fun t => exp (x * t) * legendre_P m t) (-1 * y + 0))) (-1) 1 (- (2 * mod_cyl_bessel_i cyl_bessel_i m x))).
      { apply (is_RInt_comp_lin (fun t => exp (x * t) * legendre_P m t) (-1) 0 (-1) 1). replace (-1 * -1 + 0) with 1 by ring. replace (-1 * 1 + 0) with (-1) by ring. exact (is_RInt_swap _ _ _ _ Q). }
      replace ((if Nat.even m then 1 else -1) * (2 * mod_cyl_bessel_i cyl_bessel_i m x)) with (scal (- (if Nat.even m then 1 else -1)) (- (2 * mod_cyl_bessel_i cyl_bessel_i m x))) by (unfold scal; cbn; unfold mult; cbn; ring).
      eapply is_RInt_ext; [|exact (is_RInt_scal _ _ _ _ _ Q2)]. intros t _. cbv beta. unfold scal; cbn; unfold mult; cbn.
      replace (-1 * t + 0) with (- t) by ring. rewrite P_parity. replace (x * - t) with (- x * t) by ring. destruct (Nat.even m); ring.
    Qed.
    Definition lsign (m : nat) (x : R) : R := if Nat.even m then 1 else if Rlt_dec x 0 then 1 else - 1.
    Lemma bessel_any m x : is_RInt (fun t => exp (- x * t) * legendre_P m t) (-1) 1 (2 * (lsign m x * mod_cyl_bessel_i cyl_bessel_i m (Rabs x))).
    Proof.
      unfold lsign. destruct (Rlt_dec x 0) as [Hx|Hx].
      - rewrite Rabs_left by exact Hx. replace (if Nat.even m then 1 else 1) with 1 by (destruct (Nat.even m); reflexivity). rewrite Rmult_1_l. apply bessel_int. lra.
      - rewrite Rabs_pos_eq by lra. replace (2 * ((if Nat.even m then 1 else - 1) * mod_cyl_bessel_i cyl_bessel_i m x)) with ((if Nat.even m then 1 else -1) * (2 * mod_cyl_bessel_i cyl_bessel_i m x)) by (destruct (Nat.even m); ring).
        apply bessel_neg. lra.
    Qed.
    Definition fleg (beta : R) (m : nat) (p : R) : R :=
      - beta / (2 * cosh (beta * p / 2)) * sqrt (2 * INR m + 1) * lsign m (beta * p / 2) * mod_cyl_bessel_i cyl_bessel_i m (Rabs (beta * p / 2)).
    Lemma l_step_eq beta m p r v : l_step S val cyl_bessel_i beta m p r v = Cplus v (Cmult (val r) (RtoC (fleg beta m p))).
    Proof. reflexivity. Qed.
    Lemma term_legendre beta m p : 0 < beta -> is_RInt (fun tau => sqrt (2 * INR m + 1) * legendre_P m (2 * tau / beta - 1) * ftau beta tau p) 0 beta (fleg beta m p).
    Proof.
      intros Hb. set (x := beta * p / 2). pose proof (bessel_any m x) as Q.
      assert (Q2 : is_RInt (fun y => scal (2 / beta) ((fun t => exp (- x * t) * legendre_P m t) (2 / beta * y + -1))) 0 beta (2 * (lsign m x * mod_cyl_bessel_i cyl_bessel_i m (Rabs x)))).
      { apply (is_RInt_comp_lin (fun t => exp (- x * t) * legendre_P m t) (2 / beta) (-1) 0 beta). replace (2 / beta * 0 + -1) with (-1) by (field; lra). replace (2 / beta * beta + -1) with 1 by (field; lra). exact Q. }
      assert (Pc : 0 < exp x + exp (- x)) by (pose proof (exp_pos x); pose proof (exp_pos (- x)); lra).
      replace (fleg beta m p) with (scal (- (beta / 2) * sqrt (2 * INR m + 1) / (2 * cosh x)) (2 * (lsign m x * mod_cyl_bessel_i cyl_bessel_i m (Rabs x)))).
      2:{ unfold fleg, scal; cbn; unfold mult; cbn. fold x. unfold cosh. field. lra. }
      eapply is_RInt_ext; [|exact (is_RInt_scal _ _ _ _ _ Q2)]. intros t _. cbv beta. unfold scal; cbn; unfold mult; cbn.
      replace (2 / beta * t + -1) with (2 * t / beta - 1) by (field; lra).
      assert (Q3 : exp (- x * (2 * t / beta - 1)) / (2 * cosh x) = exp (- t * p) / (1 + exp (- beta * p))).
      { unfold cosh. replace (- x * (2 * t / beta - 1)) with (- t * p + x) by (unfold x; field; lra). rewrite exp_plus.
        replace (exp (- beta * p)) with (exp (- x) * exp (- x)) by (rewrite <- exp_plus; f_equal; unfold x; field).
        replace (exp (- x)) with (/ exp x) by (symmetry; apply exp_Ropp). pose proof (exp_pos x) as Px. field. split; nra. }
      transitivity (- sqrt (2 * INR m + 1) * legendre_P m (2 * t / beta - 1) * (exp (- x * (2 * t / beta - 1)) / (2 * cosh x))); [unfold cosh; field; lra|]. rewrite Q3. unfold ftau. ring.
    Qed.
  End Bessel.
End Terms.
