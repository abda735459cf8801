(** Discontinuity, density, derivatives and examples for Green's functions of Legendre coefficients. *)
From Coq Require Import ZArith NArith List Arith Bool Lia Reals Lra.
From Coquelicot Require Import Coquelicot.
From Verif Require Import Base Matsubara LinMesh ThermalSpec Csum LehmannSpec Legendre Legendre_proofs LegendrePoly LegOrth Fourier FourierSpec Fourier_dft Fourier_lat Fourier_tail Fourier_mats Density Density_proofs LegGf LegGfSpec LegGf_int LegGf_proofs LegGf_tail.
Import ListNotations.
Local Open Scope R_scope.

(** ---- values at the ends ---- *)
Lemma x_beta beta : beta <> 0 -> 2 * beta / beta - 1 = 1. Proof. intros; field; assumption. Qed.
Lemma x_0 beta : 2 * 0 / beta - 1 = -1. Proof. unfold Rdiv. rewrite Rmult_0_r, Rmult_0_l. ring. Qed.
Lemma fun_beta beta nl gl : beta <> 0 -> leg_function beta nl gl beta = total nl (fun l => Cmult (RtoC (sqrt (2 * INR l + 1) / beta)) (gl l)).
Proof. intros Hb. unfold leg_function, total. apply csum_ext. intros l _. rewrite x_beta, P_one by exact Hb. rewrite Rmult_1_r. reflexivity. Qed.
Lemma thm_density beta nl gl i j : beta <> 0 -> density_leg beta nl gl i j = Copp (leg_function beta nl (fun l => gl l j i) beta).
Proof.
  intros Hb. rewrite fun_beta by exact Hb. unfold density_leg. cbv zeta.
  assert (Y : forall ls z, fold_left (fun r l => Cminus r (Cmult (RtoC (sqrt (INR (2 * l + 1)))) (gl l j i))) ls z = Cminus z (csum ls (fun l => Cmult (RtoC (sqrt (2 * INR l + 1))) (gl l j i)))).
  { induction ls as [|l ls IH]; intros z; cbn [fold_left]; [cbn; ring|]. rewrite IH, csum_cons, INR_odd. ring. }
  rewrite Y. unfold total. replace (csum (seq 0 nl) (fun l => Cmult (RtoC (sqrt (2 * INR l + 1) / beta)) (gl l j i))) with (Cmult (Cinv (RtoC beta)) (csum (seq 0 nl) (fun l => Cmult (RtoC (sqrt (2 * INR l + 1))) (gl l j i)))).
  - unfold Cdiv. ring.
  - rewrite <- csum_l. apply csum_ext. intros l _. unfold Rdiv. rewrite RtoC_mult, RtoC_inv by exact Hb. ring.
Qed.

(** ---- derivatives ---- *)
Lemma Q_comp beta k l t : is_derive (fun t => Q k l (2 * t / beta - 1)) t (2 / beta * Q (S k) l (2 * t / beta - 1)).
Proof.
  pose proof (is_derive_comp (K := R_AbsRing) (V := R_NormedModule) (Q k l) (fun t => 2 * t / beta - 1) t (Q (S k) l (2 * t / beta - 1)) (2 / beta) (Q_derive k l _)) as A.
  apply A. auto_derive; [trivial|]. unfold Rdiv. ring.
Qed.
Definition real_sum (beta : R) (nl : nat) (r : nat -> R) (k : nat) (t : R) : R :=
  fold_right (fun l s => sqrt (2 * INR l + 1) / beta * (2 / beta) ^ k * Q k l (2 * t / beta - 1) * r l + s) 0 (seq 0 nl).
Lemma sum_derive beta r k t : forall ls, is_derive (fun t => fold_right (fun l s => sqrt (2 * INR l + 1) / beta * (2 / beta) ^ k * Q k l (2 * t / beta - 1) * r l + s) 0 ls) t
  (fold_right (fun l s => sqrt (2 * INR l + 1) / beta * (2 / beta) ^ S k * Q (S k) l (2 * t / beta - 1) * r l + s) 0 ls).
Proof.
  induction ls as [|l ls IH]; cbn [fold_right]; [apply @is_derive_const|].
  apply (is_derive_plus (K := R_AbsRing) (V := R_NormedModule) (fun t => sqrt (2 * INR l + 1) / beta * (2 / beta) ^ k * Q k l (2 * t / beta - 1) * r l)); [|exact IH].
  apply (is_derive_ext (fun t => (sqrt (2 * INR l + 1) / beta * (2 / beta) ^ k * r l) * Q k l (2 * t / beta - 1))); [intros; toR; ring|].
  replace (sqrt (2 * INR l + 1) / beta * (2 / beta) ^ S k * Q (S k) l (2 * t / beta - 1) * r l) with ((sqrt (2 * INR l + 1) / beta * (2 / beta) ^ k * r l) * (2 / beta * Q (S k) l (2 * t / beta - 1))) by (cbn [pow]; ring).
  apply is_derive_scal. apply Q_comp.
Qed.
Lemma sum_derive_n beta nl r k : forall t, Derive_n (real_sum beta nl r 0) k t = real_sum beta nl r k t.
Proof.
  induction k as [|k IH]; intros t; [reflexivity|]. cbn [Derive_n]. rewrite (Derive_ext _ (real_sum beta nl r k)) by exact IH. apply is_derive_unique. exact (sum_derive beta r k t (seq 0 nl)).
Qed.
Lemma fun_fst beta nl gl t : fst (leg_function beta nl gl t) = real_sum beta nl (fun l => fst (gl l)) 0 t.
Proof.
  unfold leg_function, total, real_sum. rewrite csum_fst. induction (seq 0 nl) as [|l ls IH]; [reflexivity|]. cbn [fold_right]. rewrite IH. f_equal. cbn [pow]. change (Q 0 l (2 * t / beta - 1)) with (P l (2 * t / beta - 1)). cbn [fst snd Cmult RtoC]. ring.
Qed.
Lemma fun_snd beta nl gl t : snd (leg_function beta nl gl t) = real_sum beta nl (fun l => snd (gl l)) 0 t.
Proof.
  unfold leg_function, total, real_sum. rewrite csum_snd. induction (seq 0 nl) as [|l ls IH]; [reflexivity|]. cbn [fold_right]. rewrite IH. f_equal. cbn [pow]. change (Q 0 l (2 * t / beta - 1)) with (P l (2 * t / beta - 1)). cbn [fst snd Cmult RtoC]. ring.
Qed.
Lemma sum_as_c beta nl gl k t : (real_sum beta nl (fun l => fst (gl l)) k t, real_sum beta nl (fun l => snd (gl l)) k t) = total nl (fun l => Cmult (RtoC (sqrt (2 * INR l + 1) / beta * (2 / beta) ^ k * Q k l (2 * t / beta - 1))) (gl l)).
Proof.
  unfold total, real_sum. induction (seq 0 nl) as [|l ls IH]; [reflexivity|]. rewrite csum_cons, <- IH. cbn [fold_right]. apply Ceq; cbn [fst snd Cmult Cplus RtoC]; ring.
Qed.
Lemma derive_fun beta nl gl k t : cderive_n (leg_function beta nl gl) k t = total nl (fun l => Cmult (RtoC (sqrt (2 * INR l + 1) / beta * (2 / beta) ^ k * Q k l (2 * t / beta - 1))) (gl l)).
Proof.
  unfold cderive_n. rewrite <- sum_as_c. f_equal.
  - rewrite <- sum_derive_n. apply Derive_n_ext. intros; apply fun_fst.
  - rewrite <- sum_derive_n. apply Derive_n_ext. intros; apply fun_snd.
Qed.
Lemma thm_moments beta nl gl order k c : 0 < beta -> (S k < order)%nat ->
  moment (leg_tail beta nl gl order) (S k) c = Cmult (RtoC ((-1) ^ S k)) (Cplus (cderive_n (leg_function beta nl (fun l => gl l c)) k 0) (cderive_n (leg_function beta nl (fun l => gl l c)) k beta)).
Proof.
  intros Hb Ho. change (moment ?r ?p c) with (row r p c). rewrite tail_row by exact Ho. rewrite !derive_fun. unfold total. rewrite <- csum_add, <- csum_l. apply csum_ext. intros l _.
  rewrite t_ends, x_0, x_beta by lra.
  assert (E : (-1) ^ S k * (sqrt (2 * INR l + 1) / 2) * 2 ^ S k * (Q k l 1 + Q k l (-1)) / beta ^ S k = (-1) ^ S k * (sqrt (2 * INR l + 1) / beta * (2 / beta) ^ k * Q k l (-1) + sqrt (2 * INR l + 1) / beta * (2 / beta) ^ k * Q k l 1)).
  { replace ((2 / beta) ^ k) with (2 ^ k * / beta ^ k) by (unfold Rdiv; rewrite Rpow_mult_distr, pow_inv; reflexivity). cbn [pow]. assert (beta ^ k <> 0) by (apply pow_nonzero; lra). field. split; [assumption|lra]. }
  rewrite E, RtoC_mult, RtoC_plus. ring.
Qed.
(** the row of order zero *)
Lemma t_zero l : legendre_t (Z.of_nat l) 0 = if Nat.even l then 0 else 2 * sqrt (2 * INR l + 1).
Proof.
  unfold legendre_t. rewrite Z.add_0_r. assert (E : (Z.rem (Z.of_nat l) 2 =? 0)%Z = Nat.even l). { rewrite Z.rem_mod_nonneg by lia. rewrite Zmod_odd, <- Z.negb_even, even_nat. destruct (Nat.even l); reflexivity. }
  rewrite E. destruct (Nat.even l); [reflexivity|]. cbn [orb]. destruct (Z.ltb_spec (Z.of_nat l + 1) 0); [lia|]. cbv zeta.
  assert (U : lt_up (Z.to_nat (Z.of_nat l)) (Z.of_nat l - 1) (Z.of_nat l - 0 + 1) 1 = 1).
  { destruct (Z.to_nat (Z.of_nat l)); [reflexivity|]. cbn [lt_up]. destruct (Z.ltb_spec (Z.of_nat l - 0 + 1) (Z.of_nat l - 1)); [lia|reflexivity]. }
  rewrite U. cbn [Z.to_nat lt_down]. unfold powm1. cbn [Z.even]. replace (IZR (2 * Z.of_nat l + 1)) with (2 * INR l + 1) by (rewrite plus_IZR, mult_IZR, <- INR_IZR_INZ; reflexivity). ring.
Qed.
Lemma thm_row_zero beta nl gl order c : (0 < order)%nat -> moment (leg_tail beta nl gl order) 0 c = total nl (fun l => if Nat.even l then RtoC 0 else Cmult (RtoC (2 * sqrt (2 * INR l + 1))) (gl l c)).
Proof.
  intros Ho. change (moment ?r ?p c) with (row r p c). rewrite tail_row by exact Ho. apply csum_ext. intros l _. change (Z.of_nat 0) with 0%Z. rewrite t_zero. cbn [pow]. destruct (Nat.even l).
  - replace (0 / 1) with 0 by field. ring.
  - f_equal. f_equal. field.
Qed.

(** ---- discontinuity ---- *)
Definition tt (beta : R) (l : nat) : R := legendre_t (Z.of_nat l) 1 / beta.
Definition tnorm (beta : R) (nl : nat) : R := fold_right (fun l s => tt beta l * tt beta l + s) 0 (seq 0 nl).
Lemma t_one beta l : 0 < beta -> tt beta l = if Nat.even l then - (2 * sqrt (2 * INR l + 1) / beta) else 0.
Proof.
  intros Hb. unfold tt. pose proof (t_ends l 0) as T. change (Z.of_nat 1) with 1%Z in T. rewrite T, (Q_par1 0 l), Nat.add_0_r. change (Q 0 l 1) with (P l 1). rewrite P_one. destruct (Nat.even l); cbn [pow]; field; lra.
Qed.
Lemma fold_norm beta ls : forall z, fold_left (fun s i => s + legendre_t (Z.of_nat i) 1 / beta * (legendre_t (Z.of_nat i) 1 / beta)) ls z = z + fold_right (fun l s => tt beta l * tt beta l + s) 0 ls.
Proof. induction ls as [|l ls IH]; intros z; cbn [fold_left fold_right]; [ring|]. rewrite IH. unfold tt. ring. Qed.
Lemma tnorm_pos beta nl : 0 < beta -> (0 < nl)%nat -> 0 < tnorm beta nl.
Proof.
  intros Hb Hn. destruct nl as [|k]; [lia|]. unfold tnorm. cbn [seq fold_right].
  assert (H0 : 0 < tt beta 0 * tt beta 0).
  { rewrite t_one by exact Hb. cbn [Nat.even INR]. replace (2 * 0 + 1) with 1 by ring. rewrite sqrt_1. assert (0 < 2 * 1 / beta) by (apply Rdiv_lt_0_compat; lra). nra. }
  assert (H1 : forall ls, 0 <= fold_right (fun l s => tt beta l * tt beta l + s) 0 ls) by (induction ls as [|l ls IH]; cbn [fold_right]; [lra|]; pose proof (Rle_0_sqr (tt beta l)) as S0; unfold Rsqr in S0; lra).
  pose proof (H1 (seq 1 k)). lra.
Qed.
Definition first (beta : R) (nl : nat) (gl : nat -> C) : C := csum (seq 0 nl) (fun l => Cmult (RtoC (tt beta l)) (gl l)).
Lemma enforce_eq beta nl gl disc l c : 0 < beta -> (0 < nl)%nat ->
  enforce_discontinuity beta nl gl disc l c = Cplus (gl l c) (Cmult (RtoC (tt beta l / tnorm beta nl)) (Cminus (RtoC (disc c)) (first beta nl (fun l => gl l c)))).
Proof.
  intros Hb Hn. unfold enforce_discontinuity. cbv zeta. rewrite fold_norm, Rplus_0_l. fold (tnorm beta nl). pose proof (tnorm_pos beta nl Hb Hn) as Hp. fold (tt beta l).
  rewrite (fold_csum (fun l => Cmult (RtoC (legendre_t (Z.of_nat l) 1 / beta)) (gl l c))), Cplus_0_l. fold (first beta nl (fun l => gl l c)). change (csum (seq 0 nl) (fun l => Cmult (RtoC (legendre_t (Z.of_nat l) 1 / beta)) (gl l c))) with (first beta nl (fun l => gl l c)).
  f_equal. unfold Rdiv. rewrite RtoC_mult, RtoC_inv by lra. unfold Cdiv. ring.
Qed.
Lemma tt_sum beta nl : csum (seq 0 nl) (fun l => Cmult (RtoC (tt beta l)) (RtoC (tt beta l))) = RtoC (tnorm beta nl).
Proof. unfold tnorm. rewrite <- csum_real. apply csum_ext. intros l _. rewrite <- RtoC_mult. reflexivity. Qed.
Lemma first_after beta nl gl disc c : 0 < beta -> (0 < nl)%nat -> first beta nl (fun l => enforce_discontinuity beta nl gl disc l c) = RtoC (disc c).
Proof.
  intros Hb Hn. pose proof (tnorm_pos beta nl Hb Hn) as Hp. unfold first at 1.
  transitivity (csum (seq 0 nl) (fun l => Cplus (Cmult (RtoC (tt beta l)) (gl l c)) (Cmult (Cmult (RtoC (tt beta l)) (RtoC (tt beta l))) (Cmult (RtoC (/ tnorm beta nl)) (Cminus (RtoC (disc c)) (first beta nl (fun l => gl l c))))))).
  { apply csum_ext. intros l _. rewrite enforce_eq by assumption. unfold Rdiv. rewrite RtoC_mult. ring. }
  rewrite csum_add, csum_r, tt_sum. fold (first beta nl (fun l => gl l c)). rewrite RtoC_inv by lra. field. apply RtoC_nz. lra.
Qed.
Lemma first_moment beta nl gl : 0 < beta -> first beta nl gl = Copp (Cplus (leg_function beta nl gl 0) (leg_function beta nl gl beta)).
Proof.
  intros Hb. rewrite fun_beta by lra. unfold leg_function, total, first. rewrite <- csum_add. match goal with |- _ = Copp (csum ?l ?f) => transitivity (csum l (fun x => Cmult (RtoC (-1)) (f x))) end.
  - apply csum_ext. intros l _. rewrite t_one by exact Hb. rewrite x_0. change (P l (-1)) with (Q 0 l (-1)). rewrite Q_par1, Nat.add_0_r. change (Q 0 l 1) with (P l 1). rewrite P_one. destruct (Nat.even l); rewrite <- ?RtoC_mult; apply Ceq; cbn; field; lra.
  - rewrite csum_l. replace (RtoC (-1)) with (Copp (RtoC 1)) by (apply Ceq; cbn; ring). ring.
Qed.
Lemma thm_disc beta nl gl disc c : 0 < beta -> (0 < nl)%nat ->
  let G := leg_function beta nl (fun l => enforce_discontinuity beta nl gl disc l c) in Copp (Cplus (G 0) (G beta)) = RtoC (disc c).
Proof. intros Hb Hn. cbv zeta. rewrite <- first_moment by exact Hb. apply first_after; assumption. Qed.
(** least squares *)
Lemma Cmod_sq z : Cmod z ^ 2 = fst z * fst z + snd z * snd z.
Proof. unfold Cmod. rewrite <- Rsqr_pow2. rewrite Rsqr_sqrt by nra. ring. Qed.
Lemma pyth (d : C) (t : nat -> R) (e : nat -> C) ls : csum ls (fun l => Cmult (RtoC (t l)) (e l)) = RtoC 0 ->
  fold_right (fun l s => Cmod (Cplus (Cmult (RtoC (t l)) d) (e l)) ^ 2 + s) 0 ls = fold_right (fun l s => Cmod (Cmult (RtoC (t l)) d) ^ 2 + s) 0 ls + fold_right (fun l s => Cmod (e l) ^ 2 + s) 0 ls.
Proof.
  intros H. assert (G : fold_right (fun l s => Cmod (Cplus (Cmult (RtoC (t l)) d) (e l)) ^ 2 + s) 0 ls = fold_right (fun l s => Cmod (Cmult (RtoC (t l)) d) ^ 2 + s) 0 ls + fold_right (fun l s => Cmod (e l) ^ 2 + s) 0 ls
     + 2 * (fst d * fst (csum ls (fun l => Cmult (RtoC (t l)) (e l))) + snd d * snd (csum ls (fun l => Cmult (RtoC (t l)) (e l))))).
  { clear H. induction ls as [|l ls IH]; [cbn; ring|]. rewrite csum_cons. cbn [fold_right]. rewrite IH, !Cmod_sq. cbn [fst snd Cplus Cmult RtoC]. ring. }
  rewrite G, H. cbn. ring.
Qed.
Lemma squares_zero n f : squares n f = 0 -> forall l, (l < n)%nat -> f l = RtoC 0.
Proof.
  unfold squares. intros H. assert (N0 : forall ls, 0 <= fold_right (fun l s => Cmod (f l) ^ 2 + s) 0 ls) by (induction ls as [|l ls IH]; cbn [fold_right]; [lra|]; pose proof (pow2_ge_0 (Cmod (f l))); lra).
  assert (G : forall ls, fold_right (fun l s => Cmod (f l) ^ 2 + s) 0 ls = 0 -> forall l, In l ls -> Cmod (f l) ^ 2 = 0).
  { induction ls as [|a ls IH]; intros E l []; cbn [fold_right] in E; pose proof (pow2_ge_0 (Cmod (f a))); pose proof (N0 ls); [subst; lra|apply IH; [lra|assumption]]. }
  intros l Hl. specialize (G _ H l ltac:(apply in_seq; lia)). apply Cmod_eq_0. cbn in G. rewrite Rmult_1_r in G. apply Rmult_integral in G. tauto.
Qed.
Lemma thm_least beta nl gl disc c gl' : 0 < beta -> (0 < nl)%nat -> Copp (Cplus (leg_function beta nl gl' 0) (leg_function beta nl gl' beta)) = RtoC (disc c) ->
  let new l := enforce_discontinuity beta nl gl disc l c in
  squares nl (fun l => Cminus (new l) (gl l c)) <= squares nl (fun l => Cminus (gl' l) (gl l c)) /\
  (squares nl (fun l => Cminus (gl' l) (gl l c)) = squares nl (fun l => Cminus (new l) (gl l c)) -> forall l, (l < nl)%nat -> gl' l = new l).
Proof.
  intros Hb Hn H new. rewrite <- first_moment in H by exact Hb. set (d := Cmult (RtoC (/ tnorm beta nl)) (Cminus (RtoC (disc c)) (first beta nl (fun l => gl l c)))).
  assert (En : forall l, Cminus (new l) (gl l c) = Cmult (RtoC (tt beta l)) d). { intros l. unfold new, d. rewrite enforce_eq by assumption. unfold Rdiv. rewrite RtoC_mult. ring. }
  pose (e := fun l => Cminus (gl' l) (new l)).
  assert (Ee : csum (seq 0 nl) (fun l => Cmult (RtoC (tt beta l)) (e l)) = RtoC 0).
  { transitivity (Cminus (first beta nl gl') (first beta nl new)).
    - unfold first. transitivity (Cplus (csum (seq 0 nl) (fun l => Cmult (RtoC (tt beta l)) (gl' l))) (Cmult (RtoC (-1)) (csum (seq 0 nl) (fun l => Cmult (RtoC (tt beta l)) (new l))))).
      + rewrite <- csum_l, <- csum_add. apply csum_ext. intros l _. unfold e. replace (RtoC (-1)) with (Copp (RtoC 1)) by (apply Ceq; cbn; ring). ring.
      + replace (RtoC (-1)) with (Copp (RtoC 1)) by (apply Ceq; cbn; ring). ring.
    - unfold new. rewrite first_after by assumption. rewrite H. ring. }
  pose proof (pyth d (tt beta) e (seq 0 nl) Ee) as Py.
  assert (S1 : squares nl (fun l => Cminus (gl' l) (gl l c)) = fold_right (fun l s => Cmod (Cplus (Cmult (RtoC (tt beta l)) d) (e l)) ^ 2 + s) 0 (seq 0 nl)).
  { clear - En. unfold squares. induction (seq 0 nl) as [|l ls IH]; [reflexivity|]. cbn [fold_right]. rewrite IH, <- En. unfold e. replace (Cplus (Cminus (new l) (gl l c)) (Cminus (gl' l) (new l))) with (Cminus (gl' l) (gl l c)) by ring. reflexivity. }
  assert (S2 : squares nl (fun l => Cminus (new l) (gl l c)) = fold_right (fun l s => Cmod (Cmult (RtoC (tt beta l)) d) ^ 2 + s) 0 (seq 0 nl)).
  { clear - En. unfold squares. induction (seq 0 nl) as [|l ls IH]; [reflexivity|]. cbn [fold_right]. rewrite IH, <- En. reflexivity. }
  assert (S3 : 0 <= squares nl e) by (clear; unfold squares; induction (seq 0 nl) as [|l ls IH]; cbn [fold_right]; [lra|]; pose proof (pow2_ge_0 (Cmod (e l))); lra).
  rewrite S1, S2, Py. fold (squares nl e). split; [lra|]. intros E l Hl. assert (Z0 : squares nl e = 0) by lra. pose proof (squares_zero nl e Z0 l Hl) as Zl. unfold e in Zl.
  replace (gl' l) with (Cplus (Cminus (gl' l) (new l)) (new l)) by ring. rewrite Zl. ring.
Qed.
Lemma thm_idem beta nl gl disc l c : 0 < beta -> (0 < nl)%nat ->
  enforce_discontinuity beta nl (enforce_discontinuity beta nl gl disc) disc l c = enforce_discontinuity beta nl gl disc l c.
Proof.
  intros Hb Hn. rewrite (enforce_eq beta nl (enforce_discontinuity beta nl gl disc)) by assumption. rewrite first_after by assumption. ring.
Qed.
Lemma thm_odd_kept beta nl gl disc l c : 0 < beta -> (0 < nl)%nat -> Nat.even l = false -> enforce_discontinuity beta nl gl disc l c = gl l c.
Proof. intros Hb Hn Hl. rewrite enforce_eq by assumption. rewrite t_one, Hl by exact Hb. replace (0 / tnorm beta nl) with 0 by (unfold Rdiv; ring). ring. Qed.
Lemma thm_even_moments beta nl gl disc order p c : 0 < beta -> (0 < nl)%nat -> (p < order)%nat -> Nat.even p = true ->
  moment (leg_tail beta nl (enforce_discontinuity beta nl gl disc) order) p c = moment (leg_tail beta nl gl order) p c.
Proof.
  intros Hb Hn Hp He. change (moment ?r ?p c) with (row r p c). rewrite !tail_row by exact Hp. apply csum_ext. intros l _. destruct (Nat.even l) eqn:El; [|rewrite thm_odd_kept by assumption; reflexivity].
  replace (legendre_t (Z.of_nat l) (Z.of_nat p)) with 0; [replace (0 / beta ^ p) with 0 by (unfold Rdiv; ring); ring|].
  unfold legendre_t. replace (Z.rem (Z.of_nat l + Z.of_nat p) 2 =? 0)%Z with true; [reflexivity|]. rewrite Z.rem_mod_nonneg by lia. rewrite Zmod_odd, <- Z.negb_even, Z.even_add, !even_nat, El, He. reflexivity.
Qed.
