(** Fourier transforms between imaginary times and Matsubara frequencies. *)
From Coq Require Import ZArith Reals List Bool Arith Lia Lra.
From Coquelicot Require Import Coquelicot.
From Verif Require Import Base Matsubara LinMesh Mesh Lattice ThermalSpec Csum Fourier FourierSpec Fourier_dft Fourier_lat Fourier_real Fourier_riemann.
Import ListNotations.
Local Open Scope R_scope.

(** ---- meshes ---- *)
Lemma it_pt_eq beta s L j : (0 < L)%nat -> it_pt (tau_mesh beta s L) j = tau_pt beta L j.
Proof.
  intros H. unfold it_pt, li_pt, li_value, tau_mesh, it_make, li_make, tau_pt. cbn [it_lin li_L li_min li_max]. destruct (Z.eqb_spec (Z.of_nat L + 1) 1) as [E|_]; [lia|].
  rewrite plus_IZR, <- !INR_IZR_INZ. field. apply not_0_INR. lia.
Qed.
Lemma it_rows_eq beta s L : it_rows (tau_mesh beta s L) = (L + 1)%nat.
Proof. unfold it_rows, li_rows, tau_mesh, it_make, li_make. cbn [it_lin li_L]. lia. Qed.
Lemma iw_pt_eq m n : iw_pt m n = i_omega (if_beta m) (if_stat m) n.
Proof. unfold iw_pt, i_omega, fr_value. cbn [fr_n fr_beta fr_stat]. destruct (if_stat m); reflexivity. Qed.
Lemma pm_sq s : pm s * pm s = 1. Proof. destruct s; cbn; ring. Qed.
Lemma tau_0 beta L : tau_pt beta L 0 = 0. Proof. unfold tau_pt. cbn. ring. Qed.
Lemma tau_L beta L : (0 < L)%nat -> tau_pt beta L L = beta.
Proof. intros H. unfold tau_pt. field. apply not_0_INR. lia. Qed.
Lemma wave_0 beta s n : matsubara_wave beta s n 0 = RtoC 1.
Proof. unfold matsubara_wave. rewrite Rmult_0_r. apply expi_0. Qed.
Lemma expi_pi : expi PI = RtoC (-1).
Proof. apply Ceq; cbn; [apply cos_PI|apply sin_PI]. Qed.
Lemma wave_beta beta s n : beta <> 0 -> matsubara_wave beta s n beta = RtoC (pm s).
Proof.
  intros H. unfold matsubara_wave, pm. destruct s.
  - rewrite Z.add_0_r, mult_IZR. replace (PI * (2 * IZR n) / beta * beta) with (2 * PI * IZR n) by (field; exact H). apply expi_2pi.
  - rewrite plus_IZR, mult_IZR. replace (PI * (2 * IZR n + 1) / beta * beta) with (PI + 2 * PI * IZR n) by (field; exact H). rewrite expi_period. apply expi_pi.
Qed.
(** the phase of a row of the transform *)
Lemma wrap_mod w L : (0 < L)%nat -> (- Z.of_nat L <= w)%Z -> wrap w L = (w mod Z.of_nat L)%Z.
Proof.
  intros HL H. unfold wrap. rewrite Z.rem_mod_nonneg by lia. replace (w + Z.of_nat L)%Z with (w + 1 * Z.of_nat L)%Z by ring. apply Z.mod_add. lia.
Qed.
Lemma wrap_row w L : (0 < L)%nat -> (- Z.of_nat L <= w)%Z -> (Z.to_nat (wrap w L) < L)%nat /\ Z.of_nat (Z.to_nat (wrap w L)) = wrap w L.
Proof. intros HL H. rewrite wrap_mod by assumption. pose proof (Z.mod_pos_bound w (Z.of_nat L) ltac:(lia)). lia. Qed.
Lemma expi_wrap (sgn : Z) w L j : (0 < L)%nat -> (- Z.of_nat L <= w)%Z ->
  expi (IZR sgn * (2 * PI * (INR j * INR (Z.to_nat (wrap w L)) / INR L))) = expi (IZR sgn * (2 * PI * (INR j * IZR w / INR L))).
Proof.
  intros HL H. destruct (wrap_row w L HL H) as [_ E]. rewrite (INR_IZR_INZ (Z.to_nat (wrap w L))), E, wrap_mod by assumption.
  rewrite <- (expi_period (IZR sgn * (2 * PI * (INR j * IZR (w mod Z.of_nat L) / INR L))) (sgn * (Z.of_nat j * (w / Z.of_nat L)))). f_equal.
  assert (Q : IZR w = IZR (Z.of_nat L) * IZR (w / Z.of_nat L) + IZR (w mod Z.of_nat L)) by (rewrite <- mult_IZR, <- plus_IZR; f_equal; apply Z.div_mod; lia).
  rewrite Q, !mult_IZR, <- !INR_IZR_INZ. field. apply not_0_INR. lia.
Qed.
Definition ph (s : statistic) (beta : R) (sgn tau : R) : C := match s with Fermion => expi (sgn * (PI / beta * tau)) | Boson => RtoC 1 end.
Lemma ph_wave s beta L j w : beta <> 0 -> (0 < L)%nat ->
  Cmult (ph s beta 1 (tau_pt beta L j)) (expi (1 * (2 * PI * (INR j * IZR w / INR L)))) = matsubara_wave beta s w (tau_pt beta L j).
Proof.
  intros Hb HL. assert (HR : INR L <> 0) by (apply not_0_INR; lia). unfold ph, matsubara_wave, tau_pt. destruct s.
  - rewrite Cmult_1_l. f_equal. rewrite Z.add_0_r, mult_IZR. field. split; assumption.
  - rewrite <- expi_add. f_equal. rewrite plus_IZR, mult_IZR. field. split; assumption.
Qed.
Lemma ph_wave_neg s beta L j w : beta <> 0 -> (0 < L)%nat ->
  Cmult (ph s beta (-1) (tau_pt beta L j)) (expi (-1 * (2 * PI * (INR j * IZR w / INR L)))) = Cconj (matsubara_wave beta s w (tau_pt beta L j)).
Proof.
  intros Hb HL. assert (HR : INR L <> 0) by (apply not_0_INR; lia). unfold ph, matsubara_wave, tau_pt. destruct s.
  - rewrite Cmult_1_l, <- expi_opp. f_equal. rewrite Z.add_0_r, mult_IZR. field. split; assumption.
  - rewrite <- expi_add, <- expi_opp. f_equal. rewrite plus_IZR, mult_IZR. field. split; assumption.
Qed.

(** ---- the tail ---- *)
Lemma fermion_eq a b tau beta : one_fermion a b tau beta = Copp (Cmult a (RtoC (exp (- b * tau) / (1 + exp (- beta * b))))).
Proof.
  unfold one_fermion. replace (Copp (Cmult a (RtoC (exp (- b * tau) / (1 + exp (- beta * b)))))) with (Cmult (Copp a) (RtoC (exp (- b * tau) / (1 + exp (- beta * b))))) by ring. f_equal. f_equal.
  destruct (Rle_dec 0 b) as [_|_]; [reflexivity|]. pose proof (exp_pos (beta * b)). pose proof (exp_pos (- beta * b)).
  replace (b * (beta - tau)) with (beta * b + - b * tau) by ring. rewrite exp_plus. replace (exp (- beta * b)) with (/ exp (beta * b)) by (rewrite <- exp_Ropp; f_equal; ring). field. split; lra.
Qed.
Lemma exp_ne_1 x : x <> 0 -> exp x <> 1.
Proof. intros H E. rewrite <- exp_0 in E. apply exp_inv in E. contradiction. Qed.
Lemma boson_eq a b tau beta : b <> 0 -> beta <> 0 -> one_boson a b tau beta = Copp (Cmult a (RtoC (exp (- b * tau) / (1 - exp (- beta * b))))).
Proof.
  intros Hb Hbeta. unfold one_boson. assert (E1 : exp (- beta * b) <> 1) by (apply exp_ne_1; nra). assert (E2 : exp (beta * b) <> 1) by (apply exp_ne_1; nra).
  transitivity (Cmult a (RtoC (- (exp (- b * tau) / (1 - exp (- beta * b)))))); [|rewrite RtoC_opp; ring]. f_equal. f_equal.
  destruct (Rle_dec 0 b) as [_|_].
  - field. split; lra.
  - pose proof (exp_pos (beta * b)). replace (b * (beta - tau)) with (beta * b + - b * tau) by ring. rewrite exp_plus. rewrite (Rmult_comm b beta). replace (exp (- beta * b)) with (/ exp (beta * b)) by (rewrite <- exp_Ropp; f_equal; ring).
    field. split; [lra|]. split; lra.
Qed.
Definition good_pole (s : statistic) (b : R) : Prop := match s with Fermion => True | Boson => b <> 0 end.
Lemma one_eq s a b tau beta : good_pole s b -> beta <> 0 -> one_pole s a b tau beta = Copp (Cmult a (RtoC (exp (- b * tau) / (1 - pm s * exp (- beta * b))))).
Proof.
  intros Hg Hb. destruct s; cbn [one_pole pm].
  - rewrite boson_eq by assumption. do 3 f_equal. f_equal. ring.
  - rewrite fermion_eq. do 3 f_equal. f_equal. ring.
Qed.
Lemma den_nz s b beta : good_pole s b -> beta <> 0 -> 1 - pm s * exp (- beta * b) <> 0.
Proof.
  intros Hg Hb. destruct s; cbn [pm].
  - assert (E1 : exp (- beta * b) <> 1) by (apply exp_ne_1; cbn in Hg; nra). lra.
  - pose proof (exp_pos (- beta * b)). lra.
Qed.
Lemma good_poles s i : good_pole s (pole s i).
Proof. destruct s; [|exact I]. destruct i as [|[|i]]; cbn; lra. Qed.
(** the jump of one pole over the period *)
Lemma one_jump s a b beta : good_pole s b -> beta <> 0 -> one_pole s a b beta beta = Cmult (RtoC (pm s)) (Cplus (one_pole s a b 0 beta) a).
Proof.
  intros Hg Hb. rewrite !one_eq by assumption. pose proof (den_nz s b beta Hg Hb) as Hd. rewrite Rmult_0_r, exp_0.
  replace (- b * beta) with (- beta * b) by ring. set (e := exp (- beta * b)) in *. clearbody e.
  replace (e / (1 - pm s * e)) with (pm s * (1 / (1 - pm s * e)) - pm s).
  - rewrite RtoC_minus, RtoC_mult. ring.
  - pose proof (pm_sq s) as P. replace (pm s * (1 / (1 - pm s * e)) - pm s) with (pm s * pm s * e / (1 - pm s * e)) by (field; exact Hd). rewrite P. unfold Rdiv. ring.
Qed.
Lemma weights_sum s m1 m2 m3 : Cplus (Cplus (weight s m1 m2 m3 0) (weight s m1 m2 m3 1)) (weight s m1 m2 m3 2) = m1.
Proof.
  assert (H2 : RtoC 2 <> RtoC 0) by (apply RtoC_nz; lra). assert (H3 : RtoC 3 <> RtoC 0) by (apply RtoC_nz; lra).
  destruct s; cbn [weight].
  - replace (RtoC 4) with (Cmult (RtoC 2) (RtoC 2)) by (rewrite <- RtoC_mult; f_equal; lra). replace (RtoC 6) with (Cmult (RtoC 2) (RtoC 3)) by (rewrite <- RtoC_mult; f_equal; lra).
    transitivity (Cplus m1 (Cmult (Cdiv (Cminus (Cminus (RtoC 3) (RtoC 2)) (RtoC 1)) (RtoC 1)) m3)).
    2:{ replace (Cminus (Cminus (RtoC 3) (RtoC 2)) (RtoC 1)) with (RtoC 0) by (apply Ceq; cbn; ring). field. apply RtoC_nz. lra. }
    apply Ceq; unfold Cdiv; cbn; field.
  - apply Ceq; unfold Cdiv; cbn; field.
Qed.
Lemma tail_jump s beta m1 m2 m3 : beta <> 0 -> tail_tau s beta m1 m2 m3 beta = Cmult (RtoC (pm s)) (Cplus (tail_tau s beta m1 m2 m3 0) m1).
Proof.
  intros Hb. unfold tail_tau. rewrite (one_jump s _ (pole s 0)), (one_jump s _ (pole s 1)), (one_jump s _ (pole s 2)) by (apply good_poles || exact Hb).
  pose proof (weights_sum s m1 m2 m3) as W. set (a := weight s m1 m2 m3 0) in *. set (b := weight s m1 m2 m3 1) in *. set (c := weight s m1 m2 m3 2) in *. clearbody a b c. rewrite <- W. ring.
Qed.

(** ---- tau to i omega ---- *)
Lemma mesh_range iwm L d : tau_fits iwm L -> (d < Z.to_nat (if_size iwm))%nat -> (- Z.of_nat L <= if_to_index iwm (Z.of_nat d) <= if_last iwm)%Z.
Proof.
  intros (HL & Hn & H2) Hd. unfold if_to_index, if_size, if_first, if_last in *. destruct (if_pos iwm), (if_stat iwm); cbn [stat_eqb] in *; lia.
Qed.
Lemma direct_known iwm s' L beta n gt km : 0 < beta -> if_beta iwm = beta -> tau_fits iwm L -> vanishing n (row km 0) = true ->
  exists gw, fourier_tau_to_iw_known iwm (tau_mesh beta s' L) n gt km = Ok gw /\
    forall d c, (d < Z.to_nat (if_size iwm))%nat ->
      let s := if_stat iwm in let w := if_to_index iwm (Z.of_nat d) in
      gw d c = Cplus (trapezoid beta L (fun j => Cmult (matsubara_wave beta s w (tau_pt beta L j)) (Cminus (gt j c) (tail_tau s beta (row km 1 c) (row km 2 c) (row km 3 c) (tau_pt beta L j)))))
                     (tail_iw s (row km 1 c) (row km 2 c) (row km 3 c) (i_omega beta s w)).
Proof.
  intros Hb Eb Hf Hv. pose proof Hf as (HL & Hn & H2). assert (Hb0 : beta <> 0) by lra. unfold fourier_tau_to_iw_known. rewrite Hv. cbn [negb]. rewrite it_rows_eq. replace (L + 1 - 1)%nat with L by lia.
  change (it_beta (tau_mesh beta s' L)) with beta. destruct (Z.ltb_spec (Z.of_nat L) (2 * (if_last iwm + 1))) as [H|_]; [unfold if_last in H; lia|].
  cbv zeta. rewrite base_ok by (cbn [prodn]; lia). cbn [bind]. eexists. split; [reflexivity|]. intros d c Hd. cbv beta.
  pose proof (mesh_range iwm L d Hf Hd) as [R1 R2]. set (w := if_to_index iwm (Z.of_nat d)) in *. set (s := if_stat iwm).
  destruct (wrap_row w L HL R1) as [W1 _]. cbn [prodn]. rewrite Nat.mul_1_r. destruct (Nat.ltb_spec (Z.to_nat (wrap w L)) L) as [_|]; [|lia].
  cbn [Nat.ltb Nat.leb]. set (m1 := row km 1 c). set (m2 := row km 2 c). set (m3 := row km 3 c).
  rewrite iw_pt_eq, Eb. fold s. apply (f_equal (fun z => Cplus z (tail_iw s m1 m2 m3 (i_omega beta s w)))).
  set (f := fun j => Cmult (matsubara_wave beta s w (tau_pt beta L j)) (Cminus (gt j c) (tail_tau s beta m1 m2 m3 (tau_pt beta L j)))).
  unfold trapezoid. change (total L (fun j => Cmult (matsubara_wave beta s w (tau_pt beta L j)) (Cminus (gt j c) (tail_tau s beta m1 m2 m3 (tau_pt beta L j))))) with (total L f).
  assert (E : dft FFTW_BACKWARD [L] (fun j => Cmult (Cmult (RtoC (beta / INR L)) (match s with Fermion => expi (PI / beta * it_pt (tau_mesh beta s' L) j) | Boson => RtoC 1 end)) (Cminus (gt j c) (tail_tau s beta m1 m2 m3 (it_pt (tau_mesh beta s' L) j)))) (Z.to_nat (wrap w L)) = Cmult (RtoC (beta / INR L)) (total L f)).
  { unfold dft, total. cbn [prodn]. rewrite Nat.mul_1_r, <- csum_l. apply csum_ext. intros j _. rewrite it_pt_eq by exact HL. rewrite turns_1. unfold FFTW_BACKWARD. rewrite (expi_wrap 1 w L j HL R1). unfold f.
    rewrite <- (ph_wave s beta L j w Hb0 HL). unfold ph. destruct s; [ring|]. rewrite !Rmult_1_l. ring. }
  rewrite E. change (total L (fun j => f j)) with (total L f). set (T := total L f). clearbody T. unfold f.
  rewrite (tau_L beta L HL), tau_0, wave_0, (wave_beta beta s w Hb0), tail_jump by exact Hb0.
  replace (RtoC (- (1 / 2) * (beta / INR L))) with (Cmult (RtoC (beta / INR L)) (Copp (RtoC (1 / 2)))) by (rewrite <- RtoC_opp, <- RtoC_mult; f_equal; ring).
  assert (P : Cmult (RtoC (pm s)) (RtoC (pm s)) = RtoC 1) by (rewrite <- RtoC_mult, pm_sq; reflexivity).
  replace (RtoC (match s with Fermion => 1 | Boson => -1 end)) with (Copp (RtoC (pm s))) by (rewrite <- RtoC_opp; f_equal; destruct s; cbn; ring).
  set (T0 := tail_tau s beta m1 m2 m3 0). set (p := RtoC (pm s)) in *.
  replace (Cmult p (Cminus (gt L c) (Cmult p (Cplus T0 m1)))) with (Cminus (Cmult p (gt L c)) (Cmult (Cmult p p) (Cplus T0 m1))) by ring. rewrite P. ring.
Qed.

(** ---- i omega to tau ---- *)
Section Scatter.
  Variables (h : nat -> Z) (v : nat -> nat -> C).
  Definition scatter (ds : list nat) : data := fold_left (fun (g : data) d => fun r c => if (Z.of_nat r =? h d)%Z then v d c else g r c) ds (fun _ _ => RtoC 0).
  Lemma scatter_snoc ds d r c : scatter (ds ++ [d]) r c = if (Z.of_nat r =? h d)%Z then v d c else scatter ds r c.
  Proof. unfold scatter. rewrite fold_left_app. reflexivity. Qed.
  Lemma scatter_out ds r c : (forall d, In d ds -> h d <> Z.of_nat r) -> scatter ds r c = RtoC 0.
  Proof.
    induction ds as [|d ds IH] using rev_ind; intros H; [reflexivity|]. rewrite scatter_snoc. destruct (Z.eqb_spec (Z.of_nat r) (h d)) as [E|_].
    - exfalso. apply (H d); [apply in_or_app; right; left; reflexivity|congruence].
    - apply IH. intros x Hx. apply H, in_or_app. left. exact Hx.
  Qed.
  Lemma scatter_sum (e : nat -> C) L ds c : NoDup (map h ds) -> (forall d, In d ds -> (0 <= h d < Z.of_nat L)%Z) ->
    csum (seq 0 L) (fun r => Cmult (scatter ds r c) (e r)) = csum ds (fun d => Cmult (v d c) (e (Z.to_nat (h d)))).
  Proof.
    induction ds as [|d ds IH] using rev_ind; intros Hn Hr.
    - rewrite csum_zero; [reflexivity|]. intros r _. cbn. ring.
    - rewrite csum_app, csum_cons. rewrite map_app in Hn. cbn [map] in Hn. apply NoDup_remove in Hn. rewrite app_nil_r in Hn. destruct Hn as [Hn1 Hn2].
      rewrite <- IH; [|exact Hn1|intros x Hx; apply Hr, in_or_app; left; exact Hx].
      rewrite (csum_ext _ (fun r => Cplus (Cmult (scatter ds r c) (e r)) (if (r =? Z.to_nat (h d))%nat then Cmult (v d c) (e r) else RtoC 0))).
      + rewrite csum_add. f_equal. assert (Hd : (0 <= h d < Z.of_nat L)%Z) by (apply Hr, in_or_app; right; left; reflexivity).
        rewrite (csum_single _ L (Z.to_nat (h d))) by (lia || (intros i Hi Hne; destruct (Nat.eqb_spec i (Z.to_nat (h d))); [contradiction|reflexivity])).
        rewrite Nat.eqb_refl. unfold csum. cbn [fold_right]. ring.
      + intros r _. rewrite scatter_snoc. assert (Hd : (0 <= h d < Z.of_nat L)%Z) by (apply Hr, in_or_app; right; left; reflexivity).
        destruct (Z.eqb_spec (Z.of_nat r) (h d)) as [E|E]; destruct (Nat.eqb_spec r (Z.to_nat (h d))) as [E'|E']; try lia; [|ring].
        rewrite scatter_out; [ring|]. intros x Hx Q. apply Hn2. rewrite <- E, <- Q. apply in_map. exact Hx.
  Qed.
End Scatter.

Lemma NoDup_map_on {A B} (f : A -> B) l : (forall x y, In x l -> In y l -> f x = f y -> x = y) -> NoDup l -> NoDup (map f l).
Proof.
  induction l as [|a l IH]; intros H Hn; [constructor|]. inversion Hn as [|? ? N1 N2]. subst. cbn [map]. constructor.
  - intros Q. apply in_map_iff in Q. destruct Q as (y & E & Hy). apply N1. rewrite (H a y); [exact Hy|left; reflexivity|right; exact Hy|congruence].
  - apply IH; [|exact N2]. intros x y Hx Hy. apply H; right; assumption.
Qed.
Lemma same_row iwm L d d' : tau_fits iwm L -> (d < Z.to_nat (if_size iwm))%nat -> (d' < Z.to_nat (if_size iwm))%nat ->
  ((if_to_index iwm (Z.of_nat d) - if_to_index iwm (Z.of_nat d')) mod Z.of_nat L = 0)%Z -> d = d'.
Proof.
  intros (HL & Hn & H2) Hd Hd' E. apply Z.mod_divide in E; [|lia]. destruct E as [k E].
  assert (B : (- Z.of_nat L < if_to_index iwm (Z.of_nat d) - if_to_index iwm (Z.of_nat d') < Z.of_nat L)%Z).
  { unfold if_to_index, if_size, if_first, if_last in *. destruct (if_pos iwm), (if_stat iwm); cbn [stat_eqb] in *; lia. }
  rewrite E in B. assert (k = 0)%Z by nia. subst k. unfold if_to_index in E. lia.
Qed.
Lemma inverse_known iwm s' L beta n gw km : 0 < beta -> if_beta iwm = beta -> tau_fits iwm L -> vanishing n (row km 0) = true ->
  exists gt, fourier_iw_to_tau_known (tau_mesh beta s' L) iwm n gw km = Ok gt /\
    let s := if_stat iwm in
    (forall j c, (j < L)%nat -> gt j c = Cplus (Cmult (RtoC (1 / beta)) (csum (seq 0 (Z.to_nat (if_size iwm))) (fun d =>
        Cmult (Cconj (matsubara_wave beta s (if_to_index iwm (Z.of_nat d)) (tau_pt beta L j)))
              (Cminus (gw d c) (tail_iw s (row km 1 c) (row km 2 c) (row km 3 c) (i_omega beta s (if_to_index iwm (Z.of_nat d))))))))
        (tail_tau s beta (row km 1 c) (row km 2 c) (row km 3 c) (tau_pt beta L j))) /\
    (forall c, gt L c = Cmult (RtoC (pm s)) (Cplus (gt 0%nat c) (row km 1 c))).
Proof.
  intros Hb Eb Hf Hv. pose proof Hf as (HL & Hn & H2). assert (Hb0 : beta <> 0) by lra. unfold fourier_iw_to_tau_known. rewrite Hv. cbn [negb]. rewrite it_rows_eq. replace (L + 1 - 1)%nat with L by lia.
  change (it_beta (tau_mesh beta s' L)) with beta. destruct (Z.ltb_spec (Z.of_nat L) (2 * (if_last iwm + 1))) as [H|_]; [unfold if_last in H; lia|].
  cbv zeta. set (s := if_stat iwm).
  set (v := fun d c => Cmult (RtoC (1 / beta)) (Cminus (gw (Z.to_nat (if_to_data iwm (if_to_index iwm (Z.of_nat d)))) c) (tail_iw s (row km 1 c) (row km 2 c) (row km 3 c) (iw_pt iwm (if_to_index iwm (Z.of_nat d)))))).
  set (h := fun d => wrap (if_to_index iwm (Z.of_nat d)) L).
  match goal with |- context [fourier_base FFTW_FORWARD [L] L (L + 1) ?g] => change g with (scatter h v (seq 0 (Z.to_nat (if_size iwm)))) end.
  rewrite base_ok by (cbn [prodn]; lia). cbn [bind]. eexists. split; [reflexivity|]. cbv beta. split.
  2:{ intros c. rewrite Nat.eqb_refl. destruct (Nat.eqb_spec 0 L) as [E|_]; [lia|]. destruct s; reflexivity. }
  intros j c Hj. destruct (Nat.eqb_spec j L) as [E|_]; [lia|]. cbn [prodn]. rewrite Nat.mul_1_r. destruct (Nat.ltb_spec j L) as [_|]; [|lia].
  rewrite it_pt_eq by exact HL. f_equal. unfold dft. cbn [prodn]. rewrite Nat.mul_1_r.
  rewrite (scatter_sum h v (fun r => expi (FFTW_FORWARD * (2 * PI * turns [L] r j)))).
  2:{ apply NoDup_map_on; [|apply seq_NoDup]. intros d d' Hd Hd' E. apply in_seq in Hd. apply in_seq in Hd'. apply (same_row iwm L); try lia; [exact Hf|].
      unfold h in E. pose proof (mesh_range iwm L d Hf ltac:(lia)) as [R1 _]. pose proof (mesh_range iwm L d' Hf ltac:(lia)) as [R2 _]. rewrite !wrap_mod in E by assumption.
      rewrite Zminus_mod, E, Z.sub_diag. apply Z.mod_0_l. lia. }
  2:{ intros d Hd. apply in_seq in Hd. pose proof (mesh_range iwm L d Hf ltac:(lia)) as [R1 _]. destruct (wrap_row _ L HL R1) as [W1 W2]. unfold h. rewrite <- W2. lia. }
  rewrite <- csum_r, <- csum_l. apply csum_ext. intros d Hd. apply in_seq in Hd. pose proof (mesh_range iwm L d Hf ltac:(lia)) as [R1 _].
  unfold v, h. replace (Z.to_nat (if_to_data iwm (if_to_index iwm (Z.of_nat d)))) with d by (unfold if_to_data, if_to_index; lia).
  rewrite iw_pt_eq, Eb. fold s. rewrite <- (ph_wave_neg s beta L j _ Hb0 HL). rewrite turns_1, (Rmult_comm (INR (Z.to_nat _)) (INR j)). unfold FFTW_FORWARD.
  rewrite (expi_wrap (-1) _ L j HL R1). unfold ph. destruct s; [ring|]. replace (-1 * (PI / beta * tau_pt beta L j)) with (- (PI / beta * tau_pt beta L j)) by ring. ring.
Qed.

(** ---- round trip ---- *)
Lemma conj_wave beta s w w' L j : beta <> 0 -> (0 < L)%nat ->
  Cmult (matsubara_wave beta s w (tau_pt beta L j)) (Cconj (matsubara_wave beta s w' (tau_pt beta L j))) = expi (2 * PI * (INR j * IZR (w - w') / INR L)).
Proof.
  intros Hb HL. assert (HR : INR L <> 0) by (apply not_0_INR; lia). unfold matsubara_wave, tau_pt. rewrite <- expi_opp, <- expi_add. f_equal. destruct s; rewrite !plus_IZR, !mult_IZR, minus_IZR; field; split; assumption.
Qed.
Lemma round_known iwm s' L beta n gw km : 0 < beta -> if_beta iwm = beta -> tau_fits iwm L -> vanishing n (row km 0) = true ->
  exists gt gw', fourier_iw_to_tau_known (tau_mesh beta s' L) iwm n gw km = Ok gt /\ fourier_tau_to_iw_known iwm (tau_mesh beta s' L) n gt km = Ok gw' /\
    same_rows (Z.to_nat (if_size iwm)) gw gw'.
Proof.
  intros Hb Eb Hf Hv. pose proof Hf as (HL & Hn & H2). assert (Hb0 : beta <> 0) by lra. assert (HR : INR L <> 0) by (apply not_0_INR; lia).
  destruct (inverse_known iwm s' L beta n gw km Hb Eb Hf Hv) as (gt & E & V & VL). destruct (direct_known iwm s' L beta n gt km Hb Eb Hf Hv) as (gw' & E' & V').
  exists gt, gw'. split; [exact E|]. split; [exact E'|]. intros d c Hd. rewrite (V' d c Hd). set (s := if_stat iwm) in *. cbv zeta in V, VL.
  set (m1 := row km 1 c) in *. set (m2 := row km 2 c) in *. set (m3 := row km 3 c) in *. set (w := if_to_index iwm (Z.of_nat d)).
  set (f := fun j => Cmult (matsubara_wave beta s w (tau_pt beta L j)) (Cminus (gt j c) (tail_tau s beta m1 m2 m3 (tau_pt beta L j)))).
  change (gw d c = Cplus (trapezoid beta L f) (tail_iw s m1 m2 m3 (i_omega beta s w))).
  assert (F : f L = f 0%nat).
  { unfold f. rewrite (tau_L beta L HL), tau_0, wave_0, (wave_beta beta s w Hb0), tail_jump, VL by exact Hb0. fold m1.
    assert (P : Cmult (RtoC (pm s)) (RtoC (pm s)) = RtoC 1) by (rewrite <- RtoC_mult, pm_sq; reflexivity). set (p := RtoC (pm s)) in *.
    transitivity (Cmult (Cmult p p) (Cminus (gt 0%nat c) (tail_tau s beta m1 m2 m3 0))); [ring|]. rewrite P. reflexivity. }
  unfold trapezoid. rewrite F. set (Y := fun d => Cminus (gw d c) (tail_iw s m1 m2 m3 (i_omega beta s (if_to_index iwm (Z.of_nat d))))).
  assert (T : total L f = Cmult (RtoC (1 / beta)) (Cmult (RtoC (INR L)) (Y d))).
  { unfold total. rewrite (csum_ext _ (fun j => Cmult (RtoC (1 / beta)) (csum (seq 0 (Z.to_nat (if_size iwm))) (fun d' => Cmult (expi (2 * PI * (INR j * IZR (w - if_to_index iwm (Z.of_nat d')) / INR L))) (Y d'))))).
    - rewrite csum_l, csum_swap. f_equal. rewrite (csum_single _ _ d Hd).
      + rewrite csum_r, roots by lia. unfold w. rewrite Z.sub_diag, Z.mod_0_l by lia. reflexivity.
      + intros d' Hd' Hne. rewrite csum_r, roots by lia. destruct (Z.eqb_spec ((w - if_to_index iwm (Z.of_nat d')) mod Z.of_nat L) 0) as [Q|_]; [|ring].
        exfalso. apply Hne. symmetry. apply (same_row iwm L d d' Hf Hd Hd' Q).
    - intros j Hj. apply in_seq in Hj. unfold f. rewrite (V j c) by lia. fold m1 m2 m3.
      match goal with |- Cmult ?a (Cminus (Cplus ?b ?t) ?t) = _ => transitivity (Cmult a b); [ring|] end.
      transitivity (Cmult (RtoC (1 / beta)) (Cmult (matsubara_wave beta s w (tau_pt beta L j)) (csum (seq 0 (Z.to_nat (if_size iwm))) (fun d' => Cmult (Cconj (matsubara_wave beta s (if_to_index iwm (Z.of_nat d')) (tau_pt beta L j))) (Y d'))))); [unfold Y; ring|].
      f_equal. rewrite <- csum_l. apply csum_ext. intros d' _. rewrite <- (conj_wave beta s w _ L j Hb0 HL). ring. }
  change (total L (fun j => f j)) with (total L f). rewrite T. transitivity (Cplus (Y d) (tail_iw s m1 m2 m3 (i_omega beta s w))); [unfold Y, w; ring|]. f_equal.
  transitivity (Cmult (RtoC (beta / INR L * (1 / beta * INR L))) (Y d)); [|rewrite !RtoC_mult; ring].
  replace (beta / INR L * (1 / beta * INR L)) with 1 by (field; split; assumption). ring.
Qed.
