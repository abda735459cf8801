From Coq Require Import Reals List Bool Lra Lia.
From Coquelicot Require Import Coquelicot.
From Verif Require Import Base Scalar RealAtom PyGf SemiCirc SemiCircSpec.
Local Open Scope R_scope.

Lemma pair_eq (a b c d : R) : a = c -> b = d -> (a, b) = (c, d).
Proof. intros -> ->. reflexivity. Qed.
Lemma Cmod_sq z : Cmod z * Cmod z = fst z * fst z + snd z * snd z.
Proof. unfold Cmod. rewrite sqrt_sqrt; [ring|]. pose proof (pow2_ge_0 (fst z)). pose proof (pow2_ge_0 (snd z)). lra. Qed.
Lemma Cmod_fst z : - Cmod z <= fst z <= Cmod z.
Proof. pose proof (Cmod_ge_0 z) as H0. pose proof (Cmod_sq z) as H. pose proof (pow2_ge_0 (snd z)) as H1. split; nra. Qed.
Lemma csqrt_sq z : Cmult (csqrt z) (csqrt z) = z.
Proof.
  destruct z as [x y]. unfold csqrt, Cmult. cbn [fst snd]. set (r := Cmod (x, y)). pose proof (Cmod_fst (x, y)) as [H1 H2]. pose proof (Cmod_sq (x, y)) as Hr. fold r in H1, H2, Hr. cbn [fst snd] in *.
  assert (A : sqrt ((r + x) / 2) * sqrt ((r + x) / 2) = (r + x) / 2) by (apply sqrt_sqrt; lra).
  assert (B : sqrt ((r - x) / 2) * sqrt ((r - x) / 2) = (r - x) / 2) by (apply sqrt_sqrt; lra).
  assert (E : sqrt ((r + x) / 2) * sqrt ((r - x) / 2) = Rabs y / 2).
  { rewrite <- sqrt_mult by lra. replace ((r + x) / 2 * ((r - x) / 2)) with ((Rabs y / 2) * (Rabs y / 2)).
    - apply sqrt_square. pose proof (Rabs_pos y). lra.
    - assert (Rabs y * Rabs y = y * y) by (rewrite <- Rabs_mult; apply Rabs_pos_eq; nra). nra. }
  apply pair_eq.
  - destruct (Rle_dec 0 y); nra.
  - destruct (Rle_dec 0 y) as [Hy|Hy].
    + rewrite Rabs_pos_eq in E by exact Hy. nra.
    + rewrite Rabs_left in E by lra. nra.
Qed.
Lemma sgn_sq x : sgn x * sgn x = 1.
Proof. unfold sgn. destruct (Rle_dec 0 x); ring. Qed.

(** the numerator of both branches *)
Definition root (D : R) (z s : C) : C := Cmult (RtoC (2 / (D * D))) (Cminus z s).
Lemma root_bethe D z s : D <> 0 -> Cmult s s = Cminus (Cmult z z) (RtoC (D * D)) -> bethe D z (root D z s).
Proof.
  intros HD Hs. unfold bethe, root. destruct z as [x y], s as [u v]. unfold Cminus, Cmult, Cplus, Copp, RtoC in *. cbn [fst snd] in *. injection Hs as H1 H2.
  apply pair_eq.
  - replace (_ - _) with ((x * x - y * y - (u * u - v * v)) / (D * D)) by (field; exact HD). rewrite H1. field. exact HD.
  - replace (_ + _) with ((2 * x * y - (u * v + v * u)) / (D * D)) by (field; exact HD). rewrite H2. field. exact HD.
Qed.
Lemma semi_im_root D mu om : D <> 0 -> semi_im D mu om = root D (Cplus om (RtoC mu)) (Cmult (Cmult Ci (RtoC (sgn (snd (Cplus om (RtoC mu)))))) (csqrt (Cminus (RtoC (D * D)) (Cmult (Cplus om (RtoC mu)) (Cplus om (RtoC mu)))))).
Proof.
  intros HD. unfold semi_im, root. cbv zeta. set (z := Cplus om (RtoC mu)). set (s := Cmult _ (csqrt _)).
  assert (HC : RtoC D <> RtoC 0) by (intros E; apply RtoC_inj in E; contradiction).
  replace (RtoC (2 / (D * D))) with (Cdiv (RtoC 2) (Cmult (RtoC D) (RtoC D))).
  - field. exact HC.
  - rewrite <- RtoC_mult, <- RtoC_div; [reflexivity|]. apply Rmult_integral_contrapositive. split; exact HD.
Qed.
Lemma snd_shift om mu : snd (Cplus om (RtoC mu)) = snd om.
Proof. destruct om; cbn; ring. Qed.
Lemma semi_im_bethe D mu om : D <> 0 -> bethe D (Cplus om (RtoC mu)) (semi_im D mu om).
Proof.
  intros HD. rewrite semi_im_root by exact HD. apply root_bethe; [exact HD|]. set (z := Cplus om (RtoC mu)).
  transitivity (Cmult (Copp (RtoC (sgn (snd z) * sgn (snd z)))) (Cmult (csqrt (Cminus (RtoC (D * D)) (Cmult z z))) (csqrt (Cminus (RtoC (D * D)) (Cmult z z))))).
  - generalize (csqrt (Cminus (RtoC (D * D)) (Cmult z z))) (sgn (snd z)). intros [u v] t. unfold Cmult, Copp, RtoC, Ci. cbn [fst snd]. apply pair_eq; ring.
  - rewrite csqrt_sq, sgn_sq. unfold Cminus, Cplus, Cmult, Copp, RtoC. destruct z as [x y]. cbn [fst snd]. apply pair_eq; ring.
Qed.
(** Re csqrt (D^2 - z^2) > |Im z| *)
Lemma re_csqrt D x y : 0 < D -> y <> 0 -> Rabs y < fst (csqrt (Cminus (RtoC (D * D)) (Cmult (x, y) (x, y)))).
Proof.
  intros HD Hy. set (w := Cminus (RtoC (D * D)) (Cmult (x, y) (x, y))). cbn [csqrt fst].
  assert (W1 : fst w = D * D - x * x + y * y) by (unfold w, Cminus, Cmult, Cplus, Copp, RtoC; cbn; ring).
  assert (W2 : snd w = - (2 * x * y)) by (unfold w, Cminus, Cmult, Cplus, Copp, RtoC; cbn; ring).
  pose proof (Cmod_sq w) as Hr. pose proof (Cmod_ge_0 w) as H0. set (r := Cmod w) in *. rewrite W1, W2 in Hr.
  assert (Y : 0 < y * y) by (destruct (Rlt_or_le 0 y); nra).
  assert (DD : 0 < D * D) by nra. assert (YD : 0 < (y * y) * (D * D)) by (apply Rmult_lt_0_compat; assumption).
  assert (Hs : x * x + y * y - D * D < r).
  { destruct (Rlt_or_le (x * x + y * y - D * D) r) as [H|H]; [exact H|exfalso].
    assert (r * r <= (x * x + y * y - D * D) * (x * x + y * y - D * D)) by (apply Rmult_le_compat; lra). nra. }
  rewrite W1. rewrite <- (sqrt_square (Rabs y)) by apply Rabs_pos. apply sqrt_lt_1_alt.
  assert (Rabs y * Rabs y = y * y) by (rewrite <- Rabs_mult; apply Rabs_pos_eq; lra). lra.
Qed.
Lemma semi_im_snd D mu om : D <> 0 -> snd (semi_im D mu om) = 2 / (D * D) * (snd om - sgn (snd om) * fst (csqrt (Cminus (RtoC (D * D)) (Cmult (fst om + mu, snd om) (fst om + mu, snd om))))).
Proof.
  intros HD. rewrite semi_im_root by exact HD. rewrite snd_shift.
  assert (E : Cplus om (RtoC mu) = (fst om + mu, snd om)) by (destruct om; unfold Cplus, RtoC; cbn [fst snd]; apply pair_eq; ring). rewrite E.
  generalize (csqrt (Cminus (RtoC (D * D)) (Cmult (fst om + mu, snd om) (fst om + mu, snd om)))). intros [u v]. unfold root, Cminus, Cmult, Cplus, Copp, RtoC, Ci. cbn [fst snd]. ring.
Qed.
Lemma semi_im_causal D mu om : 0 < D -> snd om <> 0 -> snd (semi_im D mu om) * snd om < 0.
Proof.
  intros HD Hy. rewrite semi_im_snd by lra. pose proof (re_csqrt D (fst om + mu) (snd om) HD Hy) as H. set (q := fst (csqrt _)) in *.
  assert (P : 0 < 2 / (D * D)) by (apply Rdiv_lt_0_compat; nra). unfold sgn. destruct (Rle_dec 0 (snd om)) as [Hp|Hp].
  - rewrite Rabs_pos_eq in H by exact Hp. assert (0 < snd om) by lra. assert (0 < (2 / (D * D)) * snd om) by (apply Rmult_lt_0_compat; assumption). nra.
  - rewrite Rabs_left in H by lra. assert (0 < (2 / (D * D)) * - snd om) by (apply Rmult_lt_0_compat; lra). nra.
Qed.
(** the causal solution is unique *)
Lemma bethe_nonzero D z g : bethe D z g -> 0 < fst g * fst g + snd g * snd g.
Proof.
  intros H. destruct g as [a b]. cbn [fst snd]. destruct (Req_dec a 0) as [->|Ha]; [|assert (0 < a * a) by (destruct (Rlt_or_le 0 a); nra); nra].
  destruct (Req_dec b 0) as [->|Hb]; [|assert (0 < b * b) by (destruct (Rlt_or_le 0 b); nra); nra].
  exfalso. unfold bethe, Cmult, RtoC in H. cbn [fst snd] in H. injection H as H1 H2. lra.
Qed.
Lemma bethe_unique D z g h : 0 < D -> bethe D z g -> bethe D z h -> 0 < snd g * snd h -> g = h.
Proof.
  intros HD Hg Hh Hs. pose proof (bethe_nonzero D z g Hg) as Ng. pose proof (bethe_nonzero D z h Hh) as Nh.
  (* D^2/4 g h (g - h) = g - h *)
  assert (E : Cmult (Cminus (Cmult (Cmult (RtoC (D * D / 4)) g) h) (RtoC 1)) (Cminus g h) = RtoC 0).
  { unfold bethe in *. transitivity (Cminus (Cmult h (Cminus (RtoC 1) (Cmult g (Cminus z (Cmult (RtoC (D * D / 4)) g))))) (Cmult g (Cminus (RtoC 1) (Cmult h (Cminus z (Cmult (RtoC (D * D / 4)) h)))))).
    - generalize (RtoC (D * D / 4)). intros c. ring.
    - rewrite Hg, Hh. ring. }
  destruct g as [a b], h as [c d]. cbn [fst snd] in *. unfold Cminus, Cmult, Cplus, Copp, RtoC in E. cbn [fst snd] in E. injection E as E1 E2. set (k := D * D / 4) in *. assert (K : 0 < k) by (unfold k; nra).
  set (p := k * (a * c - b * d) - 1). set (q := k * (a * d + b * c)).
  assert (F1 : p * (a - c) - q * (b - d) = 0) by (unfold p, q; lra). assert (F2 : p * (b - d) + q * (a - c) = 0) by (unfold p, q; lra).
  assert (N : (p * p + q * q) * ((a - c) * (a - c) + (b - d) * (b - d)) = 0).
  { transitivity ((p * (a - c) - q * (b - d)) * (p * (a - c) - q * (b - d)) + (p * (b - d) + q * (a - c)) * (p * (b - d) + q * (a - c))); [ring|]. rewrite F1, F2. ring. }
  assert (Hpq : p * p + q * q <> 0).
  { intros Z. assert (p = 0) by nra. assert (q = 0) by nra. assert (Q : a * d + b * c = 0) by (unfold q in *; nra).
    assert (P : k * (a * c - b * d) = 1) by (unfold p in *; lra). assert (0 < a * c - b * d) by nra.
    (* (ac)(bd) = - (ad)^2, so ac <= 0 < bd *)
    assert ((a * c) * (b * d) = - ((a * d) * (a * d))) by nra. pose proof (Rle_0_sqr (a * d)) as Sq. unfold Rsqr in Sq. nra. }
  apply Rmult_integral in N. destruct N as [N|N]; [contradiction|]. pose proof (Rle_0_sqr (a - c)) as S1. pose proof (Rle_0_sqr (b - d)) as S2. unfold Rsqr in S1, S2. apply pair_eq; nra.
Qed.

(** size and tail *)
Lemma bethe_bound D z g : 0 < D -> bethe D z g -> snd z <> 0 -> snd g * snd z < 0 -> Cmod g * Rabs (snd z) <= 1.
Proof.
  intros HD H Hz Hs. set (w := Cminus z (Cmult (RtoC (D * D / 4)) g)).
  assert (E : Cmod g * Cmod w = 1) by (rewrite <- Cmod_mult; unfold w; unfold bethe in H; rewrite H; rewrite Cmod_R; apply Rabs_R1).
  assert (W : Rabs (snd z) <= Cmod w).
  { apply Rle_trans with (Rabs (snd w)); [|destruct w as [a b]; apply (Rle_trans _ (Rmax (Rabs a) (Rabs b))); [apply Rmax_r|exact (Rmax_Cmod (a, b))]].
    assert (Ew : snd w = snd z - D * D / 4 * snd g) by (unfold w; destruct z, g; unfold Cminus, Cplus, Copp, Cmult, RtoC; cbn [fst snd]; ring). rewrite Ew.
    assert (K : 0 < D * D / 4) by nra. destruct (Rlt_or_le 0 (snd z)) as [P|P].
    - assert (snd g < 0) by nra. rewrite !Rabs_pos_eq; nra.
    - assert (0 < snd g) by nra. rewrite !Rabs_left; nra. }
  rewrite <- E. apply Rmult_le_compat_l; [apply Cmod_ge_0|exact W].
Qed.
Lemma bethe_tail D z g : 0 < D -> bethe D z g -> snd z <> 0 -> snd g * snd z < 0 -> Cmod (Cminus (Cmult z g) (RtoC 1)) * (snd z * snd z) <= D * D / 4.
Proof.
  intros HD H Hz Hs. pose proof (bethe_bound D z g HD H Hz Hs) as B.
  assert (E : Cminus (Cmult z g) (RtoC 1) = Cmult (RtoC (D * D / 4)) (Cmult g g)).
  { unfold bethe in H. rewrite <- H. generalize (RtoC (D * D / 4)). intros c. ring. }
  rewrite E, !Cmod_mult, Cmod_R. assert (K : 0 < D * D / 4) by nra. rewrite (Rabs_pos_eq (D * D / 4)) by lra.
  assert (S : snd z * snd z = Rabs (snd z) * Rabs (snd z)) by (rewrite <- Rabs_mult; symmetry; apply Rabs_pos_eq; nra). rewrite S.
  assert (P : 0 <= Cmod g * Rabs (snd z)) by (apply Rmult_le_pos; [apply Cmod_ge_0|apply Rabs_pos]).
  assert ((Cmod g * Rabs (snd z)) * (Cmod g * Rabs (snd z)) <= 1) by nra.
  replace (D * D / 4 * (Cmod g * Cmod g) * (Rabs (snd z) * Rabs (snd z))) with (D * D / 4 * ((Cmod g * Rabs (snd z)) * (Cmod g * Rabs (snd z)))) by ring. nra.
Qed.
Lemma bethe_conj D z g : bethe D z g -> bethe D (Cconj z) (Cconj g).
Proof.
  unfold bethe, Cminus, Cplus, Copp, Cmult, RtoC, Cconj. destruct z as [x y], g as [a b]. cbn [fst snd]. intros H. injection H as H1 H2. apply pair_eq; lra.
Qed.
Lemma semi_im_conj D mu om : 0 < D -> snd om <> 0 -> semi_im D mu (Cconj om) = Cconj (semi_im D mu om).
Proof.
  intros HD Hy. apply (bethe_unique D (Cplus (Cconj om) (RtoC mu))); [exact HD|apply semi_im_bethe; lra| |].
  - replace (Cplus (Cconj om) (RtoC mu)) with (Cconj (Cplus om (RtoC mu))) by (destruct om; unfold Cconj, Cplus, RtoC; cbn [fst snd]; apply pair_eq; ring). apply bethe_conj, semi_im_bethe. lra.
  - assert (Hc : snd (Cconj om) = - snd om) by (destruct om; reflexivity). assert (Hc' : snd (Cconj (semi_im D mu om)) = - snd (semi_im D mu om)) by reflexivity.
    pose proof (semi_im_causal D mu om HD Hy) as H1. pose proof (semi_im_causal D mu (Cconj om) HD ltac:(rewrite Hc; lra)) as H2. rewrite Hc in H2. rewrite Hc'.
    set (a := snd (semi_im D mu om)) in *. set (b := snd (semi_im D mu (Cconj om))) in *. destruct (Rlt_or_le 0 (snd om)) as [P|P].
    + assert (a < 0) by nra. assert (0 < b) by nra. nra.
    + assert (0 < a) by nra. assert (b < 0) by nra. nra.
Qed.

(** real frequencies *)
Definition inside (D x : R) : Prop := - D < x < D.
Lemma semi_re_in D mu om : inside D (fst om + mu) -> semi_re D mu om = root D (RtoC (fst om + mu)) (Cmult Ci (RtoC (sqrt (D * D - (fst om + mu) * (fst om + mu))))).
Proof. intros [H1 H2]. unfold semi_re. cbv zeta. destruct (Rlt_dec _ _); [|contradiction]. destruct (Rlt_dec _ _); [|contradiction]. reflexivity. Qed.
Lemma semi_re_out D mu om : ~ inside D (fst om + mu) -> semi_re D mu om = root D (RtoC (fst om + mu)) (RtoC (sgn (fst om + mu) * sqrt ((fst om + mu) * (fst om + mu) - D * D))).
Proof.
  intros H. unfold semi_re, inside, root in *. cbv zeta. set (x := fst om + mu) in *.
  assert (E : RtoC (2 / (D * D) * (x - sgn x * sqrt (x * x - D * D))) = Cmult (RtoC (2 / (D * D))) (Cminus (RtoC x) (RtoC (sgn x * sqrt (x * x - D * D))))) by (rewrite <- RtoC_minus, <- RtoC_mult; reflexivity).
  destruct (Rlt_dec _ _); [destruct (Rlt_dec _ _); [exfalso; tauto|exact E]|exact E].
Qed.
Lemma inside_abs D x : inside D x <-> Rabs x < D.
Proof. unfold inside. split; [intros; apply Rabs_def1; lra|]. intros H. apply Rabs_def2 in H. lra. Qed.
Lemma inside_sq D x : inside D x -> 0 < D * D - x * x.
Proof. intros [H1 H2]. nra. Qed.
Lemma outside_sq D x : 0 < D -> ~ inside D x -> 0 <= x * x - D * D.
Proof. intros HD H. unfold inside in H. destruct (Rlt_or_le (- D) x); [destruct (Rlt_or_le x D); [exfalso; tauto|]|]; nra. Qed.
Lemma semi_re_bethe D mu om : 0 < D -> bethe D (RtoC (fst om + mu)) (semi_re D mu om).
Proof.
  intros HD. set (x := fst om + mu). destruct (Rlt_dec (Rabs x) D) as [H|H].
  - assert (Hi : inside D x) by (apply inside_abs; exact H). rewrite semi_re_in by exact Hi. fold x. apply root_bethe; [lra|]. pose proof (inside_sq D x Hi) as Hs.
    assert (E : sqrt (D * D - x * x) * sqrt (D * D - x * x) = D * D - x * x) by (apply sqrt_sqrt; lra). unfold Cminus, Cplus, Cmult, Copp, RtoC, Ci. cbn [fst snd]. apply pair_eq; [lra|ring].
  - assert (Hi : ~ inside D x) by (rewrite inside_abs; exact H). rewrite semi_re_out by exact Hi. fold x. apply root_bethe; [lra|]. pose proof (outside_sq D x HD Hi) as Hs.
    rewrite <- !RtoC_mult, <- RtoC_minus. f_equal.
    replace (_ * _ * (_ * _)) with ((sgn x * sgn x) * (sqrt (x * x - D * D) * sqrt (x * x - D * D))) by ring. rewrite sgn_sq, sqrt_sqrt by exact Hs. ring.
Qed.
Lemma semi_re_dos D mu om : 0 < D -> - snd (semi_re D mu om) / PI = semicircle D (fst om + mu).
Proof.
  intros HD. pose proof PI_RGT_0 as HP. set (x := fst om + mu). unfold semicircle. destruct (Rlt_dec (Rabs x) D) as [H|H].
  - rewrite semi_re_in by (apply inside_abs; exact H). fold x. unfold root, Cminus, Cmult, Cplus, Copp, RtoC, Ci. cbn [fst snd]. field. split; lra.
  - rewrite semi_re_out by (rewrite inside_abs; exact H). fold x. unfold root, Cminus, Cmult, Cplus, Copp, RtoC. cbn [fst snd]. field. split; lra.
Qed.
Lemma semi_re_outside_size D mu om : 0 < D -> D <= Rabs (fst om + mu) -> snd (semi_re D mu om) = 0 /\ 0 < fst (semi_re D mu om) * (fst om + mu) /\ Rabs (fst (semi_re D mu om)) <= 2 / D.
Proof.
  intros HD H. set (x := fst om + mu) in *. assert (Hi : ~ inside D x) by (rewrite inside_abs; lra). rewrite semi_re_out by exact Hi. fold x.
  pose proof (outside_sq D x HD Hi) as Hs. set (s := sqrt (x * x - D * D)).
  assert (E : s * s = x * x - D * D) by (apply sqrt_sqrt; exact Hs). assert (S0 : 0 <= s) by apply sqrt_pos.
  assert (F : root D (RtoC x) (RtoC (sgn x * s)) = (2 / (D * D) * (x - sgn x * s), 0)) by (unfold root, Cminus, Cmult, Cplus, Copp, RtoC; cbn [fst snd]; apply pair_eq; ring).
  rewrite F. cbn [fst snd]. split; [reflexivity|]. assert (DD : 0 < D * D) by nra. assert (P : 0 < 2 / (D * D)) by (apply Rdiv_lt_0_compat; lra).
  assert (G : 0 < (x - sgn x * s) * x /\ Rabs (x - sgn x * s) <= D).
  { unfold sgn. destruct (Rle_dec 0 x) as [Hx|Hx].
    - rewrite Rabs_pos_eq in H by exact Hx. assert (s < x) by nra. split; [nra|]. rewrite Rabs_pos_eq by lra. assert (x - D <= s); [|lra]. destruct (Rlt_or_le s (x - D)) as [C|C]; [exfalso; nra|exact C].
    - rewrite Rabs_left in H by lra. assert (s < - x) by nra. split; [nra|]. rewrite Rabs_left by lra. assert (- x - D <= s); [|lra]. destruct (Rlt_or_le s (- x - D)) as [C|C]; [exfalso; nra|exact C]. }
  destruct G as [G1 G2]. split; [rewrite Rmult_assoc; apply Rmult_lt_0_compat; assumption|].
  rewrite Rabs_mult, (Rabs_pos_eq (2 / (D * D))) by lra. replace (2 / D) with (2 / (D * D) * D) by (field; lra). apply Rmult_le_compat_l; lra.
Qed.
(** the zero frequency of a bosonic mesh, chemical potential above the band *)
Lemma semi_zero D mu : 0 < D -> D < mu -> semi_im D mu (RtoC 0) = RtoC (2 / (D * D) * (mu + sqrt (mu * mu - D * D))).
Proof.
  intros HD Hm. rewrite semi_im_root by lra. assert (E : Cplus (RtoC 0) (RtoC mu) = RtoC mu) by (rewrite <- RtoC_plus; f_equal; ring). rewrite E. cbn [RtoC snd].
  assert (W : Cminus (RtoC (D * D)) (Cmult (RtoC mu) (RtoC mu)) = RtoC (D * D - mu * mu)) by (rewrite <- RtoC_mult, <- RtoC_minus; reflexivity).
  assert (N : D * D - mu * mu < 0) by nra. change ((mu, 0) : C) with (RtoC mu).
  assert (Q : csqrt (Cminus (RtoC (D * D)) (Cmult (RtoC mu) (RtoC mu))) = (0, sqrt (mu * mu - D * D))).
  { rewrite W. unfold csqrt. rewrite Cmod_R, Rabs_left by exact N. cbn [RtoC fst snd]. destruct (Rle_dec 0 0) as [_|Z]; [|exfalso; apply Z; lra]. apply pair_eq.
    - replace ((_ + _) / 2) with 0 by field. apply sqrt_0.
    - rewrite Rmult_1_l. f_equal. field. }
  unfold sgn. destruct (Rle_dec 0 0) as [_|Z]; [|exfalso; apply Z; lra]. cbn [RtoC] in Q.
  rewrite Q. unfold root, Cminus, Cplus, Cmult, Copp, RtoC, Ci. cbn [fst snd]. apply pair_eq; ring.
Qed.

(** the flat density of states *)
Lemma flat_quot D y : 0 < D -> y <> 0 -> Cdiv (Cminus (0, y) (RtoC D)) (Cplus (0, y) (RtoC D)) = ((y * y - D * D) / (D * D + y * y), 2 * D * y / (D * D + y * y)).
Proof.
  intros HD Hy. assert (P : 0 < D * D + y * y) by nra. unfold Cdiv, Cinv, Cminus, Cplus, Copp, Cmult, RtoC. cbn [fst snd]. apply pair_eq; field; repeat split; nra.
Qed.
Lemma flat_mod D y : 0 < D -> y <> 0 -> Cmod ((y * y - D * D) / (D * D + y * y), 2 * D * y / (D * D + y * y)) = 1.
Proof.
  intros HD Hy. assert (P : 0 < D * D + y * y) by nra. unfold Cmod. cbn [fst snd]. rewrite <- sqrt_1. f_equal. field. lra.
Qed.
Lemma flat_im_val D y : 0 < D -> y <> 0 -> flat_im D (0, y) = (0, - atan (D / y) / D).
Proof.
  intros HD Hy. unfold flat_im. rewrite flat_quot by assumption. unfold clog. rewrite flat_mod by assumption. cbn [fst snd]. rewrite ln_1. assert (P : 0 < D * D + y * y) by nra.
  replace (2 * D * y / (D * D + y * y) / (1 + (y * y - D * D) / (D * D + y * y))) with (D / y) by (field; repeat split; nra).
  unfold Cmult, RtoC. cbn [fst snd]. apply pair_eq; field; lra.
Qed.
Lemma int_ext D (f g : R -> R) l : 0 < D -> (forall e, - D < e < D -> f e = g e) -> is_RInt f (- D) D l -> is_RInt g (- D) D l.
Proof. intros HD H. apply is_RInt_ext. rewrite Rmin_left, Rmax_right by lra. exact H. Qed.
Lemma flat_dos_in D e : - D < e < D -> flat_dos D e = 1 / (2 * D).
Proof. intros H. unfold flat_dos. destruct (Rlt_dec _ _) as [_|Hn]; [reflexivity|]. exfalso. apply Hn. apply Rabs_def1; lra. Qed.
Definition integrand (A : R -> R) (z : C) (e : R) : C := Cdiv (RtoC (A e)) (Cminus z (RtoC e)).
Lemma flat_im_int D y : 0 < D -> y <> 0 ->
  is_RInt (fun e => fst (integrand (flat_dos D) (0, y) e)) (- D) D (fst (flat_im D (0, y))) /\ is_RInt (fun e => snd (integrand (flat_dos D) (0, y) e)) (- D) D (snd (flat_im D (0, y))).
Proof.
  intros HD Hy. rewrite flat_im_val by assumption. cbn [fst snd]. assert (Y : 0 < y * y) by nra. split.
  - apply (int_ext D (fun e => - e / (2 * D * (y * y + e * e)))); [exact HD| |].
    + intros e He. unfold integrand. rewrite flat_dos_in by exact He. unfold Cdiv, Cinv, Cminus, Cplus, Copp, Cmult, RtoC. cbn [fst snd]. field. repeat split; nra.
    + replace 0 with (minus (- ln (y * y + D * D) / (4 * D)) (- ln (y * y + (- D) * (- D)) / (4 * D))) by (unfold minus, plus, opp; cbn; replace (- D * - D) with (D * D) by ring; ring).
      apply (is_RInt_derive (fun e => - ln (y * y + e * e) / (4 * D))).
      * intros e _. auto_derive; [nra|]. field. split; nra.
      * intros e _. apply (ex_derive_continuous (fun e => - e / (2 * D * (y * y + e * e)))). auto_derive. assert (0 < D * (y * y + e * e)) by (apply Rmult_lt_0_compat; nra). lra.
  - apply (int_ext D (fun e => - y / (2 * D * (y * y + e * e)))); [exact HD| |].
    + intros e He. unfold integrand. rewrite flat_dos_in by exact He. unfold Cdiv, Cinv, Cminus, Cplus, Copp, Cmult, RtoC. cbn [fst snd]. field. repeat split; nra.
    + replace (- atan (D / y) / D) with (minus (- atan (D / y) / (2 * D)) (- atan (- D / y) / (2 * D))).
      2:{ unfold minus, plus, opp. cbn. replace (- D / y) with (- (D / y)) by (field; exact Hy). rewrite atan_opp. field. lra. }
      apply (is_RInt_derive (fun e => - atan (e / y) / (2 * D))).
      * intros e _. auto_derive; [exact I|]. field. repeat split; nra.
      * intros e _. apply (ex_derive_continuous (fun e => - y / (2 * D * (y * y + e * e)))). auto_derive. assert (0 < D * (y * y + e * e)) by (apply Rmult_lt_0_compat; nra). lra.
Qed.
Lemma Cmod_real a b : Cmod (Cminus (RtoC a) (RtoC b)) = Rabs (a - b).
Proof. rewrite <- RtoC_minus. apply Cmod_R. Qed.
Lemma Cmod_real_plus a b : Cmod (Cplus (RtoC a) (RtoC b)) = Rabs (a + b).
Proof. rewrite <- RtoC_plus. apply Cmod_R. Qed.
Lemma flat_re_out D x : 0 < D -> D < Rabs x -> flat_re D (RtoC x) = RtoC ((ln (Rabs (x + D)) - ln (Rabs (x - D))) / (2 * D)).
Proof.
  intros HD Hx. unfold flat_re. rewrite Cmod_real, Cmod_real_plus. cbn [RtoC fst].
  assert (N1 : 0 < Rabs (x - D)) by (apply Rabs_pos_lt; intros E; unfold Rabs in Hx; destruct (Rcase_abs x); lra).
  assert (N2 : 0 < Rabs (x + D)) by (apply Rabs_pos_lt; intros E; unfold Rabs in Hx; destruct (Rcase_abs x); lra).
  assert (E : - ln (Rabs (x - D) / Rabs (x + D)) / (2 * D) = (ln (Rabs (x + D)) - ln (Rabs (x - D))) / (2 * D)) by (rewrite ln_div by assumption; field; lra). rewrite E.
  destruct (Rlt_dec _ _); [destruct (Rlt_dec _ _); [exfalso; unfold Rabs in Hx; destruct (Rcase_abs x); lra|reflexivity]|reflexivity].
Qed.
Lemma flat_re_int D x : 0 < D -> D < Rabs x -> is_RInt (fun e => fst (integrand (flat_dos D) (RtoC x) e)) (- D) D (fst (flat_re D (RtoC x))) /\ snd (flat_re D (RtoC x)) = 0.
Proof.
  intros HD Hx. rewrite flat_re_out by assumption. split; [|reflexivity]. cbn [RtoC fst].
  assert (Hn : forall e, - D <= e <= D -> x - e <> 0) by (intros e He E; unfold Rabs in Hx; destruct (Rcase_abs x); lra).
  apply (int_ext D (fun e => / (2 * D * (x - e)))); [exact HD| |].
  - intros e He. specialize (Hn e ltac:(lra)). unfold integrand. rewrite flat_dos_in by exact He. unfold Cdiv, Cinv, Cminus, Cplus, Copp, Cmult, RtoC. cbn [fst snd]. field. repeat split; try lra; intros E; apply Hn; nra.
  - assert (Hc : forall e, Rmin (- D) D <= e <= Rmax (- D) D -> continuous (fun e => / (2 * D * (x - e))) e).
    { intros e He. rewrite Rmin_left, Rmax_right in He by lra. specialize (Hn e He). apply (ex_derive_continuous (fun e => / (2 * D * (x - e)))). auto_derive. apply Rmult_integral_contrapositive. split; lra. }
    destruct (Rlt_or_le 0 x) as [Px|Px].
    + rewrite Rabs_pos_eq in Hx by lra. rewrite !Rabs_pos_eq by lra.
      replace ((ln (x + D) - ln (x - D)) / (2 * D)) with (minus (- ln (x - D) / (2 * D)) (- ln (x - - D) / (2 * D))) by (unfold minus, plus, opp; cbn; replace (x - - D) with (x + D) by ring; field; lra).
      apply (is_RInt_derive (fun e => - ln (x - e) / (2 * D))); [|exact Hc].
      intros e He. rewrite Rmin_left, Rmax_right in He by lra. auto_derive; [lra|]. field. split; lra.
    + rewrite Rabs_left1 in Hx by lra. rewrite !Rabs_left by lra.
      replace ((ln (- (x + D)) - ln (- (x - D))) / (2 * D)) with (minus (- ln (D - x) / (2 * D)) (- ln (- D - x) / (2 * D))) by (unfold minus, plus, opp; cbn; replace (- (x + D)) with (- D - x) by ring; replace (- (x - D)) with (D - x) by ring; field; lra).
      apply (is_RInt_derive (fun e => - ln (e - x) / (2 * D))); [|exact Hc].
      intros e He. rewrite Rmin_left, Rmax_right in He by lra. auto_derive; [lra|]. field. split; lra.
Qed.
Lemma flat_re_dos D x : 0 < D -> - snd (flat_re D (RtoC x)) / PI = flat_dos D x.
Proof.
  intros HD. pose proof PI_RGT_0. unfold flat_re, flat_dos. cbn [RtoC fst]. destruct (Rlt_dec (Rabs x) D) as [H1|H1].
  - apply Rabs_def2 in H1. destruct (Rlt_dec _ _); [|lra]. destruct (Rlt_dec _ _); [|lra]. cbn [snd]. field. split; lra.
  - assert (E : ~ (- D < x < D)) by (intros E; apply H1; apply Rabs_def1; lra). destruct (Rlt_dec _ _); [destruct (Rlt_dec _ _); [exfalso; lra|]|]; cbn [RtoC snd]; field; lra.
Qed.
