(** The sum of 1/(i w_n - b) over all Matsubara frequencies. *)
From Coq Require Import ZArith Reals List Bool Arith Lia Lra.
From Coquelicot Require Import Coquelicot.
From Verif Require Import Base Matsubara LinMesh ThermalSpec Csum Fourier FourierSpec Fourier_dft Fourier_lat Fourier_real Fourier_riemann Fourier_mats Fourier_tail.
Import ListNotations.
Local Open Scope R_scope.

(** ---- real sums ---- *)
Definition rs (n : nat) (f : nat -> R) : R := fold_right (fun k s => f k + s) 0 (seq 0 n).
Lemma rs_S n f : rs (S n) f = rs n f + f n.
Proof.
  unfold rs. rewrite seq_S. change (0 + n)%nat with n. generalize (seq 0 n). intros l. induction l as [|x l IH]; [cbn; ring|]. cbn [app fold_right]. rewrite IH. ring.
Qed.
Lemma rs_ext n f g : (forall k, (k < n)%nat -> f k = g k) -> rs n f = rs n g.
Proof. induction n as [|n IH]; intros H; [reflexivity|]. rewrite !rs_S, IH, H; [reflexivity|lia|intros; apply H; lia]. Qed.
Lemma rs_le n f g : (forall k, (k < n)%nat -> f k <= g k) -> rs n f <= rs n g.
Proof. induction n as [|n IH]; intros H; [apply Rle_refl|]. rewrite !rs_S. apply Rplus_le_compat; [apply IH; intros; apply H; lia|apply H; lia]. Qed.
Lemma rs_plus n f g : rs n (fun k => f k + g k) = rs n f + rs n g.
Proof. induction n as [|n IH]; [unfold rs; cbn; ring|]. rewrite !rs_S, IH. ring. Qed.
Lemma rs_scal n c f : rs n (fun k => c * f k) = c * rs n f.
Proof. induction n as [|n IH]; [unfold rs; cbn; ring|]. rewrite !rs_S, IH. ring. Qed.
Lemma rs_split a b f : rs (a + b) f = rs a f + rs b (fun k => f (a + k)%nat).
Proof. induction b as [|b IH]; [rewrite Nat.add_0_r; unfold rs at 3; cbn; ring|]. rewrite Nat.add_succ_r, !rs_S, IH. ring. Qed.
Lemma rs_1 n f : rs (S n) f = f 0%nat + rs n (fun k => f (S k)).
Proof. change (S n) with (1 + n)%nat. rewrite rs_split. f_equal. unfold rs. cbn. ring. Qed.
Lemma rs_rev n f : rs n f = rs n (fun k => f (n - 1 - k)%nat).
Proof.
  induction n as [|n IH]; [reflexivity|]. rewrite rs_S. change (S n) with (1 + n)%nat at 1. rewrite rs_split, IH. rewrite Rplus_comm. f_equal.
  - unfold rs. cbn [seq fold_right]. replace (S n - 1 - 0)%nat with n by lia. ring.
  - apply rs_ext. intros k Hk. f_equal. lia.
Qed.
Lemma rs_abs n f : Rabs (rs n f) <= rs n (fun k => Rabs (f k)).
Proof. induction n as [|n IH]; [unfold rs; cbn; rewrite Rabs_R0; lra|]. rewrite !rs_S. eapply Rle_trans; [apply Rabs_triang|]. lra. Qed.
Lemma rs_0 n f : (forall k, (k < n)%nat -> f k = 0) -> rs n f = 0.
Proof. induction n as [|n IH]; intros H; [reflexivity|]. rewrite rs_S, IH, H; [ring|lia|intros; apply H; lia]. Qed.
Lemma csum_fst_rs f n : fst (csum (seq 0 n) f) = rs n (fun k => fst (f k)).
Proof. apply csum_fst. Qed.
Lemma csum_snd_rs f n : snd (csum (seq 0 n) f) = rs n (fun k => snd (f k)).
Proof. apply csum_snd. Qed.

(** ---- dominated convergence of sums ---- *)
Lemma tail_sum K m n : 0 <= K -> (0 < m)%nat -> rs n (fun k => K / (INR (m + k) + 1) ^ 2) <= K / INR m - K / INR (m + n).
Proof.
  intros HK Hm. assert (Pm : 0 < INR m) by (apply lt_0_INR; exact Hm). induction n as [|n IH]; [rewrite Nat.add_0_r; unfold rs; cbn; lra|].
  rewrite rs_S. set (x := INR (m + n)) in *. assert (Px : 0 < x) by (apply lt_0_INR; lia).
  assert (E : K / (x + 1) ^ 2 <= K / x - K / (x + 1)).
  { apply (Rmult_le_reg_r (x * (x + 1) ^ 2)); [nra|]. replace (K / (x + 1) ^ 2 * (x * (x + 1) ^ 2)) with (K * x) by (field; lra).
    replace ((K / x - K / (x + 1)) * (x * (x + 1) ^ 2)) with (K * (x + 1)) by (field; lra). nra. }
  replace (INR (m + S n)) with (x + 1) by (unfold x; rewrite Nat.add_succ_r, S_INR; reflexivity). lra.
Qed.
Lemma finite_limit (u : nat -> nat -> R) m : (forall k eps, 0 < eps -> exists N, forall n, (N <= n)%nat -> u n k < eps) ->
  forall eps, 0 < eps -> exists N, forall n, (N <= n)%nat -> rs m (u n) < eps.
Proof.
  intros H. induction m as [|m IH]; intros eps He; [exists 0%nat; intros; unfold rs; cbn; exact He|].
  destruct (IH (eps / 2) ltac:(lra)) as [N1 B1]. destruct (H m (eps / 2) ltac:(lra)) as [N2 B2]. exists (N1 + N2)%nat. intros n Hn. rewrite rs_S. specialize (B1 n ltac:(lia)). specialize (B2 n ltac:(lia)). lra.
Qed.
Lemma tannery (u : nat -> nat -> R) (len : nat -> nat) K : 0 <= K ->
  (forall n k, 0 <= u n k) -> (forall n k, (1 <= k < len n)%nat -> u n k <= K / (INR k + 1) ^ 2) ->
  (forall k eps, 0 < eps -> exists N, forall n, (N <= n)%nat -> u n k < eps) ->
  forall eps, 0 < eps -> exists N, forall n, (N <= n)%nat -> rs (len n) (u n) < eps.
Proof.
  intros HK Hp Hd Hl eps He. destruct (nfloor_ex (2 * K / eps)) as [m0 Bm]; [apply Rdiv_le_0_compat; lra|]. set (m := S m0). assert (Pm : 0 < INR m) by (apply lt_0_INR; unfold m; lia).
  assert (Km : K / INR m < eps / 2). { assert (2 * K / eps < INR m) by (unfold m; rewrite S_INR; lra). apply Rlt_div_l; [lra|]. apply Rlt_div_l in H; [|lra]. lra. }
  destruct (finite_limit u m Hl (eps / 2) ltac:(lra)) as [N B]. exists N. intros n Hn. specialize (B n Hn).
  destruct (le_lt_dec (len n) m) as [Hle|Hgt].
  - assert (rs (len n) (u n) <= rs m (u n)); [|lra]. replace m with (len n + (m - len n))%nat by lia. rewrite rs_split.
    assert (0 <= rs (m - len n) (fun k => u n (len n + k)%nat)); [|lra]. rewrite <- (rs_0 (m - len n) (fun _ => 0)) by reflexivity. apply rs_le. intros. apply Hp.
  - replace (len n) with (m + (len n - m))%nat by lia. rewrite rs_split.
    assert (rs (len n - m) (fun k => u n (m + k)%nat) <= rs (len n - m) (fun k => K / (INR (m + k) + 1) ^ 2)) by (apply rs_le; intros k Hk; apply Hd; unfold m in *; lia).
    pose proof (tail_sum K m (len n - m) HK ltac:(unfold m; lia)). assert (0 <= K / INR (m + (len n - m))) by (apply Rdiv_le_0_compat; [exact HK|apply lt_0_INR; lia]). lra.
Qed.

(** ---- one pole on a finite time mesh ---- *)
Definition nu (s : statistic) (n : Z) : R := IZR (2 * n + match s with Fermion => 1 | Boson => 0 end).
Definition Ht (beta : R) (s : statistic) (b : R) (L : nat) (n : Z) : C :=
  trapezoid beta L (fun j => Cmult (matsubara_wave beta s n (tau_pt beta L j)) (one_pole s (RtoC 1) b (tau_pt beta L j) beta)).
Definition middle (beta : R) (s : statistic) (b : R) : C := Cplus (one_pole s (RtoC 1) b 0 beta) (RtoC (1 / 2)).

Lemma wave_shift beta s n d L j : beta <> 0 -> (0 < L)%nat ->
  matsubara_wave beta s (n + Z.of_nat d) (tau_pt beta L j) = Cmult (matsubara_wave beta s n (tau_pt beta L j)) (expi (2 * PI * (INR d * IZR (Z.of_nat j) / INR L))).
Proof.
  intros Hb HL. assert (HR : INR L <> 0) by (apply not_0_INR; lia). unfold matsubara_wave, tau_pt. rewrite <- expi_add. f_equal.
  replace (2 * (n + Z.of_nat d) + match s with Fermion => 1 | Boson => 0 end)%Z with ((2 * n + match s with Fermion => 1 | Boson => 0 end) + 2 * Z.of_nat d)%Z by lia.
  rewrite plus_IZR, (mult_IZR 2), <- !INR_IZR_INZ. field. auto.
Qed.
Lemma discrete_sum beta s b L n : 0 < beta -> good_pole s b -> (0 < L)%nat ->
  csum (seq 0 L) (fun d => Ht beta s b L (n + Z.of_nat d)) = Cmult (RtoC beta) (middle beta s b).
Proof.
  intros Hb Hg HL. assert (Hb0 : beta <> 0) by lra. assert (HR : INR L <> 0) by (apply not_0_INR; lia).
  set (g := fun j => one_pole s (RtoC 1) b (tau_pt beta L j) beta). set (h := fun j => if (j =? 0)%nat then middle beta s b else g j).
  assert (E : forall k, Ht beta s b L k = Cmult (RtoC (beta / INR L)) (csum (seq 0 L) (fun j => Cmult (matsubara_wave beta s k (tau_pt beta L j)) (h j)))).
  { intros k. unfold Ht, trapezoid. f_equal. unfold total. destruct L as [|L']; [lia|]. cbn [seq]. rewrite !csum_cons. rewrite tau_0, tau_L by lia. rewrite wave_0, wave_beta by exact Hb0.
    change (h 0%nat) with (middle beta s b). rewrite one_jump by assumption. unfold middle.
    replace (csum (seq 1 L') (fun j => Cmult (matsubara_wave beta s k (tau_pt beta (S L') j)) (h j))) with (csum (seq 1 L') (fun j => Cmult (matsubara_wave beta s k (tau_pt beta (S L') j)) (one_pole s (RtoC 1) b (tau_pt beta (S L') j) beta))).
    2:{ apply csum_ext. intros j Hj. apply in_seq in Hj. unfold h. destruct (Nat.eqb_spec j 0); [lia|reflexivity]. }
    set (X := csum _ _). set (G := one_pole s (RtoC 1) b 0 beta).
    replace (Cmult (RtoC (pm s)) (Cmult (RtoC (pm s)) (Cplus G (RtoC 1)))) with (Cplus G (RtoC 1)) by (transitivity (Cmult (RtoC (pm s * pm s)) (Cplus G (RtoC 1))); [rewrite pm_sq; ring|rewrite RtoC_mult; ring]).
    replace (RtoC (1 / 2)) with (Cdiv (RtoC 1) (Cplus (RtoC 1) (RtoC 1))) by (rewrite <- C2; apply Ceq; cbn; field). field. exact C2_nz. }
  rewrite (csum_ext _ (fun d => Cmult (RtoC (beta / INR L)) (csum (seq 0 L) (fun j => Cmult (Cmult (matsubara_wave beta s n (tau_pt beta L j)) (h j)) (expi (2 * PI * (INR d * IZR (Z.of_nat j) / INR L))))))).
  2:{ intros d _. rewrite E. f_equal. apply csum_ext. intros j _. rewrite wave_shift by assumption. ring. }
  rewrite csum_l, csum_swap. rewrite (csum_single _ L 0 HL).
  - rewrite csum_l, tau_0, wave_0. change (h 0%nat) with (middle beta s b). rewrite (roots L (Z.of_nat 0)) by lia. change (Z.of_nat 0) with 0%Z. rewrite Z.mod_0_l by lia. cbn [Z.eqb].
    replace (RtoC (beta / INR L)) with (Cmult (RtoC beta) (Cinv (RtoC (INR L)))) by (unfold Rdiv; rewrite RtoC_mult, RtoC_inv by exact HR; reflexivity). field. apply RtoC_nz. exact HR.
  - intros j Hj Hj0. rewrite csum_l, roots by lia. rewrite Z.mod_small by lia. destruct (Z.eqb_spec (Z.of_nat j) 0); [lia|]. ring.
Qed.

(** closed form *)
Lemma step_sum (f : nat -> C) q L : f 0%nat = RtoC 1 -> (forall j, f (S j) = Cmult (f j) q) -> Cmult (Cminus q (RtoC 1)) (csum (seq 0 L) f) = Cminus (f L) (RtoC 1).
Proof.
  intros H0 HS. induction L as [|L IH]; [rewrite H0; unfold csum; cbn [seq fold_right]; ring|]. rewrite csum_S, HS.
  replace (Cmult (Cminus q (RtoC 1)) (Cplus (csum (seq 0 L) f) (f L))) with (Cplus (Cmult (Cminus q (RtoC 1)) (csum (seq 0 L) f)) (Cmult (Cminus q (RtoC 1)) (f L))) by ring. rewrite IH. ring.
Qed.
Lemma Ht_closed beta s b L n : 0 < beta -> good_pole s b -> (0 < L)%nat ->
  let h := beta / INR L in let q := ew (PI * nu s n / beta) b h in
  Cmult (Cminus q (RtoC 1)) (Ht beta s b L n) = Cmult (RtoC (h / 2)) (Cplus q (RtoC 1)).
Proof.
  intros Hb Hg HL h q. assert (Hb0 : beta <> 0) by lra. assert (HR : INR L <> 0) by (apply not_0_INR; lia). pose proof (den_nz s b beta Hg Hb0) as Hd. set (D := 1 - pm s * exp (- beta * b)) in *.
  set (w := PI * nu s n / beta) in *. set (f := fun j => ew w b (tau_pt beta L j)).
  assert (F0 : f 0%nat = RtoC 1) by (unfold f, ew; rewrite tau_0, !Rmult_0_r, expi_0, exp_0; ring).
  assert (FS : forall j, f (S j) = Cmult (f j) q).
  { intros j. unfold f, q, ew, tau_pt. fold h. rewrite S_INR. replace (w * ((INR j + 1) * h)) with (w * (INR j * h) + w * h) by ring. replace (- b * ((INR j + 1) * h)) with (- b * (INR j * h) + - b * h) by ring.
    rewrite expi_add, exp_plus, RtoC_mult. ring. }
  assert (FL : f L = RtoC (1 - D)).
  { unfold f, ew. rewrite tau_L by exact HL. change (expi (w * beta)) with (matsubara_wave beta s n beta). rewrite wave_beta by exact Hb0. rewrite <- RtoC_mult. f_equal. unfold D. replace (- beta * b) with (- b * beta) by ring. ring. }
  assert (E : forall j, Cmult (matsubara_wave beta s n (tau_pt beta L j)) (one_pole s (RtoC 1) b (tau_pt beta L j) beta) = Cmult (Copp (RtoC (/ D))) (f j)).
  { intros j. rewrite one_eq by assumption. fold D. unfold f, ew. change (expi (w * tau_pt beta L j)) with (matsubara_wave beta s n (tau_pt beta L j)). unfold Rdiv. rewrite RtoC_mult. ring. }
  unfold Ht, trapezoid. rewrite !E. unfold total. rewrite (csum_ext _ (fun j => Cmult (Copp (RtoC (/ D))) (f j))) by (intros; apply E). rewrite csum_l. fold h. rewrite F0, FL.
  replace (Cmult (Cminus q (RtoC 1)) (Cmult (RtoC h) (Cplus (Cmult (Copp (RtoC (/ D))) (csum (seq 0 L) f)) (Cmult (RtoC (1 / 2)) (Cminus (Cmult (Copp (RtoC (/ D))) (RtoC (1 - D))) (Cmult (Copp (RtoC (/ D))) (RtoC 1)))))))
    with (Cmult (Cmult (RtoC h) (Copp (RtoC (/ D)))) (Cplus (Cmult (Cminus q (RtoC 1)) (csum (seq 0 L) f)) (Cmult (RtoC (1 / 2)) (Cmult (Cminus q (RtoC 1)) (Cminus (RtoC (1 - D)) (RtoC 1)))))) by ring.
  rewrite (step_sum f q L F0 FS), FL. replace (Cminus (RtoC (1 - D)) (RtoC 1)) with (Copp (RtoC D)) by (apply Ceq; cbn; ring). rewrite RtoC_inv by exact Hd.
  replace (RtoC (h / 2)) with (Cmult (RtoC h) (RtoC (1 / 2))) by (apply Ceq; cbn; field). transitivity (Cmult (RtoC h) (Cplus (RtoC 1) (Cmult (RtoC (1 / 2)) (Cminus q (RtoC 1))))).
  - field. apply RtoC_nz. exact Hd.
  - replace (RtoC (1 / 2)) with (Cdiv (RtoC 1) (Cplus (RtoC 1) (RtoC 1))) by (rewrite <- C2; apply Ceq; cbn; field). field. exact C2_nz.
Qed.
Lemma sin_third x : 0 <= x <= 2 -> x / 3 <= sin x.
Proof.
  intros Hx. destruct (pre_sin_bound x 0) as [H _]; [lra|lra|]. cbn in H. unfold sin_approx, sin_term in H. cbn in H. eapply Rle_trans; [|exact H].
  replace (1 * (x * 1 / 1) + -1 * 1 * (x * (x * (x * 1)) / (1 + 1 + 1 + 1 + 1 + 1))) with (x - x * (x * x) / 6) by field. nra.
Qed.
Lemma exp_le x y : x <= y -> exp x <= exp y.
Proof. intros [H| ->]; [left; apply exp_increasing; exact H|right; reflexivity]. Qed.
Lemma exp_gap x : Rabs (exp (- x) - exp x) <= 2 * Rabs x * exp (Rabs x).
Proof.
  assert (G : forall y, 0 <= y -> exp y - exp (- y) <= 2 * y * exp y).
  { intros y Hy. pose proof (exp_ineq1_le (- 2 * y)) as H. assert (E : exp (- y) = exp (- 2 * y) * exp y) by (rewrite <- exp_plus; f_equal; ring). rewrite E. pose proof (exp_pos y). nra. }
  destruct (Rle_dec 0 x) as [H|H].
  - rewrite (Rabs_pos_eq x) by exact H. rewrite Rabs_left1; [|pose proof (exp_le (- x) x ltac:(lra)); lra]. specialize (G x H). lra.
  - rewrite (Rabs_left x) by lra. specialize (G (- x) ltac:(lra)). rewrite Ropp_involutive in G. rewrite Rabs_pos_eq; [lra|]. pose proof (exp_le x (- x) ltac:(lra)); lra.
Qed.
(** the real part falls off like 1/n^2, for every mesh that resolves the frequency *)
Lemma real_part (q z : C) h : Cmult (Cminus q (RtoC 1)) z = Cmult (RtoC (h / 2)) (Cplus q (RtoC 1)) ->
  fst z * ((fst q - 1) ^ 2 + snd q ^ 2) = h / 2 * (fst q ^ 2 + snd q ^ 2 - 1).
Proof.
  destruct q as [a b], z as [x y]. cbn. intros E. injection E as E1 E2.
  transitivity ((a - 1) * ((a - 1) * x - b * y) + b * ((a - 1) * y + b * x)); [ring|].
  replace ((a - 1) * x - b * y) with (h / 2 * (a + 1)) by lra. replace ((a - 1) * y + b * x) with (h / 2 * b) by lra. ring.
Qed.
Lemma Ht_bound beta s b L n : 0 < beta -> good_pole s b -> (0 < L)%nat -> 1 <= Rabs (nu s n) <= INR L ->
  Rabs (fst (Ht beta s b L n)) <= 9 * Rabs b * exp (Rabs b * beta) * (beta * beta / (PI * PI)) / nu s n ^ 2.
Proof.
  intros Hb Hg HL Hn. pose proof PI_RGT_0 as Pp. pose proof (Ht_closed beta s b L n Hb Hg HL) as E. cbv zeta in E. set (h := beta / INR L) in *. assert (PL : 0 < INR L) by (apply lt_0_INR; exact HL).
  assert (Hh : 0 < h) by (apply Rdiv_lt_0_compat; lra). apply real_part in E. set (w := PI * nu s n / beta) in *. set (y := w * h). set (r := exp (- b * h)).
  set (q := ew w b h) in *. set (x := fst (Ht beta s b L n)) in *. assert (Q1 : fst q = cos y * r) by (unfold q, ew, y, r, expi; cbn; ring). assert (Q2 : snd q = sin y * r) by (unfold q, ew, y, r, expi; cbn; ring).
  rewrite Q1, Q2 in E. pose proof (sin2_cos2 y) as SC. unfold Rsqr in SC. assert (Pr : 0 < r) by apply exp_pos.
  assert (E2 : x * ((r - 1) ^ 2 + 4 * r * (sin (y / 2) * sin (y / 2))) = h / 2 * (r ^ 2 - 1)).
  { assert (Hc : cos y = 1 - 2 * (sin (y / 2) * sin (y / 2))) by (replace y with (2 * (y / 2)) at 1 by field; rewrite cos_2a_sin; ring).
    replace ((r - 1) ^ 2 + 4 * r * (sin (y / 2) * sin (y / 2))) with ((cos y * r - 1) ^ 2 + (sin y * r) ^ 2).
    - rewrite E. f_equal. transitivity (r * r * (sin y * sin y + cos y * cos y) - 1); [ring|rewrite SC; ring].
    - transitivity (r * r * (sin y * sin y + cos y * cos y) - 2 * r * cos y + 1); [ring|]. rewrite SC, Hc. ring. }
  assert (Hy : y = PI * nu s n / INR L) by (unfold y, w, h; field; lra).
  assert (Ay : Rabs y <= PI). { rewrite Hy. unfold Rdiv. rewrite !Rabs_mult, (Rabs_pos_eq PI) by lra. rewrite Rabs_inv, (Rabs_pos_eq (INR L)) by lra. apply (Rmult_le_reg_r (INR L)); [exact PL|]. replace (PI * Rabs (nu s n) * / INR L * INR L) with (PI * Rabs (nu s n)) by (field; lra). apply Rmult_le_compat_l; lra. }
  assert (Sy : y * y / 36 <= sin (y / 2) * sin (y / 2)).
  { pose proof PI_4. assert (G : forall t, 0 <= t <= PI -> t * t / 36 <= sin (t / 2) * sin (t / 2)).
    { intros t Ht0. pose proof (sin_third (t / 2) ltac:(lra)). assert (0 <= t / 2 / 3) by lra. replace (t * t / 36) with (t / 2 / 3 * (t / 2 / 3)) by field. apply Rmult_le_compat; lra. }
    destruct (Rle_dec 0 y) as [H0|H0]; [apply G; rewrite Rabs_pos_eq in Ay by exact H0; lra|].
    specialize (G (- y)). replace (- y / 2) with (- (y / 2)) in G by field. rewrite sin_neg in G. rewrite Rabs_left in Ay by lra. specialize (G ltac:(lra)). nra. }
  assert (Py : 0 < y * y). { assert (y <> 0); [|nra]. intros Z. rewrite Hy in Z. assert (nu s n = 0); [|rewrite H, Rabs_R0 in Hn; lra]. replace (nu s n) with (PI * nu s n / INR L * INR L / PI) by (field; lra). rewrite Z. unfold Rdiv. ring. }
  set (den := (r - 1) ^ 2 + 4 * r * (sin (y / 2) * sin (y / 2))) in *. assert (Dn : r * (y * y) / 9 <= den) by (unfold den; pose proof (pow2_ge_0 (r - 1)); nra).
  assert (Dp : 0 < r * (y * y) / 9) by (apply Rdiv_lt_0_compat; [apply Rmult_lt_0_compat; assumption|lra]).
  assert (A : Rabs x * (r * (y * y) / 9) <= h / 2 * Rabs (r ^ 2 - 1)).
  { eapply Rle_trans; [apply Rmult_le_compat_l; [apply Rabs_pos|exact Dn]|]. rewrite <- (Rabs_pos_eq den) by lra. rewrite <- Rabs_mult, E2, Rabs_mult, (Rabs_pos_eq (h / 2)) by lra. apply Rle_refl. }
  assert (B : Rabs (r ^ 2 - 1) = r * Rabs (exp (- (b * h)) - exp (b * h))).
  { rewrite <- (Rabs_pos_eq r) at 2 by lra. rewrite <- Rabs_mult. f_equal. assert (Z : r * exp (b * h) = 1) by (unfold r; rewrite <- exp_plus; replace (- b * h + b * h) with 0 by ring; apply exp_0). replace (exp (- (b * h))) with r by (unfold r; f_equal; ring). rewrite Rmult_minus_distr_l, Z. ring. }
  pose proof (exp_gap (b * h)) as Gp. rewrite Rabs_mult, (Rabs_pos_eq h) in Gp by lra.
  assert (Hle : h <= beta). { unfold h. apply (Rmult_le_reg_r (INR L)); [exact PL|]. replace (beta / INR L * INR L) with beta by (field; lra). assert (1 <= INR L) by lra. nra. }
  assert (Ex : exp (Rabs b * h) <= exp (Rabs b * beta)) by (apply exp_le; apply Rmult_le_compat_l; [apply Rabs_pos|exact Hle]). set (X := exp (Rabs b * beta)) in *. set (T := Rabs (exp (- (b * h)) - exp (b * h))) in *.
  assert (Gp2 : T <= 2 * (Rabs b * h) * X). { eapply Rle_trans; [exact Gp|]. apply Rmult_le_compat_l; [|exact Ex]. pose proof (Rabs_pos b). nra. }
  rewrite B in A. assert (A2 : Rabs x * (y * y) <= 9 * Rabs b * X * (h * h)).
  { apply (Rmult_le_reg_r (r / 9)); [lra|]. replace (Rabs x * (y * y) * (r / 9)) with (Rabs x * (r * (y * y) / 9)) by field. eapply Rle_trans; [exact A|].
    replace (9 * Rabs b * X * (h * h) * (r / 9)) with (h / 2 * r * (2 * (Rabs b * h) * X)) by field. replace (h / 2 * (r * T)) with (h / 2 * r * T) by ring. apply Rmult_le_compat_l; [|exact Gp2]. apply Rmult_le_pos; lra. }
  assert (Nz : nu s n <> 0) by (intros Z; rewrite Z, Rabs_R0 in Hn; lra).
  assert (Y2 : y * y = nu s n ^ 2 * (PI * PI / (beta * beta)) * (h * h)) by (unfold y, w; field; lra).
  rewrite Y2 in A2. set (v2 := nu s n ^ 2) in *. assert (Pv : 0 < v2) by (unfold v2; pose proof (pow2_ge_0 (nu s n)); assert (nu s n ^ 2 <> 0) by (apply pow_nonzero; exact Nz); lra).
  assert (Pc : 0 < PI * PI / (beta * beta) * (h * h)) by (apply Rmult_lt_0_compat; [apply Rdiv_lt_0_compat; nra|nra]).
  apply (Rmult_le_reg_r (v2 * (PI * PI / (beta * beta) * (h * h)))); [nra|]. replace (Rabs x * (v2 * (PI * PI / (beta * beta) * (h * h)))) with (Rabs x * (v2 * (PI * PI / (beta * beta)) * (h * h))) by ring.
  eapply Rle_trans; [exact A2|]. apply Req_le. field. repeat split; lra.
Qed.
(** the same for the exact value *)
Definition hinv (beta : R) (s : statistic) (b : R) (n : Z) : C := Cdiv (RtoC 1) (Cminus (i_omega beta s n) (RtoC b)).
Lemma hinv_parts beta s b n : 0 < beta -> good_pole s b -> let w := PI * nu s n / beta in
  fst (hinv beta s b n) = - b / (b * b + w * w) /\ snd (hinv beta s b n) = - w / (b * b + w * w) /\ 0 < b * b + w * w.
Proof.
  intros Hb Hg w. pose proof (i_omega_nz beta s n b Hb Hg) as Hz. unfold hinv. change (i_omega beta s n) with (Cmult Ci (RtoC w)) in *. pose proof (q_pos w b Hz) as Q.
  unfold Cdiv. cbn. repeat split; try (field; repeat split; nra); nra.
Qed.
Lemma hinv_bound beta s b n : 0 < beta -> good_pole s b -> 1 <= Rabs (nu s n) ->
  Rabs (fst (hinv beta s b n)) <= Rabs b * (beta * beta / (PI * PI)) / nu s n ^ 2.
Proof.
  intros Hb Hg Hn. pose proof PI_RGT_0 as Pp. destruct (hinv_parts beta s b n Hb Hg) as (E & _ & Q). cbv zeta in E, Q. rewrite E. assert (Nz : nu s n <> 0) by (intros Z; rewrite Z, Rabs_R0 in Hn; lra).
  assert (Pv : 0 < nu s n ^ 2) by (pose proof (pow2_ge_0 (nu s n)); assert (nu s n ^ 2 <> 0) by (apply pow_nonzero; exact Nz); lra).
  set (w := PI * nu s n / beta) in *. unfold Rdiv at 1. rewrite Rabs_mult, Rabs_Ropp, Rabs_inv, (Rabs_pos_eq (b * b + w * w)) by lra.
  apply (Rmult_le_reg_r (b * b + w * w)); [lra|]. replace (Rabs b * / (b * b + w * w) * (b * b + w * w)) with (Rabs b) by (field; lra).
  assert (W : w * w = nu s n ^ 2 * (PI * PI / (beta * beta))) by (unfold w; field; lra). set (v2 := nu s n ^ 2) in *. set (c := beta * beta / (PI * PI)).
  assert (W2 : c / v2 * (w * w) = 1) by (rewrite W; unfold c; field; repeat split; lra). assert (Pc : 0 < c / v2) by (apply Rdiv_lt_0_compat; [apply Rdiv_lt_0_compat; nra|exact Pv]).
  replace (Rabs b * c / v2 * (b * b + w * w)) with (Rabs b * (c / v2 * (b * b) + c / v2 * (w * w))) by (field; lra). rewrite W2. pose proof (Rabs_pos b). assert (0 <= c / v2 * (b * b)) by nra. nra.
Qed.

(** ---- the limit ---- *)
Definition full_mesh (beta : R) (s : statistic) (N : nat) : imfreq := mkImfreq beta s (Z.of_nat N) false.
Definition len (s : statistic) (N : nat) : nat := match s with Fermion => 2 * N | Boson => 2 * N - 1 end.
Definition first (s : statistic) (N : nat) : Z := match s with Fermion => - Z.of_nat N | Boson => 1 - Z.of_nat N end.
Lemma mesh_size beta s N : Z.to_nat (if_size (full_mesh beta s N)) = match N with O => 0%nat | _ => len s N end.
Proof. unfold if_size, if_first, if_last, full_mesh, len. destruct s, N; cbn [if_pos if_stat if_n stat_eqb]; lia. Qed.
Lemma mesh_index beta s N d : if_to_index (full_mesh beta s N) d = (first s N + d)%Z.
Proof. unfold if_to_index, if_first, if_last, full_mesh, first. destruct s; cbn [if_pos if_stat if_n stat_eqb]; lia. Qed.
(** the sum over the mesh as a sum over the pairs of frequencies *)
Definition pair_of (s : statistic) (f : Z -> R) (k : nat) : R :=
  match s with Fermion => f (Z.of_nat k) + f (- Z.of_nat k - 1)%Z | Boson => if (k =? 0)%nat then f 0%Z else f (Z.of_nat k) + f (- Z.of_nat k)%Z end.
Lemma pair_sum s f N : (0 < N)%nat -> rs (len s N) (fun d => f (first s N + Z.of_nat d)%Z) = rs N (pair_of s f).
Proof.
  intros HN. destruct s; unfold len, first, pair_of.
  - destruct N as [|M]; [lia|]. replace (2 * S M - 1)%nat with (M + S M)%nat by lia. rewrite rs_split, rs_rev.
    rewrite !rs_1. cbv beta. cbn [Nat.eqb]. rewrite rs_plus. replace (1 - Z.of_nat (S M) + Z.of_nat (M + 0))%Z with 0%Z by lia.
    rewrite (rs_ext M (fun k => f (1 - Z.of_nat (S M) + Z.of_nat (M - 1 - k))%Z) (fun k => f (- Z.of_nat (S k))%Z)) by (intros; f_equal; lia).
    rewrite (rs_ext M (fun k => f (1 - Z.of_nat (S M) + Z.of_nat (M + S k))%Z) (fun k => f (Z.of_nat (S k)))) by (intros; f_equal; lia). ring.
  - replace (2 * N)%nat with (N + N)%nat by lia. rewrite rs_split, rs_rev, rs_plus. rewrite Rplus_comm. f_equal; apply rs_ext; intros k Hk; f_equal; lia.
Qed.
Lemma odd_sum beta s b N : 0 < beta -> good_pole s b -> (0 < N)%nat -> rs (len s N) (fun d => snd (hinv beta s b (first s N + Z.of_nat d))) = 0.
Proof.
  intros Hb Hg HN. rewrite (pair_sum s (fun n => snd (hinv beta s b n)) N HN). apply rs_0. intros k _. unfold pair_of.
  assert (O : forall n n', nu s n' = - nu s n -> snd (hinv beta s b n) + snd (hinv beta s b n') = 0).
  { intros n n' E. destruct (hinv_parts beta s b n Hb Hg) as (_ & -> & Q). destruct (hinv_parts beta s b n' Hb Hg) as (_ & -> & Q'). cbv zeta in Q. cbv zeta. rewrite E. replace (PI * - nu s n / beta) with (- (PI * nu s n / beta)) by (field; lra). set (w := PI * nu s n / beta) in *. field. intros Z0. nra. }
  destruct s.
  - destruct (Nat.eqb_spec k 0) as [->|Hk].
    + assert (E : nu Boson 0 = - nu Boson 0) by (unfold nu; cbn; lra). pose proof (O 0%Z 0%Z E). lra.
    + apply O. unfold nu. rewrite <- opp_IZR. f_equal. lia.
  - apply O. unfold nu. rewrite <- opp_IZR. f_equal. lia.
Qed.

Lemma limit_n beta s b n : 0 < beta -> good_pole s b -> forall eps, 0 < eps -> exists N, forall L, (N <= L)%nat -> (0 < L)%nat -> Rabs (fst (Ht beta s b L n) - fst (hinv beta s b n)) < eps.
Proof.
  intros Hb Hg eps He. destruct (trapezoid_limit (fun t => Cmult (matsubara_wave beta s n t) (one_pole s (RtoC 1) b t beta)) beta _ Hb (pole_int beta s n (RtoC 1) b Hb Hg) eps He) as [N B].
  exists N. intros L H1 H2. specialize (B L H1 H2). eapply Rle_lt_trans; [|exact B]. change (fst (Ht beta s b L n) - fst (hinv beta s b n)) with (fst (Cminus (Ht beta s b L n) (hinv beta s b n))). eapply Rle_trans; [|apply Rmax_Cmod]. apply Rmax_l.
Qed.
Lemma nu_range s N k : (k < N)%nat -> ~ (s = Boson /\ k = 0%nat) ->
  let n := Z.of_nat k in let n' := match s with Fermion => - Z.of_nat k - 1 | Boson => - Z.of_nat k end%Z in
  1 <= Rabs (nu s n) <= INR (len s N) /\ 1 <= Rabs (nu s n') <= INR (len s N) /\ (INR k + 1) ^ 2 <= nu s n ^ 2 /\ (INR k + 1) ^ 2 <= nu s n' ^ 2.
Proof.
  intros Hk H0. cbv zeta. unfold nu. rewrite !INR_IZR_INZ.
  assert (E : exists v, (1 <= v <= Z.of_nat (len s N))%Z /\ (Z.of_nat k + 1 <= v)%Z /\ (2 * Z.of_nat k + match s with Fermion => 1 | Boson => 0 end = v)%Z /\ (2 * (match s with Fermion => - Z.of_nat k - 1 | Boson => - Z.of_nat k end) + match s with Fermion => 1 | Boson => 0 end = - v)%Z).
  { destruct s; unfold len.
    - exists (2 * Z.of_nat k)%Z. assert (k <> 0)%nat by (intros ->; apply H0; auto). lia.
    - exists (2 * Z.of_nat k + 1)%Z. lia. }
  destruct E as (v & [V1 V2] & V3 & -> & ->). apply IZR_le in V1, V2, V3. rewrite plus_IZR in V3. rewrite opp_IZR, Rabs_Ropp, (Rabs_pos_eq (IZR v)) by lra.
  assert (0 <= IZR (Z.of_nat k)) by (apply IZR_le; lia). repeat split; try lra; nra.
Qed.
(** 1/beta sum_n 1/(i w_n - b) -> G(0+) + 1/2 = (G(0+) + G(0-))/2 *)
Lemma mats_sum beta s b : 0 < beta -> good_pole s b -> forall eps, 0 < eps -> exists N0, forall N, (N0 <= N)%nat ->
  Cmod (Cminus (Cdiv (csum (seq 0 (Z.to_nat (if_size (full_mesh beta s N)))) (fun d => hinv beta s b (if_to_index (full_mesh beta s N) (Z.of_nat d)))) (RtoC beta)) (middle beta s b)) < eps.
Proof.
  intros Hb Hg. set (K0 := 9 * Rabs b * exp (Rabs b * beta) * (beta * beta / (PI * PI)) + Rabs b * (beta * beta / (PI * PI))). pose proof PI_RGT_0 as Pp.
  assert (HK : 0 <= K0). { unfold K0. pose proof (Rabs_pos b). pose proof (exp_pos (Rabs b * beta)). assert (0 < beta * beta / (PI * PI)) by (apply Rdiv_lt_0_compat; nra). assert (0 <= 9 * Rabs b * exp (Rabs b * beta)) by nra. nra. }
  set (e := fun N n => Rabs (fst (Ht beta s b (len s N) n) - fst (hinv beta s b n))).
  assert (Eb : forall N n, (0 < len s N)%nat -> 1 <= Rabs (nu s n) <= INR (len s N) -> e N n <= K0 / nu s n ^ 2).
  { intros N n HL Hn. unfold e. eapply Rle_trans; [unfold Rminus; apply Rabs_triang|]. rewrite Rabs_Ropp. pose proof (Ht_bound beta s b (len s N) n Hb Hg HL Hn). pose proof (hinv_bound beta s b n Hb Hg (proj1 Hn)).
    unfold K0. unfold Rdiv in *. rewrite Rmult_plus_distr_r. lra. }
  assert (El : forall n eps, 0 < eps -> exists N, forall m, (N <= m)%nat -> e m n < eps).
  { intros n eps He. destruct (limit_n beta s b n Hb Hg eps He) as [N B]. exists (S N). intros m Hm. apply B; unfold len; destruct s; lia. }
  assert (T : forall eps, 0 < eps -> exists N, forall n, (N <= n)%nat -> rs n (pair_of s (e n)) < eps).
  { intros eps He. apply (tannery (fun N k => pair_of s (e N) k) (fun n => n) (2 * K0)); [lra| | | |exact He].
    - intros n k. unfold pair_of, e. destruct s; [destruct (k =? 0)%nat; [apply Rabs_pos|]|]; apply Rplus_le_le_0_compat; apply Rabs_pos.
    - intros n k Hk. assert (HL : (0 < len s n)%nat) by (unfold len; destruct s; lia). destruct (nu_range s n k (proj2 Hk) ltac:(intros [_ ?]; lia)) as (R1 & R2 & R3 & R4). cbv zeta in R1, R2, R3, R4.
      assert (Pk : 0 < (INR k + 1) ^ 2) by (pose proof (pos_INR k); nra). assert (Q : forall v, (INR k + 1) ^ 2 <= v -> K0 / v <= K0 / (INR k + 1) ^ 2) by (intros v Hv; apply Rmult_le_compat_l; [exact HK|apply Rinv_le_contravar; lra]).
      pose proof (Eb n _ HL R1) as B1. pose proof (Eb n _ HL R2) as B2. pose proof (Q _ R3). pose proof (Q _ R4). replace (2 * K0 / (INR k + 1) ^ 2) with (K0 / (INR k + 1) ^ 2 + K0 / (INR k + 1) ^ 2) by (unfold Rdiv; ring).
      unfold pair_of. destruct s; [destruct (Nat.eqb_spec k 0); [lia|]|]; lra.
    - intros k eps' He'. unfold pair_of. destruct s; [destruct (k =? 0)%nat; [apply El; exact He'|]|];
        [destruct (El (Z.of_nat k) (eps' / 2) ltac:(lra)) as [N1 B1]; destruct (El (- Z.of_nat k)%Z (eps' / 2) ltac:(lra)) as [N2 B2]|destruct (El (Z.of_nat k) (eps' / 2) ltac:(lra)) as [N1 B1]; destruct (El (- Z.of_nat k - 1)%Z (eps' / 2) ltac:(lra)) as [N2 B2]];
        exists (N1 + N2)%nat; intros n Hn; specialize (B1 n ltac:(lia)); specialize (B2 n ltac:(lia)); lra. }
  intros eps He. destruct (T (eps * beta) ltac:(nra)) as [N0 B]. exists (S N0). intros N HN. specialize (B N ltac:(lia)). rewrite mesh_size. destruct N as [|M]; [lia|]. set (N := S M) in *. assert (PN : (0 < N)%nat) by (unfold N; lia).
  assert (HL : (0 < len s N)%nat) by (unfold len; destruct s; lia).
  rewrite (csum_ext _ (fun d => hinv beta s b (first s N + Z.of_nat d))) by (intros; rewrite mesh_index; reflexivity).
  pose proof (discrete_sum beta s b (len s N) (first s N) Hb Hg HL) as D. set (X := csum (seq 0 (len s N)) (fun d => hinv beta s b (first s N + Z.of_nat d))).
  assert (Mi : snd (middle beta s b) = 0). { unfold middle. rewrite one_eq by (assumption || lra). cbn. ring. }
  assert (D1 : rs (len s N) (fun d => fst (Ht beta s b (len s N) (first s N + Z.of_nat d))) = beta * fst (middle beta s b)). { rewrite <- csum_fst_rs, D. cbn. ring. }
  assert (X2 : snd X = 0) by (unfold X; rewrite csum_snd_rs; apply odd_sum; assumption). assert (X1 : fst X = rs (len s N) (fun d => fst (hinv beta s b (first s N + Z.of_nat d)))) by (unfold X; apply csum_fst_rs).
  replace (Cminus (Cdiv X (RtoC beta)) (middle beta s b)) with (RtoC (/ beta * (fst X - beta * fst (middle beta s b)))).
  2:{ clear - X2 Mi Hb. destruct X as [x1 x2]. destruct (middle beta s b) as [m1 m2]. cbn in X2, Mi. subst. unfold Cdiv. apply Ceq; cbn; field; lra. }
  rewrite Cmod_R, Rabs_mult, Rabs_pos_eq by (left; apply Rinv_0_lt_compat; exact Hb). rewrite X1, <- D1.
  replace (rs (len s N) (fun d => fst (hinv beta s b (first s N + Z.of_nat d))) - rs (len s N) (fun d => fst (Ht beta s b (len s N) (first s N + Z.of_nat d))))
    with (rs (len s N) (fun d => fst (hinv beta s b (first s N + Z.of_nat d)) + -1 * fst (Ht beta s b (len s N) (first s N + Z.of_nat d)))) by (rewrite rs_plus, rs_scal; ring).
  assert (Z : Rabs (rs (len s N) (fun d => fst (hinv beta s b (first s N + Z.of_nat d)) + -1 * fst (Ht beta s b (len s N) (first s N + Z.of_nat d)))) < eps * beta).
  { eapply Rle_lt_trans; [apply rs_abs|]. eapply Rle_lt_trans; [|exact B]. rewrite <- (pair_sum s (e N) N PN). apply Req_le. apply rs_ext. intros k _. unfold e. rewrite Rabs_minus_sym. f_equal. ring. }
  apply (Rmult_lt_reg_l beta); [exact Hb|]. rewrite <- Rmult_assoc, Rinv_r by lra. lra.
Qed.
