(** Left Riemann sums converge to the integral. *)
From Coq Require Import ZArith Reals List Bool Arith Lia Lra.
From Coquelicot Require Import Coquelicot.
From Verif Require Import ThermalSpec Csum Fourier FourierSpec Fourier_dft.
Import ListNotations.
Local Open Scope R_scope.

Lemma Riemann_unif (f : R -> R) n : forall a b, Riemann_sum f (SF_seq_f2 (fun x _ => x) (unif_part a b n)) =
  (b - a) / (INR n + 1) * sum_f_R0 (fun j => f (a + INR j * ((b - a) / (INR n + 1)))) n.
Proof.
  induction n as [|n IH]; intros a b.
  - unfold unif_part, SF_seq_f2, Riemann_sum. cbn -[INR Rdiv]. unfold scal. cbn -[INR Rdiv]. unfold mult, plus, zero. cbn -[INR Rdiv].
    cbn [INR]. replace (a + 1 * (b - a) / (0 + 1)) with b by field. replace (a + 0 * ((b - a) / (0 + 1))) with (a + 0 * (b - a) / (0 + 1)) by field.
    replace (a + 0 * (b - a) / (0 + 1)) with a by field. field.
  - rewrite unif_part_S. set (a' := (a * INR (S n) + b) / INR (S (S n))). set (h := (b - a) / (INR (S n) + 1)).
    assert (P1 : INR n + 1 <> 0) by (pose proof (pos_INR n); lra). assert (P2 : INR (S n) + 1 <> 0) by (pose proof (pos_INR (S n)); lra).
    assert (Ea : a' = a + h) by (unfold a', h; rewrite !S_INR in *; field; lra).
    assert (Eh : (b - a') / (INR n + 1) = h) by (rewrite Ea; unfold h; rewrite S_INR in *; field; lra).
    rewrite SF_cons_f2.
    2:{ unfold unif_part. rewrite seq.size_mkseq. lia. }
    rewrite Riemann_sum_cons. cbn [SF_h fst snd]. rewrite IH, Eh.
    assert (Hd : SF_h (SF_seq_f2 (fun x _ : R => x) (unif_part a' b n)) = a') by (unfold SF_seq_f2; cbn [SF_h]; rewrite head_unif_part; reflexivity).
    rewrite Hd. unfold scal, plus. cbn -[INR sum_f_R0]. unfold mult. cbn -[INR sum_f_R0]. rewrite (decomp_sum (fun j => f (a + INR j * h)) (S n)) by lia. cbn [pred]. change (INR 0) with 0.
    replace (a + 0 * h) with a by ring. rewrite Rmult_plus_distr_l. f_equal; [rewrite Ea; ring|]. f_equal. apply sum_eq. intros i _. f_equal. rewrite Ea. rewrite S_INR. ring.
Qed.
Lemma left_sums (f : R -> R) b I : 0 < b -> is_RInt f 0 b I ->
  forall eps, 0 < eps -> exists N : nat, forall n, (N <= n)%nat -> Rabs (b / (INR n + 1) * sum_f_R0 (fun j => f (INR j * (b / (INR n + 1)))) n - I) < eps.
Proof.
  intros Hb H eps He. unfold is_RInt, filterlim, filter_le, filtermap in H.
  specialize (H (ball I (mkposreal eps He)) (locally_ball I (mkposreal eps He))).
  unfold Riemann_fine, within, locally_dist in H. destruct H as [d Hd].
  destruct (nfloor_ex (b / d)) as [N HN]; [apply Rlt_le, Rdiv_lt_0_compat; [exact Hb|apply cond_pos]|].
  exists N. intros n Hn. assert (Hfine : forall x y : R, x <= y -> x <= x <= y) by (intros; lra).
  destruct (Riemann_fine_unif_part (fun x _ => x) 0 b n Hfine ltac:(lra)) as (S1 & S2 & S3 & S4).
  assert (P1 : 0 < INR n + 1) by (pose proof (pos_INR n); lra).
  specialize (Hd (SF_seq_f2 (fun x _ : R => x) (unif_part 0 b n))). cbv beta in Hd.
  assert (Hstep : seq_step (SF_lx (SF_seq_f2 (fun x _ : R => x) (unif_part 0 b n))) < d).
  { eapply Rle_lt_trans; [exact S1|]. rewrite Rminus_0_r. apply Rlt_div_l; [exact P1|]. assert (Dp := cond_pos d).
    assert (b / d < INR n + 1) by (eapply Rlt_le_trans; [exact (proj2 HN)|]; apply Rplus_le_compat_r, le_INR, Hn). apply Rlt_div_l in H; [lra|exact Dp]. }
  specialize (Hd Hstep). rewrite Rmin_left, Rmax_right in Hd by lra. specialize (Hd (conj S2 (conj S3 S4))).
  rewrite Rminus_0_r, sign_eq_1 in Hd by exact Hb. rewrite Riemann_unif in Hd. rewrite Rminus_0_r in Hd.
  unfold ball in Hd. cbn -[INR sum_f_R0] in Hd. unfold AbsRing_ball, abs, minus, plus, opp, scal in Hd. cbn -[INR sum_f_R0] in Hd. unfold mult in Hd. cbn -[INR sum_f_R0] in Hd. rewrite Rmult_1_l in Hd.
  replace (sum_f_R0 (fun j => f (INR j * (b / (INR n + 1)))) n) with (sum_f_R0 (fun j => f (0 + INR j * (b / (INR n + 1)))) n); [exact Hd|].
  apply sum_eq. intros i _. rewrite Rplus_0_l. reflexivity.
Qed.
Lemma fold_sum g n : fold_right (fun x s => g x + s) 0 (seq 0 (S n)) = sum_f_R0 g n.
Proof.
  assert (G : forall l x, fold_right (fun x s => g x + s) 0 (l ++ [x]) = fold_right (fun x s => g x + s) 0 l + g x).
  { induction l as [|y l IH]; intros x; cbn; [ring|rewrite IH; ring]. }
  induction n as [|n IH]; [cbn; ring|]. rewrite seq_S, G, IH. cbn [sum_f_R0 plus]. reflexivity.
Qed.
(** complex functions, n intervals *)
Lemma left_csums (f : R -> C) b I : 0 < b -> cintegral f 0 b I ->
  forall eps, 0 < eps -> exists N : nat, forall n, (N <= n)%nat -> (0 < n)%nat -> Cmod (Cminus (Cmult (RtoC (b / INR n)) (total n (fun j => f (tau_pt b n j)))) I) < eps.
Proof.
  intros Hb [H1 H2] eps He. destruct (left_sums _ b _ Hb H1 (eps / 2) ltac:(lra)) as [N1 B1]. destruct (left_sums _ b _ Hb H2 (eps / 2) ltac:(lra)) as [N2 B2].
  exists (S (N1 + N2)). intros n Hn Hp. destruct n as [|n]; [lia|]. specialize (B1 n ltac:(lia)). specialize (B2 n ltac:(lia)).
  set (z := Cminus _ I). assert (Ez : z = (fst z, snd z)) by (destruct z; reflexivity).
  assert (M : Cmod z <= Rabs (fst z) + Rabs (snd z)).
  { replace z with (Cplus (RtoC (fst z)) (Cmult Ci (RtoC (snd z)))) at 1 by (apply Ceq; cbn; ring).
    eapply Rle_trans; [apply Cmod_triangle|]. rewrite Cmod_R, Cmod_mult, Cmod_R.
    assert (Cmod Ci = 1) by (unfold Cmod, Ci; cbn; rewrite !Rmult_0_l, !Rmult_1_r, Rplus_0_l; apply sqrt_1). rewrite H. lra. }
  eapply Rle_lt_trans; [exact M|]. assert (F : fst z = b / (INR n + 1) * sum_f_R0 (fun j => fst (f (INR j * (b / (INR n + 1))))) n - fst I /\ snd z = b / (INR n + 1) * sum_f_R0 (fun j => snd (f (INR j * (b / (INR n + 1))))) n - snd I).
  { unfold z. unfold Cminus, Cplus, Copp, Cmult, RtoC. cbn [fst snd]. unfold total, tau_pt. rewrite csum_fst, csum_snd, !fold_sum, S_INR. split; ring. }
  destruct F as [-> ->]. lra.
Qed.
