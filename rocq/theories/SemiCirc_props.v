(** C88: the descriptors SemiCircular and Flat. *)
From Coq Require Import Reals List Bool Arith Lia Lra.
From Coquelicot Require Import Coquelicot.
From Verif Require Import Base Scalar RealAtom PyGf PyGf_proofs PyGf_props PyGfSpec SemiCirc SemiCirc_proofs SemiCircSpec.
Import ListNotations.
Local Open Scope R_scope.

(** C88.  At every Matsubara frequency the semicircular Green's function is the causal solution of
    g = 1 / (z - D^2/4 g), z = i omega + mu, and the only one. *)
Theorem C88_semicircular : forall D mu om, 0 < D -> snd om <> 0 ->
  let z := Cplus om (RtoC mu) in
  bethe D z (semi_im D mu om) /\ snd (semi_im D mu om) * snd om < 0 /\
  forall g, bethe D z g -> snd g * snd om < 0 -> g = semi_im D mu om.
Proof.
  intros D mu om HD Hy z. pose proof (semi_im_causal D mu om HD Hy) as HC. pose proof (semi_im_bethe D mu om ltac:(lra)) as HB. split; [exact HB|]. split; [exact HC|].
  intros g Hg Hc. apply (bethe_unique D z); [exact HD|exact Hg|exact HB|]. set (a := snd g) in *. set (b := snd (semi_im D mu om)) in *.
  destruct (Rlt_or_le 0 (snd om)); [assert (a < 0) by nra; assert (b < 0) by nra; nra|assert (0 < a) by nra; assert (0 < b) by nra; nra].
Qed.
Print Assumptions C88_semicircular.

(** C88.  It is bounded by 1 / |omega|, behaves as 1 / z, and is conjugate at the opposite frequency. *)
Theorem C88_tail : forall D mu om, 0 < D -> snd om <> 0 ->
  Cmod (semi_im D mu om) * Rabs (snd om) <= 1 /\
  Cmod (Cminus (Cmult (Cplus om (RtoC mu)) (semi_im D mu om)) (RtoC 1)) * (snd om * snd om) <= D * D / 4 /\
  semi_im D mu (Cconj om) = Cconj (semi_im D mu om).
Proof.
  intros D mu om HD Hy. pose proof (semi_im_causal D mu om HD Hy) as HC. pose proof (semi_im_bethe D mu om ltac:(lra)) as HB. rewrite <- (snd_shift om mu) in HC, Hy.
  rewrite <- (snd_shift om mu) at 1. split; [apply (bethe_bound D); assumption|]. split.
  - rewrite <- (snd_shift om mu). apply bethe_tail; assumption.
  - rewrite snd_shift in Hy. apply semi_im_conj; assumption.
Qed.
Print Assumptions C88_tail.

(** C88.  At real frequencies it solves the same equation, its spectral function is the semicircle, and outside of
    the band it is real, with the sign of the frequency and at most 2/D. *)
Theorem C88_real : forall D mu om, 0 < D ->
  bethe D (RtoC (fst om + mu)) (semi_re D mu om) /\
  - snd (semi_re D mu om) / PI = semicircle D (fst om + mu) /\
  (D <= Rabs (fst om + mu) -> snd (semi_re D mu om) = 0 /\ 0 < fst (semi_re D mu om) * (fst om + mu) /\ Rabs (fst (semi_re D mu om)) <= 2 / D).
Proof. intros D mu om HD. split; [apply semi_re_bethe; exact HD|]. split; [apply semi_re_dos; exact HD|]. apply semi_re_outside_size. exact HD. Qed.
Print Assumptions C88_real.

(** C88.  G << SemiCircular(D, mu) and G << Flat(D) on a mesh of Matsubara frequencies give that value on the
    diagonal and zero elsewhere. *)
Theorem C88_assign : forall kinv minv kind points mesh n sh self D mu d f,
  inverse_ok CS kinv minv -> kind mesh = MeshImFreq ->
  (semi_circular (kind mesh) D mu = Ok d /\ f = semi_im D mu) \/ (flat (kind mesh) D = Ok d /\ f = flat_im D) ->
  sh = Some (n, n) \/ (sh = None /\ n = 1%nat) -> on_mesh CS points mesh sh self ->
  exists g, assign CS kinv minv kind points self (UDesc CS d) = (g, Ok tt) /\
    forall p i j, (p < length (points mesh))%nat -> (i < n)%nat -> (j < n)%nat -> g_data CS g p i j = if Nat.eqb i j then f (nth p (points mesh) (RtoC 0)) else RtoC 0.
Proof.
  intros kinv minv kind points mesh n sh self D mu d f I Hk Hd Hsh Hg.
  assert (E : d = DFun CS (fun sh om => times_id sh (f om))) by (rewrite Hk in Hd; destruct Hd as [[H ->]|[H ->]]; injection H as <-; reflexivity). subst d.
  destruct (C87_assign CS kinv minv kind points mesh n sh self (UDesc CS (DFun CS (fun sh om => times_id sh (f om)))) FLazy CS_laws I (or_introl Hk) Hsh Hg) as (g & E & _ & HD).
  - apply cov_fun. intros om _. destruct Hsh as [-> |[-> _]]; cbn; [rewrite Nat.eqb_refl|]; reflexivity.
  - exists g. split; [exact E|]. intros p i j Hp Hi Hj. rewrite (HD p i j Hp Hi Hj). cbn [value desc_value]. destruct Hsh as [-> |[-> ->]]; cbn [times_id read].
    + destruct (Nat.eqb i j); [apply Cmult_1_r|apply Cmult_0_r].
    + replace i with 0%nat by lia. replace j with 0%nat by lia. reflexivity.
Qed.
Print Assumptions C88_assign.

(** C88, not so on real frequencies: the semicircular function of a matrix-valued G has the same value in all
    elements, off the diagonal too, where it never is zero. *)
Theorem C88_real_matrix_refuted : forall kinv minv kind points mesh n self D mu d,
  inverse_ok CS kinv minv -> 0 < D -> kind mesh = MeshReFreq -> semi_circular (kind mesh) D mu = Ok d -> on_mesh CS points mesh (Some (n, n)) self ->
  exists g, assign CS kinv minv kind points self (UDesc CS d) = (g, Ok tt) /\
    forall p i j, (p < length (points mesh))%nat -> (i < n)%nat -> (j < n)%nat ->
      g_data CS g p i j = semi_re D mu (nth p (points mesh) (RtoC 0)) /\ g_data CS g p i j <> RtoC 0.
Proof.
  intros kinv minv kind points mesh n self D mu d I HD Hk Hd Hg. rewrite Hk in Hd. injection Hd as <-.
  destruct (C87_assign CS kinv minv kind points mesh n (Some (n, n)) self (UDesc CS (DFun CS (fun _ om => Num CS (semi_re D mu om)))) FLazy CS_laws I (or_intror Hk) (or_introl eq_refl) Hg) as (g & E & _ & HV).
  - apply cov_fun. intros om _. reflexivity.
  - exists g. split; [exact E|]. intros p i j Hp Hi Hj. pose proof (HV p i j Hp Hi Hj) as H. cbn [value desc_value read] in H. split; [exact H|]. intros Z. rewrite Z in H.
    pose proof (bethe_nonzero D _ _ (semi_re_bethe D mu (nth p (points mesh) (RtoC 0)) HD)) as N. change (@k0 CS) with (RtoC 0) in H. rewrite <- H in N. cbn [RtoC fst snd] in N. lra.
Qed.
Print Assumptions C88_real_matrix_refuted.

(** C88, not so at the zero frequency of a bosonic mesh when the chemical potential is above the band: it takes the
    other solution, more than 2/D, where the function on real frequencies has the right one, less than 2/D. *)
Theorem C88_zero_frequency_refuted : forall D mu, 0 < D -> D < mu ->
  bethe D (RtoC mu) (semi_im D mu (RtoC 0)) /\ 2 / D < fst (semi_im D mu (RtoC 0)) /\ fst (semi_re D mu (RtoC 0)) <= 2 / D.
Proof.
  intros D mu HD Hm. split.
  - pose proof (semi_im_bethe D mu (RtoC 0) ltac:(lra)) as H. rewrite <- RtoC_plus, Rplus_0_l in H. exact H.
  - split.
    + rewrite semi_zero by assumption. cbn [RtoC fst]. pose proof (sqrt_pos (mu * mu - D * D)). replace (2 / D) with (2 / (D * D) * D) by (field; lra).
      apply Rmult_lt_compat_l; [apply Rdiv_lt_0_compat; nra|lra].
    + destruct (semi_re_outside_size D mu (RtoC 0) HD) as (_ & _ & H); [cbn [RtoC fst]; rewrite Rabs_pos_eq; lra|]. apply Rle_trans with (2 := H). apply Rle_abs.
Qed.
Print Assumptions C88_zero_frequency_refuted.

(** C88.  At every Matsubara frequency the function of the flat density of states is the integral of
    A(e) / (i omega - e). *)
Theorem C88_flat : forall D y, 0 < D -> y <> 0 ->
  is_RInt (fun e => fst (Cdiv (RtoC (flat_dos D e)) (Cminus (0, y) (RtoC e)))) (- D) D (fst (flat_im D (0, y))) /\
  is_RInt (fun e => snd (Cdiv (RtoC (flat_dos D e)) (Cminus (0, y) (RtoC e)))) (- D) D (snd (flat_im D (0, y))).
Proof. exact flat_im_int. Qed.
Print Assumptions C88_flat.

(** C88.  At real frequencies its spectral function is the density of states, and outside of the band it is the integral. *)
Theorem C88_flat_real : forall D x, 0 < D ->
  - snd (flat_re D (RtoC x)) / PI = flat_dos D x /\
  (D < Rabs x -> is_RInt (fun e => fst (Cdiv (RtoC (flat_dos D e)) (Cminus (RtoC x) (RtoC e)))) (- D) D (fst (flat_re D (RtoC x)))).
Proof. intros D x HD. split; [apply flat_re_dos; exact HD|]. intros Hx. apply (flat_re_int D x HD Hx). Qed.
Print Assumptions C88_flat_real.

(** In numbers, and a 2 x 2 function on real frequencies that meets the hypotheses. *)
Example C88_example :
  semi_re 2 0 (RtoC 0) = (0, -1) /\ semicircle 2 0 = 1 / PI /\ flat_dos 2 1 = 1 / 4 /\ flat_im 1 (0, 1) = (0, - (PI / 4)) /\
  exists d, semi_circular MeshReFreq 2 0 = Ok d /\
    on_mesh CS (fun _ => [RtoC 0; RtoC 1]) 0 (Some (2, 2)%nat) (mkGf CS 0 2 (Some (2, 2)%nat) (fun _ _ _ => RtoC 0)).
Proof.
  assert (S4 : sqrt (2 * 2 - 0 * 0) = 2) by (replace (2 * 2 - 0 * 0) with (2 * 2) by ring; apply sqrt_square; lra). pose proof PI_RGT_0.
  split; [|split; [|split; [|split]]].
  - rewrite semi_re_in by (unfold inside; cbn [RtoC fst]; lra). unfold root, Cminus, Cplus, Cmult, Copp, RtoC, Ci. cbn [fst snd]. rewrite Rplus_0_l, S4. apply pair_eq; field.
  - unfold semicircle. rewrite S4. destruct (Rlt_dec _ _) as [_|Hn]; [field; lra|]. exfalso. apply Hn. rewrite Rabs_R0. lra.
  - rewrite flat_dos_in by lra. lra.
  - rewrite flat_im_val by lra. replace (1 / 1) with 1 by lra. rewrite atan_1. apply pair_eq; lra.
  - eexists. split; [reflexivity|]. repeat split.
Qed.
