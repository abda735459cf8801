(** C77 : rebinning of an imaginary-time Green's function. *)
From Coq Require Import ZArith Reals List Bool Arith Lia Lra.
From Coquelicot Require Import Coquelicot.
From Verif Require Import Base Matsubara LinMesh ThermalSpec Csum Fourier FourierSpec Fourier_dft Rebin RebinSpec Rebin_proofs.
Import ListNotations.
Local Open Scope R_scope.

(** for all numbers of old and new points, the i-th new value is the mean of the old values whose closest new point is the i-th, and zero if
    there is none *)
Theorem C77_means beta s n n' g : 0 < beta -> (0 < n)%nat -> (0 < n')%nat ->
  exists r, rebinning_tau (tau_mesh beta s n) g (S n') = Ok (tau_mesh beta s n', r) /\
    forall i c ks, (i <= n')%nat -> bin beta n n' i ks -> r i c = mean ks (fun k => g k c).
Proof. exact (thm_rebin beta s n n' g). Qed.
Print Assumptions C77_means.
(** the bins exist, and every old point is in exactly one *)
Theorem C77_bins beta n n' : 0 < beta -> (0 < n)%nat -> (0 < n')%nat -> (forall i, exists ks, bin beta n n' i ks) /\
  forall k, (k <= n)%nat -> exists i, (i <= n')%nat /\ forall i', nearest (beta / INR n') (tau_pt beta n k) i' <-> i' = i.
Proof. intros H1 H2 H3. split; [intros i; exact (thm_bins beta n n' i H1 H2 H3)|intros k; exact (thm_partition beta n n' k H1 H2 H3)]. Qed.
Print Assumptions C77_bins.
(** the same number of points: nothing changes *)
Theorem C77_same_mesh beta s n g : 0 < beta -> (0 < n)%nat ->
  exists r, rebinning_tau (tau_mesh beta s n) g (S n) = Ok (tau_mesh beta s n, r) /\ forall i c, (i <= n)%nat -> r i c = g i c.
Proof. exact (thm_same beta s n g). Qed.
Print Assumptions C77_same_mesh.
(** with at most as many points no bin is empty: a constant stays the same constant *)
Theorem C77_constant beta s n n' g v : 0 < beta -> (0 < n' <= n)%nat -> (forall k c, (k <= n)%nat -> g k c = v c) ->
  exists r, rebinning_tau (tau_mesh beta s n) g (S n') = Ok (tau_mesh beta s n', r) /\ forall i c, (i <= n')%nat -> r i c = v c.
Proof. exact (thm_constant beta s n n' g v). Qed.
Print Assumptions C77_constant.
(** on a finer mesh it does not: the new points without an old one get zero *)
Theorem C77_constant_finer_refuted : ~ forall beta s n n' g v, 0 < beta -> (0 < n)%nat -> (0 < n')%nat -> (forall k c, (k <= n)%nat -> g k c = v c) ->
  exists r, rebinning_tau (tau_mesh beta s n) g (S n') = Ok (tau_mesh beta s n', r) /\ forall i c, (i <= n')%nat -> r i c = v c.
Proof.
  intros H. destruct (H 1 Fermion 1%nat 3%nat (fun _ _ => RtoC 1) (fun _ => RtoC 1) ltac:(lra) ltac:(lia) ltac:(lia) ltac:(reflexivity)) as (r & E & V).
  destruct (thm_rebin 1 Fermion 1 3 (fun _ _ => RtoC 1) ltac:(lra) ltac:(lia) ltac:(lia)) as (r' & E' & V'). rewrite E in E'. injection E' as <-. specialize (V 1%nat 0%nat ltac:(lia)). rewrite (V' 1%nat 0%nat [] ltac:(lia)) in V.
  - apply (f_equal fst) in V. cbn in V. lra.
  - split; [constructor|]. intros k. split; [intros []|]. intros [Hk Hx]. exfalso. unfold nearest, tau_pt in Hx. destruct k as [|[|k]]; [| |lia]; cbn in Hx; lra.
Qed.
Print Assumptions C77_constant_finer_refuted.
(** a new mesh of a single point has step zero: undefined *)
Theorem C77_one_point beta s n g : rebinning_tau (tau_mesh beta s n) g 1 = UB.
Proof. exact (thm_one_point beta s n g). Qed.
Print Assumptions C77_one_point.

(** five points to three: the means of {0}, {1,2}, {3,4} -- the middle ones are ties, which go up *)
Example C77_five_to_three : bin 4 4 2 0 [0%nat] /\ bin 4 4 2 1 [1%nat; 2%nat] /\ bin 4 4 2 2 [3%nat; 4%nat].
Proof.
  assert (B : forall i ks, NoDup ks -> (forall k, In k ks -> (k <= 4)%nat) -> (forall k, (k <= 4)%nat -> (In k ks <-> ix 4 2 k = Z.of_nat i)) -> bin 4 4 2 i ks).
  { intros i ks Nd Hl Hk. split; [exact Nd|]. intros k. rewrite (ix_nearest 4 4 2 k i) by (lra || lia). split; [intros H; split; [exact (Hl k H)|apply Hk; [exact (Hl k H)|exact H]]|intros [H1 H2]; apply Hk; assumption]. }
  assert (K : forall k, (k <= 4)%nat -> k = 0%nat \/ k = 1%nat \/ k = 2%nat \/ k = 3%nat \/ k = 4%nat) by lia.
  split; [|split]; apply B; try (repeat constructor; cbn; intuition lia); try (cbn; intuition lia); intros k Hk; destruct (K k Hk) as [->|[->|[->|[->| ->]]]]; vm_compute; intuition (discriminate || auto).
Qed.
