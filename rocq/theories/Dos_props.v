(** C86: densities of states, the density of free fermions and Hilbert transforms. *)
From Coq Require Import ZArith Reals List Bool Lia Lra.
From Coquelicot Require Import Complex.
From Verif Require Import Base Dos DosSpec Dos_proofs.
Import ListNotations.
Local Open Scope R_scope.

(** C86.  On a uniform grid, and for a chemical potential that is not below it, the density is the
    number of states below the chemical potential. *)
Theorem C86_density : forall d eps rho mu, 0 < d -> uniform d eps -> length rho = length eps -> (2 <= length eps)%nat -> nth 0 eps 0 <= mu ->
  density eps rho mu = Ok (filled eps rho mu).
Proof. exact density_filled. Qed.
Print Assumptions C86_density.

(** C86.  It grows with the chemical potential, from zero. *)
Theorem C86_monotone : forall d eps rho mu mu' n n', 0 < d -> uniform d eps -> length rho = length eps -> (2 <= length eps)%nat ->
  Forall (fun r => 0 <= r) rho -> nth 0 eps 0 <= mu <= mu' -> density eps rho mu = Ok n -> density eps rho mu' = Ok n' -> 0 <= n <= n'.
Proof.
  intros d eps rho mu mu' n n' Hd U L L2 Hr Hm H H'. rewrite (density_filled d) in H by (auto; lra). rewrite (density_filled d) in H' by (auto; lra).
  injection H as <-. injection H' as <-. split; [|apply filled_mono with d; auto; lra].
  destruct eps as [|e0 es]; [cbn in L2; lia|]. cbn [nth] in Hm. rewrite <- (uniform_above d Hd es e0 U e0 ltac:(lra) rho). apply filled_mono with d; auto; lra.
Qed.
Print Assumptions C86_monotone.

(** C86, not so below the grid, where there are no states: the last point and value are used instead.
    The result is negative for every positive density of states, and has no lower bound. *)
Theorem C86_below_grid_refuted : forall d e0 e1 es r0 rs mu, 0 < d -> uniform d (e0 :: e1 :: es) -> length rs = S (length es) -> Forall (fun r => 0 < r) (r0 :: rs) -> mu < e0 ->
  filled (e0 :: e1 :: es) (r0 :: rs) mu = 0 /\
  density (e0 :: e1 :: es) (r0 :: rs) mu = Ok ((- r0 / 2 - last rs 0 / 2) * (e1 - e0) + (mu - last (e1 :: es) 0) * (last rs 0 + r0) / 2) /\
  (- r0 / 2 - last rs 0 / 2) * (e1 - e0) + (mu - last (e1 :: es) 0) * (last rs 0 + r0) / 2 < 0.
Proof.
  intros d e0 e1 es r0 rs mu Hd U L Hp Hm. split; [apply (uniform_above d Hd (e1 :: es) e0 U mu); lra|]. split; [apply density_below; auto|].
  inversion_clear Hp as [|? ? P0 Ps]. assert (Hl : 0 < last rs 0).
  { destruct rs as [|r1 rs]; [discriminate L|]. clear L. revert r1 Ps. induction rs as [|r2 rs IH]; intros r1 Ps; [inversion_clear Ps; assumption|]. inversion_clear Ps. apply IH; assumption. }
  assert (He : e0 < last (e1 :: es) 0).
  { destruct U as [U1 U]. assert (G : forall es e, uniform d (e :: es) -> e <= last (e :: es) 0).
    { clear - Hd. induction es as [|e2 es IH]; intros e U; [cbn; lra|]. destruct U as [U1 U]. change (last (e :: e2 :: es) 0) with (last (e2 :: es) 0). specialize (IH e2 U). lra. }
    specialize (G es e1 U). lra. }
  assert (H1 : e1 - e0 = d) by (destruct U as [U1 _]; lra). rewrite H1.
  assert (0 < (r0 / 2 + last rs 0 / 2) * d) by (apply Rmult_lt_0_compat; lra).
  assert (0 < (last (e1 :: es) 0 - mu) * (last rs 0 + r0)) by (apply Rmult_lt_0_compat; lra). lra.
Qed.
Print Assumptions C86_below_grid_refuted.

(** C86, not so on a grid that is not uniform: the first step is used for all intervals. *)
Theorem C86_nonuniform_refuted : density [0; 1; 3] [1; 1; 1] 3 = Ok 2 /\ filled [0; 1; 3] [1; 1; 1] 3 = 3.
Proof.
  split.
  - unfold density, first_above. repeat (destruct (Rlt_dec _ _) as [F|_]; [exfalso; lra|]). cbn. change (Pos.to_nat 1) with 1%nat. change (Pos.to_nat 2) with 2%nat. cbn [nth_error bind]. f_equal. lra.
  - unfold filled, Rmin. repeat (destruct (Rle_dec _ _); try lra).
Qed.
Print Assumptions C86_nonuniform_refuted.

(** C86.  A density of states made from a function has such a grid. *)
Theorem C86_from_function : forall f x_min x_max N, x_min < x_max -> (2 <= N)%nat ->
  exists eps rho d, from_function f x_min x_max N = Ok (eps, rho) /\ 0 < d /\ uniform d eps /\ length eps = N /\ rho = map f eps /\
    nth 0 eps 0 = x_min /\ nth (N - 1) eps 0 = x_max.
Proof.
  intros f a b N Hab HN. unfold from_function. replace (N =? 1)%nat with false by (symmetry; apply Nat.eqb_neq; lia).
  assert (Hn : 0 < INR N - 1) by (apply le_INR in HN; cbn [INR] in HN; lra).
  eexists _, _, ((b - a) / (INR N - 1)). split; [reflexivity|]. split; [apply Rdiv_lt_0_compat; lra|]. split; [apply uniform_map|]. split; [rewrite map_length, seq_length; reflexivity|].
  split; [reflexivity|]. rewrite !nth_map_seq by lia. split; [cbn [INR]; lra|]. rewrite minus_INR by lia. cbn [INR]. field. lra.
Qed.
Print Assumptions C86_from_function.

(** C86.  The weights of the Hilbert transform: on a uniform grid they are the values of the density of
    states divided by their sum. *)
Theorem C86_weights : forall d eps rho, 0 < d -> uniform d eps -> (2 <= length eps)%nat -> length rho = length eps -> add rho <> 0 ->
  weights eps rho = Ok (map (fun r => r / add rho) rho) /\ add (map (fun r => r / add rho) rho) = 1.
Proof. intros d eps rho Hd U L2 L Hs. split; [apply (weights_uniform d); assumption|]. rewrite add_scale. field. exact Hs. Qed.
Print Assumptions C86_weights.
(** On any grid: the value times half the distance between the two neighbours, and at the two ends
    times the whole distance to the neighbour; then divided by the sum. *)
Theorem C86_weights_any_grid : forall eps rho w, weights eps rho = Ok w -> length rho = length eps ->
  length w = length eps /\ exists c, (forall i, (i < length eps)%nat -> nth i w 0 = c * (nth i rho 0 *
      (if (i =? 0)%nat then nth 1 eps 0 - nth 0 eps 0
       else if (i =? length eps - 1)%nat then nth (length eps - 1) eps 0 - nth (length eps - 2) eps 0
       else (nth (i + 1) eps 0 - nth (i - 1) eps 0) / 2))) /\ (c <> 0 -> add w = 1).
Proof.
  intros eps rho w H L. destruct (weights_general eps rho w H L) as (A1 & A2 & A3 & A4). split; [exact A1|]. set (S0 := add _) in *. exists (/ S0). split.
  - intros i Hi. rewrite A3 by exact Hi. unfold width. destruct (i =? 0)%nat eqn:E0; [unfold Rdiv; ring|]. destruct (i =? length eps - 1)%nat eqn:E1; [|unfold Rdiv; ring].
    apply Nat.eqb_eq in E1. subst i. replace (length eps - 1 - 1)%nat with (length eps - 2)%nat by lia. unfold Rdiv. ring.
  - intros Hc. apply A4. intros F. apply Hc. rewrite F. apply Rinv_0.
Qed.
Print Assumptions C86_weights_any_grid.
(** C86, not so: these are not the weights of the trapezoidal rule, which counts the two ends half. *)
Theorem C86_trapezoid_refuted : weights [0; 1; 2] [1; 1; 1] = Ok [1 / 3; 1 / 3; 1 / 3] /\
  filled [0; 1; 2] [1; 0; 0] 2 / filled [0; 1; 2] [1; 1; 1] 2 = 1 / 4 /\ filled [0; 1; 2] [0; 1; 0] 2 / filled [0; 1; 2] [1; 1; 1] 2 = 1 / 2.
Proof.
  split.
  - rewrite (weights_uniform 1) by (cbn; repeat split; try lia; lra). cbn. repeat f_equal; lra.
  - assert (E : forall a b c, filled [0; 1; 2] [a; b; c] 2 = (a + b) / 2 + (b + c) / 2).
    { intros a b c. unfold filled. rewrite (Rmin_right 2 1), (Rmin_right 2 0), (Rmin_left 2 2) by lra. lra. }
    rewrite !E. lra.
Qed.
Print Assumptions C86_trapezoid_refuted.

(** C86.  The Hilbert transform does not depend on the number of MPI ranks over which the sum is
    distributed: it is the sum over i of w_i / (z + mu + i eta - Sigma - eps_i). *)
Theorem C86_hilbert : forall size w eps z sigma mu eta, (1 <= size)%Z -> length w = length eps ->
  ht size w eps z sigma mu eta = hilbert w eps (Cminus (Cplus z (mu, eta)) sigma).
Proof. exact ht_sum. Qed.
Print Assumptions C86_hilbert.
(** C86.  In the upper half plane, for a Sigma with imaginary part below that of z + i eta, and a density of states that is nowhere negative,
    the transform is causal (its imaginary part is negative), and bounded. *)
Theorem C86_causal : forall d eps rho w size z sigma mu eta, 0 < d -> uniform d eps -> (2 <= length eps)%nat -> length rho = length eps ->
  Forall (fun r => 0 <= r) rho -> 0 < add rho -> weights eps rho = Ok w -> (1 <= size)%Z -> snd sigma < snd z + eta ->
  snd (ht size w eps z sigma mu eta) < 0 /\ Cmod (ht size w eps z sigma mu eta) <= 1 / (snd z + eta - snd sigma).
Proof.
  intros d eps rho w size z s mu eta Hd U L2 L Hr Hs Hw Hsz Hi. rewrite (weights_uniform d) in Hw by (auto; lra). injection Hw as <-.
  rewrite ht_sum by (auto; rewrite map_length; exact L). set (x := Cminus (Cplus z (mu, eta)) s).
  assert (Hx : snd x = snd z + eta - snd s) by (unfold x; destruct z, s; cbn; ring). assert (Hp : 0 < snd x) by lra.
  assert (H1 : add (map (fun r => r / add rho) rho) = 1) by (rewrite add_scale; field; lra).
  assert (Hw : Forall (fun r => 0 <= r) (map (fun r => r / add rho) rho)).
  { apply Forall_forall. intros y Hy. apply in_map_iff in Hy. destruct Hy as (r & <- & Hin). rewrite Forall_forall in Hr. apply div_nonneg; [apply Hr; exact Hin|exact Hs]. }
  split.
  - apply causal_strict; [exact Hp|rewrite map_length; exact L|exact Hw|lra].
  - rewrite <- Hx, <- H1. apply hilbert_bound; assumption.
Qed.
Print Assumptions C86_causal.

(** A grid of three points, the semicircle-like values 0, 1, 0: half filled at mu = 0; one point, no states. *)
Example C86_example : uniform 1 [-1; 0; 1] /\ density [-1; 0; 1] [0; 1; 0] 0 = Ok (1 / 2) /\ density [-1; 0; 1] [0; 1; 0] 1 = Ok 1 /\
  weights [-1; 0; 1] [1; 2; 1] = Ok [1 / 4; 1 / 2; 1 / 4] /\ weights [0] [1] = Throw /\ density [0] [1] 0 = Throw.
Proof.
  assert (U : uniform 1 [-1; 0; 1]) by (cbn; repeat split; lra). split; [exact U|].
  assert (E : forall mu, -1 <= mu -> density [-1; 0; 1] [0; 1; 0] mu = Ok ((Rmin mu 0 - Rmin mu (-1)) * ((0 + 1) / 2) + ((Rmin mu 1 - Rmin mu 0) * ((1 + 0) / 2) + 0))).
  { intros mu H. rewrite (density_filled 1 [-1; 0; 1] [0; 1; 0] mu ltac:(lra) U eq_refl ltac:(cbn; lia) H). reflexivity. }
  split; [rewrite E by lra; f_equal; unfold Rmin; repeat (destruct (Rle_dec _ _); try lra)|].
  split; [rewrite E by lra; f_equal; unfold Rmin; repeat (destruct (Rle_dec _ _); try lra)|].
  split; [|split; reflexivity]. rewrite (weights_uniform 1 [-1; 0; 1] [1; 2; 1] ltac:(lra) U ltac:(cbn; lia) eq_refl ltac:(cbn [add]; lra)).
  cbn [add map]. replace (1 + (2 + (1 + 0))) with 4 by lra. replace (2 / 4) with (1 / 2) by lra. reflexivity.
Qed.
