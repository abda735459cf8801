(** Property C91: the k grid of SumkDiscreteFromLattice. *)
From Coq Require Import ZArith Reals List Bool Arith Lia Lra.
From Coquelicot Require Import Complex.
From Verif Require Import Base Lattice TightBinding TightBinding_proofs TightBinding_props KGrid KGrid_proofs TightBindingSpec KGridSpec.
Import ListNotations.
Local Open Scope nat_scope.

(** C91, the grid: for every lattice of dimension one to three and every n_points N >= 1 the object is made.  Its points are exactly the
    points all of whose coordinates are among 1/N - 1/2, ... , 1/2, each once; there are N^dim of them, their weights are equal and sum to one,
    and hopping[n] is the Hamiltonian at point n. *)
Theorem C91_grid : forall rest ndim norb displ mats t N, tb_make ndim norb displ mats = Ok t -> displ <> [] -> 1 <= ndim <= 3 -> 1 <= N ->
  exists s, sumk_make rest t None N Riemann = Ok s /\
    NoDup (sk_points s) /\ (forall k, In k (sk_points s) <-> grid_point ndim N k) /\ length (sk_points s) = N ^ ndim /\
    sk_weights s = repeat (1 / INR (N ^ ndim))%R (N ^ ndim) /\ total (sk_weights s) = 1%R /\
    length (sk_hopping s) = N ^ ndim /\
    forall n k, nth_error (sk_points s) n = Some k -> exists h, nth_error (sk_hopping s) n = Some h /\ forall i j, h i j = h_k displ mats k i j.
Proof.
  intros rest ndim norb displ mats t N Ht NE D HN. pose proof (C49_holds _ _ _ _ _ Ht) as ->. set (t := mkTb ndim norb displ mats) in *.
  assert (IN : forall k, In k (prodl (pts1d N) ndim) <-> grid_point ndim N k).
  { intros k. rewrite prodl_in. unfold grid_point. rewrite !Forall_forall. split; intros [L F]; (split; [exact L|]); intros x Hx; apply pts_value, F, Hx. }
  assert (LP : length (prodl (pts1d N) ndim) = N ^ ndim) by (rewrite prodl_length, pts_length; reflexivity). assert (Z : N ^ ndim <> 0) by (apply Nat.pow_nonzero; lia).
  destruct (C49_array _ _ _ _ _ (prodl (pts1d N) ndim) Ht NE) as (hs & E & L & V).
  { intros X. rewrite X in LP. cbn in LP. lia. }
  { intros k Hk. apply IN in Hk. destruct Hk as [X _]. lia. }
  eexists. split; [apply (make_ok rest t N D HN); exists hs; split; [exact E|reflexivity]|]. cbn [sk_points sk_weights sk_hopping]. change (tb_dim t) with ndim.
  split; [apply prodl_nodup, pts_nodup|]. split; [exact IN|]. split; [exact LP|]. split; [reflexivity|]. split; [unfold default_weights; rewrite total_repeat; field; apply not_0_INR, Z|].
  split; [rewrite L; exact LP|]. intros n k Hk. destruct (V n k Hk) as (h & H1 & H2). exists h. split; [exact H1|].
  destruct (C49_fourier _ _ _ _ _ k Ht NE) as (h' & H3 & H4); [apply nth_error_In, IN in Hk; destruct Hk as [X _]; lia|]. rewrite H2 in H3. injection H3 as ->. exact H4.
Qed.
Print Assumptions C91_grid.

(** ... and nothing is made with n_points = 0, with the method Gauss, or for a lattice of more than three dimensions *)
Theorem C91_refuses : forall rest t n m, n = 0 \/ m = Gauss \/ 3 < tb_dim t -> sumk_make rest t None n m = Throw.
Proof.
  intros rest t n m H. unfold sumk_make, recompute_grid, compute_grid. destruct m; [|reflexivity]. destruct H as [->|[H|H]]; [reflexivity|discriminate H|].
  destruct (_ =? 0); [reflexivity|]. destruct (Nat.ltb_spec 3 (tb_dim t)); [reflexivity|lia].
Qed.
Print Assumptions C91_refuses.

(** C91, sums: with hoppings shorter than N in every direction, the weighted sum of the Hamiltonian over the grid is exactly the on-site
    matrix t(R = 0), or zero if there is none. *)
Theorem C91_local_level : forall rest ndim norb displ mats t N s, tb_make ndim norb displ mats = Ok t -> displ <> [] -> 1 <= ndim <= 3 -> 1 <= N ->
  NoDup displ -> Forall (short N) displ -> sumk_make rest t None N Riemann = Ok s -> forall i j,
  let mean := csum (fun p => RtoC (fst p) * snd p i j)%C (combine (sk_weights s) (sk_hopping s)) in
  (forall m, hopping displ mats (repeat 0%Z ndim) m -> mean = h_el m i j) /\ (~ In (repeat 0%Z ndim) displ -> mean = RtoC 0).
Proof.
  intros rest ndim norb displ mats t N s Ht NE D HN ND SH Hs i j. destruct (C91_grid rest _ _ _ _ _ N Ht NE D HN) as (s' & E & _ & _ & LP & EW & _ & LH & V). rewrite Hs in E. injection E as <-.
  assert (EP : sk_points s = prodl (pts1d N) ndim). { pose proof (C49_holds _ _ _ _ _ Ht) as ->. apply (make_ok rest (mkTb ndim norb displ mats) N D HN) in Hs. destruct Hs as (h & _ & ->). reflexivity. }
  assert (Z : N ^ ndim <> 0) by (apply Nat.pow_nonzero; lia). assert (ZC : RtoC (INR (N ^ ndim)) <> RtoC 0) by (intros X; apply (f_equal fst) in X; cbn in X; apply (not_0_INR _ Z); exact X).
  assert (LR : forall R, In R displ -> length R = ndim /\ short N R).
  { intros R HR. split; [|apply (proj1 (Forall_forall _ _) SH R HR)]. destruct (proj1 (C49_accepted ndim norb displ mats ND) (ex_intro _ t Ht)) as [L A]. apply In_nth_error in HR. destruct HR as [n Hn].
    destruct (nth_error mats n) as [m|] eqn:Em; [|apply nth_error_None in Em; assert (n < length displ) by (apply nth_error_Some; congruence); lia]. destruct (A R m (ex_intro _ n (conj Hn Em))) as [X _]. exact X. }
  intros mean. assert (M : mean = (RtoC (1 / INR (N ^ ndim)) * csum (fun x => if list_eq_dec Z.eq_dec (fst x) (repeat 0%Z ndim) then RtoC (INR (N ^ ndim)) * h_el (snd x) i j else RtoC 0)%C (combine displ mats))%C).
  { unfold mean. rewrite EW, (csum_weights (fun h : cmat => h i j) _ _ _ LH). f_equal. rewrite <- (mean_h displ mats ndim N i j HN LR), <- EP. apply csum_all; [congruence|]. intros n k Hk. destruct (V n k Hk) as (h & H1 & H2). exists h. split; [exact H1|apply H2]. }
  rewrite M. split.
  - intros m Hm. rewrite (pick displ mats _ m (fun m => RtoC (INR (N ^ ndim)) * h_el m i j)%C ND Hm), RtoC_div by (apply not_0_INR; exact Z). field. exact ZC.
  - intros NI. rewrite (csum_ext' _ (fun _ => RtoC 0)); [rewrite csum_zero; ring|]. intros [R m] HI. apply in_combine_l in HI. cbn [fst snd]. destruct (list_eq_dec Z.eq_dec R (repeat 0%Z ndim)) as [->|_]; [contradiction|reflexivity].
Qed.
Print Assumptions C91_local_level.

(** C91, symmetry: the coordinates are in ]-1/2, 1/2]; the opposite of a point is a point up to a reciprocal lattice vector *)
Theorem C91_inversion : forall ndim N k, grid_point ndim N k ->
  Forall (fun x => (- (1 / 2) < x <= 1 / 2)%R) k /\ exists k', grid_point ndim N k' /\ equivalent (map Ropp k) k'.
Proof.
  intros ndim N k [L F]. split; [eapply Forall_impl; [|exact F]; apply value_bounds|]. destruct (point_opp N k F) as (k' & L' & F' & E). exists k'. split; [split; [congruence|exact F']|exact E].
Qed.
Print Assumptions C91_inversion.
(** ... the point k = 0 is on the grid for even N only *)
Theorem C91_gamma : forall ndim N, 1 <= ndim -> 1 <= N -> (grid_point ndim N (repeat 0%R ndim) <-> Nat.Even N).
Proof.
  intros ndim N D HN. split.
  - intros [_ F]. destruct ndim as [|d]; [lia|]. cbn [repeat] in F. inversion F; subst. apply value_zero in H1. apply H1.
  - intros HE. split; [apply repeat_length|]. apply Forall_forall. intros x Hx. apply repeat_spec in Hx. subst x. apply value_zero. split; [lia|exact HE].
Qed.
Print Assumptions C91_gamma.

(** "i.e. -0.5 < k_i < 0.5" (sumk_discrete.py:84) is false: every grid has a point all of whose coordinates are 1/2 *)
Theorem C91_open_zone_refuted : forall ndim N, 1 <= N -> grid_point ndim N (repeat (1 / 2)%R ndim).
Proof.
  intros ndim N HN. split; [apply repeat_length|]. apply Forall_forall. intros x Hx. apply repeat_spec in Hx. subst x. exists (N - 1). split; [lia|]. replace (N - 1 + 1) with N by lia. assert (INR N <> 0)%R by (apply not_0_INR; lia). field. assumption.
Qed.
Print Assumptions C91_open_zone_refuted.

(** A copy (pickle) of the object has N^(dim dim) points instead of N^dim, so it is the same object only in one dimension or for N = 1 *)
Theorem C91_copy : forall rest ndim norb displ mats t N s, tb_make ndim norb displ mats = Ok t -> displ <> [] -> 1 <= ndim <= 3 -> 1 <= N -> sumk_make rest t None N Riemann = Ok s ->
  exists s', sumk_copy rest s = Ok s' /\ length (sk_points s') = N ^ (ndim * ndim) /\ (ndim = 1 \/ N = 1 -> s' = s).
Proof.
  intros rest ndim norb displ mats t N s Ht NE D HN Hs. pose proof (C49_holds _ _ _ _ _ Ht) as E0. assert (Z : N ^ ndim <> 0) by (apply Nat.pow_nonzero; lia).
  destruct (C91_grid rest _ _ _ _ _ (N ^ ndim) Ht NE D ltac:(lia)) as (s' & E & _ & _ & LP & _).
  assert (EC : sumk_copy rest s = sumk_make rest t None (N ^ ndim) Riemann).
  { subst t. apply (make_ok rest (mkTb ndim norb displ mats) N D HN) in Hs. destruct Hs as (h & _ & ->). unfold sumk_copy. cbn [sk_tb sk_patch sk_weights sk_method]. unfold default_weights. rewrite repeat_length. reflexivity. }
  exists s'. split; [rewrite EC; exact E|]. split; [rewrite LP, Nat.pow_mul_r; reflexivity|]. intros H. assert (EN : N ^ ndim = N) by (destruct H as [->| ->]; [apply Nat.pow_1_r|apply Nat.pow_1_l]). rewrite EN, Hs in E. congruence.
Qed.
Print Assumptions C91_copy.

Definition ex_tb : tb := mkTb 2 1 [[0; 0]; [1; 0]; [-1; 0]]%Z [mkHop 1 1 (fun _ _ => RtoC 3); mkHop 1 1 (fun _ _ => RtoC 1); mkHop 1 1 (fun _ _ => RtoC 1)].
Lemma ex_made : tb_make 2 1 (tb_displ ex_tb) (tb_mats ex_tb) = Ok ex_tb.
Proof.
  assert (ND : NoDup (tb_displ ex_tb)) by (cbn; repeat constructor; cbn; intuition discriminate).
  assert (Q : forall c : R, conjugate_hops 1 (mkHop 1 1 (fun _ _ => RtoC c)) (mkHop 1 1 (fun _ _ => RtoC c))).
  { intros c i j _ _. cbn [h_el]. replace (RtoC c - Cconj (RtoC c))%C with (RtoC 0); [rewrite Cmod_0; lra|]. apply injective_projections; cbn; ring. }
  destruct (proj2 (C49_accepted 2 1 (tb_displ ex_tb) (tb_mats ex_tb) ND)) as [t Ht]; [|rewrite Ht; f_equal; exact (C49_holds _ _ _ _ _ Ht)].
  split; [reflexivity|]. intros R m (n & H1 & H2). destruct n as [|[|[|n]]]; cbn in H1, H2; try (destruct n; discriminate H1); injection H1 as <-; injection H2 as <-; (split; [reflexivity|]); (split; [reflexivity|]); (split; [reflexivity|]).
  - eexists. split; [exists 0; split; reflexivity|apply Q].
  - eexists. split; [exists 2; split; reflexivity|apply Q].
  - eexists. split; [exists 1; split; reflexivity|apply Q].
Qed.
Theorem C91_copy_refuted : forall rest, exists t s s', sumk_make rest t None 2 Riemann = Ok s /\ sumk_copy rest s = Ok s' /\ length (sk_points s) = 4 /\ length (sk_points s') = 16.
Proof.
  intros rest.
  destruct (C91_grid rest _ _ _ _ _ 2 ex_made ltac:(discriminate) ltac:(lia) ltac:(lia)) as (s & E & _ & _ & L & _). destruct (C91_copy rest _ _ _ _ _ 2 s ex_made ltac:(discriminate) ltac:(lia) ltac:(lia) E) as (s' & E' & L' & _).
  exists ex_tb, s, s'. split; [exact E|]. split; [exact E'|]. split; [exact L|exact L'].
Qed.
Print Assumptions C91_copy_refuted.

(** "Q: computes t(k+Q) instead of t(k)" and the construction on a patch never succeed, whatever the rest of the construction on a patch does *)
Theorem C91_shift_refuted : forall rest t p n m q Q, recompute_grid rest t p n m (Some (q :: Q)) = Throw.
Proof. intros rest t p n m q Q. unfold recompute_grid, compute_grid. destruct p; [apply patch_throws|]. destruct m; [|reflexivity]. destruct (_ =? 0); [reflexivity|]. destruct (3 <? tb_dim t); reflexivity. Qed.
Print Assumptions C91_shift_refuted.
Theorem C91_patch_refuted : forall rest t corners n m Q, recompute_grid rest t (Some corners) n m Q = Throw.
Proof. intros. apply patch_throws. Qed.
Print Assumptions C91_patch_refuted.

(** The theorems are not empty: a chain of chains with an on-site term, on a grid of 3 x 3 points *)
Example C91_example : exists s, sumk_make (fun _ => Throw) ex_tb None 3 Riemann = Ok s /\ length (sk_points s) = 9 /\ Forall (short 3) (tb_displ ex_tb) /\
  csum (fun p => RtoC (fst p) * snd p 0 0)%C (combine (sk_weights s) (sk_hopping s)) = RtoC 3.
Proof.
  destruct (C91_grid (fun _ => Throw) _ _ _ _ _ 3 ex_made ltac:(discriminate) ltac:(lia) ltac:(lia)) as (s & E & _ & _ & L & _). exists s. split; [exact E|]. split; [exact L|].
  assert (SH : Forall (short 3) (tb_displ ex_tb)) by (repeat (constructor; [repeat (constructor; [cbn; lia|]); constructor|]); constructor). split; [exact SH|].
  assert (ND : NoDup (tb_displ ex_tb)) by (cbn; repeat constructor; cbn; intuition discriminate).
  destruct (C91_local_level (fun _ => Throw) _ _ _ _ _ 3 s ex_made ltac:(discriminate) ltac:(lia) ltac:(lia) ND SH E 0 0) as [H _]. rewrite (H (mkHop 1 1 (fun _ _ => RtoC 3))); [reflexivity|]. exists 0. split; reflexivity.
Qed.
