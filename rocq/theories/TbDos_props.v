(** C66: densities of states of tight-binding Hamiltonians. *)
From Coq Require Import ZArith Reals List Bool Lia Lra.
From Coquelicot Require Import Complex.
From Verif Require Import Base TightBinding TightBinding_proofs TbDos TbDosSpec TbDos_proofs.
Import ListNotations.
Local Open Scope R_scope.

(** the bands: at every momentum the eigenvalues and vectors of fourier(k), or its only element for one orbital *)
Theorem C66_bands : forall eig t ks bs, bands eig t ks = Ok bs -> length bs = length ks /\
  forall n k, nth_error ks n = Some k -> exists h b, fourier t k = Ok h /\ nth_error bs n = Some b /\
    (tb_norb t <> 1%nat -> b = eig h) /\ (tb_norb t = 1%nat -> fst b 0%nat = fst (h 0%nat 0%nat) /\ snd b 0%nat 0%nat = RtoC 1).
Proof.
  intros eig t ks bs H. destruct (bands_nth eig t ks bs H) as [HL HN]. split; [exact HL|]. intros n k Hk. destruct (HN n k Hk) as (h & b & E1 & E2 & ->). do 2 eexists. split; [exact E1|]. split; [exact E2|].
  destruct (Nat.eqb_spec (tb_norb t) 1); split; intros; try congruence; split; reflexivity.
Qed.
Print Assumptions C66_bands.

(** dos: lo and hi are the extreme energies, epsilon the centres of neps equal bins between them; rho(a, k) adds up the weights on
    orbital k of the states in bin a, divided by the number of momenta and the width of a bin; it is non-negative and integrates to the number
    of orbitals *)
Theorem C66_dos : forall eig t ks neps bs, bands eig t ks = Ok bs -> (0 < neps)%Z ->
  (exists b b' l l', In b bs /\ In b' bs /\ (l < tb_norb t)%nat /\ (l' < tb_norb t)%nat /\ fst b l < fst b' l') ->
  (forall b l, In b bs -> (l < tb_norb t)%nat -> rsum (fun k => Cmod (snd b k l) ^ 2) (seq 0 (tb_norb t)) = 1) ->
  exists eps rho lo hi bn, dos eig t ks neps = Ok (eps, rho) /\ lo < hi /\
    (forall b l, In b bs -> (l < tb_norb t)%nat -> lo <= fst b l <= hi /\ in_bin lo hi neps (bn (fst b l)) (fst b l)) /\
    (exists b l, In b bs /\ (l < tb_norb t)%nat /\ fst b l = lo) /\ (exists b l, In b bs /\ (l < tb_norb t)%nat /\ fst b l = hi) /\
    (forall i, eps i = lo + (IZR i + 1 / 2) * ((hi - lo) / IZR neps)) /\
    (forall a k, 0 <= rho a k /\
       rho a k * (INR (length ks) * ((hi - lo) / IZR neps)) =
       rsum (fun l => rsum (fun b => if Z.eqb a (bn (fst b l)) then Cmod (snd b k l) ^ 2 else 0) bs) (seq 0 (tb_norb t))) /\
    rsum (fun a => rsum (fun k => rho a k * ((hi - lo) / IZR neps)) (seq 0 (tb_norb t))) (upto neps) = INR (tb_norb t).
Proof.
  intros eig t ks neps bs Hb Hn (b1 & b2 & l1 & l2 & B1 & B2 & L1 & L2 & Hlt) HN. destruct (bands_nth eig t ks bs Hb) as [HL _].
  unfold dos. rewrite Hb. cbn [bind]. destruct (Z.leb_spec neps 0); [lia|].
  pose proof (in_states (tb_norb t) bs) as IS. destruct (states (tb_norb t) bs) as [|[e w] sts] eqn:Es; [exfalso; apply (proj2 (IS (fst b1 l1, fun k => sqmod (snd b1 k l1)))); exists l1, b1; auto|].
  set (lo := min_list e (map fst sts)). set (hi := max_list e (map fst sts)). cbv zeta.
  assert (ME : map fst (states (tb_norb t) bs) = e :: map fst sts) by (rewrite Es; reflexivity).
  assert (R : forall s, In s ((e, w) :: sts) -> lo <= fst s <= hi).
  { intros s Hs. assert (Hs' : In (fst s) (e :: map fst sts)) by (change (e :: map fst sts) with (map fst ((e, w) :: sts)); apply in_map, Hs).
    destruct (min_list_le e (map fst sts)) as [M1 M2], (max_list_ge e (map fst sts)) as [X1 X2]. destruct Hs' as [<-|Hs']; [split; assumption|split; [apply M2, Hs'|apply X2, Hs']]. }
  assert (RB : forall b l, In b bs -> (l < tb_norb t)%nat -> lo <= fst b l <= hi).
  { intros b l B L. apply (R (fst b l, fun k => sqmod (snd b k l))). apply IS. exists l, b. auto. }
  assert (Hd : lo < hi). { destruct (RB b1 l1 B1 L1), (RB b2 l2 B2 L2). lra. }
  destruct (fill_ok neps lo hi ((e, w) :: sts) (fun _ _ => 0) Hn Hd R) as (rho & E & V). rewrite E. cbn [bind].
  destruct (bins_exist lo hi neps Hn Hd) as [bn Hbn]. specialize (V bn (fun s Hs => Hbn _ (R s Hs))).
  assert (HK : 0 < INR (length ks)). { rewrite <- HL. apply lt_0_INR. destruct bs as [|x y]; [destruct B1|cbn; lia]. }
  assert (Hn' : 0 < IZR neps) by (apply IZR_lt; exact Hn). set (d := (hi - lo) / IZR neps) in *. assert (Hp : 0 < d) by (unfold d; apply Rdiv_lt_0_compat; lra).
  rewrite <- INR_IZR_INZ. eexists. eexists. exists lo, hi, bn. split; [reflexivity|]. split; [exact Hd|].
  split; [intros b l B L; split; [exact (RB b l B L)|apply Hbn, (RB b l B L)]|].
  assert (AT : forall x, In x (e :: map fst sts) -> exists b l, In b bs /\ (l < tb_norb t)%nat /\ fst b l = x).
  { intros x Hx. rewrite <- ME in Hx. apply in_map_iff in Hx. destruct Hx as (s & <- & Hs). rewrite Es in Hs. apply IS in Hs. destruct Hs as (l & b & Hl & Hb' & ->). exists b, l. auto. }
  split; [apply AT, min_list_in|]. split; [apply AT, max_list_in|]. split; [reflexivity|].
  assert (W : forall a k, rho a k = rsum (fun l => rsum (fun b => if Z.eqb a (bn (fst b l)) then Cmod (snd b k l) ^ 2 else 0) bs) (seq 0 (tb_norb t))).
  { intros a k. rewrite V, <- Es, rsum_states, Rplus_0_l. apply rsum_ext. intros l _. apply rsum_ext. intros b _. cbn [fst snd]. rewrite sqmod_Cmod. reflexivity. }
  split.
  - intros a k. split.
    + apply Rmult_le_pos; [|left; apply Rinv_0_lt_compat; nra]. rewrite W. apply rsum_nonneg. intros l _. apply rsum_nonneg. intros b _. destruct (Z.eqb _ _); [apply pow2_ge_0|lra].
    + cbv beta. rewrite <- W. fold d. clearbody d. field. split; lra.
  - transitivity (rsum (fun a => rsum (fun k => / INR (length ks) * rho a k) (seq 0 (tb_norb t))) (upto neps)).
    { apply rsum_ext. intros a _. apply rsum_ext. intros k _. cbv beta. fold d. clearbody d. field. split; lra. }
    rewrite rsum_swap. transitivity (rsum (fun k => / INR (length ks) * rsum (fun s => snd s k) (states (tb_norb t) bs)) (seq 0 (tb_norb t))).
    { apply rsum_ext. intros k _. rewrite rsum_scal. f_equal. rewrite <- (bins_total lo hi neps bn (states (tb_norb t) bs) k).
      - apply rsum_ext. intros a _. rewrite V, Es, Rplus_0_l. reflexivity.
      - intros s Hs. apply Hbn. rewrite Es in Hs. apply R, Hs. }
    rewrite rsum_scal, rsum_swap, rsum_states. cbn [snd].
    rewrite (rsum_ext _ (fun _ => INR (length bs))); [rewrite rsum_const, seq_length, HL; field; lra|].
    intros l Hl. apply in_seq in Hl. rewrite (rsum_ext _ (fun _ => 1)); [rewrite rsum_const; ring|]. intros b B. rewrite <- (HN b l B) by lia. apply rsum_ext. intros k _. apply sqmod_Cmod.
Qed.
Print Assumptions C66_dos.

(** when all energies are equal the bins have no width and the code divides by zero *)
Theorem C66_flat_band : forall eig t ks neps bs e, bands eig t ks = Ok bs -> bs <> [] -> (0 < tb_norb t)%nat -> (0 < neps)%Z ->
  (forall b l, In b bs -> (l < tb_norb t)%nat -> fst b l = e) -> dos eig t ks neps = UB.
Proof.
  intros eig t ks neps bs e Hb NE Ho Hn He. unfold dos. rewrite Hb. cbn [bind]. destruct (Z.leb_spec neps 0); [lia|].
  pose proof (in_states (tb_norb t) bs) as IS. destruct (states (tb_norb t) bs) as [|[e0 w] sts] eqn:Es; [reflexivity|].
  assert (ME : forall x, In x (e0 :: map fst sts) -> x = e).
  { intros x Hx. change (e0 :: map fst sts) with (map fst ((e0, w) :: sts)) in Hx. apply in_map_iff in Hx. destruct Hx as (s & <- & Hs). apply IS in Hs. destruct Hs as (l & b & Hl & Hb' & ->). apply He; assumption. }
  rewrite (ME _ (max_list_in e0 (map fst sts))), (ME _ (min_list_in e0 (map fst sts))). cbv zeta.
  replace ((e - e) / IZR neps) with 0 by (unfold Rdiv; ring). rewrite fill_flat. reflexivity.
Qed.
Print Assumptions C66_flat_band.

(** dos_patch: every triangle is sampled at ndiv^2 momenta, all inside it *)
Theorem C66_patch_points : forall ndiv a b c, length (patch_points ndiv a b c) = (ndiv * ndiv)%nat /\ forall p, In p (patch_points ndiv a b c) -> in_triangle a b c p.
Proof. intros ndiv a b c. split; [apply patch_count|intros p; apply patch_in]. Qed.
Print Assumptions C66_patch_points.

(** and the density integrates to the area of the patch *)
Theorem C66_dos_patch : forall energy tris neps ndiv, (2 <= neps)%Z -> (1 <= ndiv)%nat ->
  (exists t t' p p', In t tris /\ In t' tris /\ In p (let '(a, b, c) := t in patch_points ndiv a b c) /\ In p' (let '(a, b, c) := t' in patch_points ndiv a b c) /\ energy p < energy p') ->
  exists eps rho lo hi bn, dos_patch energy tris neps ndiv = Ok (eps, rho) /\ lo < hi /\ eps 0%Z = lo /\ eps (neps - 1)%Z = hi /\
    (forall t p, In t tris -> In p (let '(a, b, c) := t in patch_points ndiv a b c) -> lo <= energy p <= hi /\ in_bin lo hi neps (bn (energy p)) (energy p)) /\
    (forall a, 0 <= rho a /\ rho a * ((hi - lo) / IZR neps) =
       rsum (fun t => rsum (fun p => if Z.eqb a (bn (energy p)) then triangle_area t / (INR ndiv * INR ndiv) else 0) (let '(x, y, z) := t in patch_points ndiv x y z)) tris) /\
    rsum (fun a => rho a * ((hi - lo) / IZR neps)) (upto neps) = rsum triangle_area tris.
Proof.
  intros energy tris neps ndiv Hn Hv (t1 & t2 & p1 & p2 & T1 & T2 & P1 & P2 & Hlt). unfold dos_patch. destruct (Z.leb_spec neps 1); [lia|]. rewrite patch_states_count, Nat.eqb_refl. cbn [negb].
  set (sts := patch_states energy ndiv tris). set (lo := min_list _ _). set (hi := max_list _ _). cbv zeta.
  assert (R : forall s, In s sts -> lo <= fst s <= hi).
  { intros s Hs. split; [apply min_list_le|apply max_list_ge]; apply in_map, Hs. }
  assert (RP : forall t p, In t tris -> In p (let '(a, b, c) := t in patch_points ndiv a b c) -> lo <= energy p <= hi).
  { intros [[a b] c] p T P. apply (R (energy p, fun _ => patch_area ndiv a b c)). unfold sts, patch_states. apply in_flat_map. exists (a, b, c). split; [exact T|]. apply in_map_iff. exists p. auto. }
  assert (Hd : lo < hi). { destruct (RP _ _ T1 P1), (RP _ _ T2 P2). lra. }
  assert (Hn0 : (0 < neps)%Z) by lia. destruct (fill_ok neps lo hi sts (fun _ _ => 0) Hn0 Hd R) as (rho & E & V). rewrite E. cbn [bind].
  destruct (bins_exist lo hi neps Hn0 Hd) as [bn Hbn]. specialize (V bn (fun s Hs => Hbn _ (R s Hs))).
  assert (Hn' : 2 <= IZR neps) by (apply IZR_le; exact Hn). set (d := (hi - lo) / IZR neps) in *. assert (Hp : 0 < d) by (unfold d; apply Rdiv_lt_0_compat; lra).
  do 2 eexists. exists lo, hi, bn. split; [reflexivity|]. split; [exact Hd|]. split; [unfold Rdiv; ring|]. split; [rewrite minus_IZR; field; lra|].
  split; [intros t p T P; split; [exact (RP t p T P)|apply Hbn, (RP t p T P)]|]. split.
  - intros a. split; [|transitivity (rho a 0%nat); [cbv beta; fold d; clearbody d; field; lra|]; rewrite V, Rplus_0_l; unfold sts, patch_states; rewrite rsum_flat_map; apply rsum_ext; intros [[x y] z] _; rewrite rsum_map; apply rsum_ext; intros p _; cbn [fst snd]; rewrite area_share by exact Hv; reflexivity].
    apply Rmult_le_pos; [|left; apply Rinv_0_lt_compat; exact Hp]. rewrite V, Rplus_0_l. apply rsum_nonneg. intros s Hs. destruct (Z.eqb _ _); [|lra].
    unfold sts, patch_states in Hs. apply in_flat_map in Hs. destruct Hs as ([[a' b'] c'] & _ & Hs). apply in_map_iff in Hs. destruct Hs as (p & <- & _). cbn [snd]. unfold patch_area. apply Rabs_pos.
  - rewrite <- (patch_weight energy ndiv tris 0 Hv). fold sts. rewrite <- (bins_total lo hi neps bn sts 0 (fun s Hs => Hbn _ (R s Hs))). apply rsum_ext. intros a _. rewrite <- (Rplus_0_l (rsum _ sts)), <- V. cbv beta. fold d. clearbody d. field. lra.
Qed.
Print Assumptions C66_dos_patch.

(** two momenta of a chain with one orbital *)
Definition chain : tb := mkTb 1 1 [[1]; [-1]]%Z [mkHop 1 1 (fun _ _ => RtoC 1); mkHop 1 1 (fun _ _ => RtoC 1)].
Example C66_ex : exists bs, bands (fun _ => (fun _ => 0, fun _ _ => RtoC 0)) chain [[0]; [1 / 4]] = Ok bs /\
  (exists b b' l l', In b bs /\ In b' bs /\ (l < tb_norb chain)%nat /\ (l' < tb_norb chain)%nat /\ fst b l < fst b' l') /\
  (forall b l, In b bs -> (l < tb_norb chain)%nat -> rsum (fun k => Cmod (snd b k l) ^ 2) (seq 0 (tb_norb chain)) = 1).
Proof.
  eexists. split; [reflexivity|]. split.
  - do 2 eexists. exists 0%nat, 0%nat. split; [right; left; reflexivity|]. split; [left; reflexivity|]. split; [cbn; lia|]. split; [cbn; lia|].
    cbn [fst tb_dim chain tb_displ tb_mats combine fold_left]. unfold cm_add, tb_val, cexp. cbn [fst snd firstn kdot h_el].
    replace (2 * PI * (1 / 4 * 1 + 0)) with (PI / 2) by field. replace (2 * PI * (1 / 4 * -1 + 0)) with (- (PI / 2)) by field. replace (2 * PI * (0 * 1 + 0)) with 0 by ring. replace (2 * PI * (0 * -1 + 0)) with 0 by ring.
    rewrite cos_neg, sin_neg, cos_PI2, sin_PI2, cos_0, sin_0. unfold Cplus, Cmult, RtoC. cbn [fst snd]. change (tb_norb chain =? 1)%nat with true. cbn [fst]. lra.
  - intros b l Hb Hl. assert (l = 0%nat) by (cbn in Hl; lia). subst l. destruct Hb as [<-|[<-|[]]]; cbn [tb_norb chain seq rsum]; rewrite <- sqmod_Cmod; change (sqmod (RtoC 1) + 0 = 1); unfold sqmod, RtoC, Cconj, Cmult; cbn [fst snd]; ring.
Qed.
Definition tri1 : pt * pt * pt := ((0, 0), (1, 0), (0, 1)).
Example C66_patch_ex : exists t t' p p', In t [tri1] /\ In t' [tri1] /\ In p (let '(a, b, c) := t in patch_points 2 a b c) /\ In p' (let '(a, b, c) := t' in patch_points 2 a b c) /\ fst p < fst p'.
Proof.
  exists tri1, tri1. do 2 eexists. split; [left; reflexivity|]. split; [left; reflexivity|]. split; [left; reflexivity|]. split; [right; right; right; left; reflexivity|].
  unfold padd, pmul, psub. cbn [fst snd INR]. lra.
Qed.
