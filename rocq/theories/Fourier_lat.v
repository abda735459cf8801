(** Fourier transforms between a lattice and its Brillouin zone. *)
From Coq Require Import ZArith Reals List Bool Arith Lia Lra.
From Coquelicot Require Import Complex.
From Verif Require Import Base LinMesh Mesh Mesh_proofs Lattice Lattice_proofs ThermalSpec Csum Fourier FourierSpec Fourier_dft.
Import ListNotations.
Local Open Scope R_scope.

Lemma fits_ok l m : fits l m -> cyc_ok m.
Proof. intros (A & B & D & _). repeat split; lia. Qed.
Lemma rows_prod m : cyc_ok m -> cy_rows m = prodn (dims_of m).
Proof.
  intros (A & B & D). unfold cy_rows, cy_size, dims_of. cbn [prodn]. rewrite !Z2Nat.inj_mul by nia. lia.
Qed.
Lemma rows_pos m : cyc_ok m -> (0 < cy_rows m)%nat.
Proof. intros (A & B & D). unfold cy_rows, cy_size. nia. Qed.
Lemma size_INR m : cyc_ok m -> IZR (cy_size m) = INR (cy_rows m).
Proof. intros (A & B & D). unfold cy_rows. rewrite INR_IZR_INZ, Z2Nat.id; [reflexivity|]. unfold cy_size. nia. Qed.

Lemma turns_3 m i j : cyc_ok m -> cy_valid m i = true -> cy_valid m j = true ->
  turns (dims_of m) (Z.to_nat (cy_data m i)) (Z.to_nat (cy_data m j)) =
  match i, j with
  | [a; b; c], [a'; b'; c'] => IZR a * IZR a' / IZR (cy_d0 m) + (IZR b * IZR b' / IZR (cy_d1 m) + IZR c * IZR c' / IZR (cy_d2 m))
  | _, _ => 0
  end.
Proof.
  intros (A & B & D) Hi Hj. destruct i as [|a [|b [|c [|]]]]; try discriminate. destruct j as [|a' [|b' [|c' [|]]]]; try discriminate.
  apply cy_valid_iff in Hi. apply cy_valid_iff in Hj. destruct Hi as (Ha & Hb & Hc). destruct Hj as (Ha' & Hb' & Hc').
  unfold dims_of, cy_data, cy_stride0, cy_stride1. destruct m as [d0 d1 d2]. cbn [cy_d0 cy_d1 cy_d2] in *.
  assert (P : forall x y z, (0 <= x)%Z -> (0 <= y < d1)%Z -> (0 <= z < d2)%Z ->
    Z.to_nat (x * (d1 * d2) + y * d2 + z) = (Z.to_nat x * prodn [Z.to_nat d1; Z.to_nat d2] + (Z.to_nat y * prodn [Z.to_nat d2] + (Z.to_nat z * prodn [] + 0)))%nat).
  { intros x y z Hx Hy Hz. cbn [prodn]. rewrite !Z2Nat.inj_add, !Z2Nat.inj_mul by nia. lia. }
  rewrite !P by lia. assert (B2 : forall y z, (0 <= y < d1)%Z -> (0 <= z < d2)%Z -> (Z.to_nat y * prodn [Z.to_nat d2] + (Z.to_nat z * prodn [] + 0) < prodn [Z.to_nat d1; Z.to_nat d2])%nat).
  { intros y z Hy Hz. cbn [prodn]. nia. }
  assert (B3 : forall z, (0 <= z < d2)%Z -> (Z.to_nat z * prodn [] + 0 < prodn [Z.to_nat d2])%nat) by (intros z Hz; cbn [prodn]; nia).
  assert (Q : forall x n s t : nat, (t < s)%nat -> ((x * s + t) / s = x /\ (x * s + t) mod s = t)%nat).
  { intros x n s t H. rewrite Nat.add_comm, Nat.div_add, Nat.div_small, Nat.mod_add, Nat.mod_small by lia. lia. }
  assert (I : forall x, (0 <= x)%Z -> INR (Z.to_nat x) = IZR x) by (intros x Hx; rewrite INR_IZR_INZ, Z2Nat.id by lia; reflexivity).
  rewrite turns_cons by (apply B2; lia). destruct (Q (Z.to_nat a) 0%nat _ _ (B2 b c Hb Hc)) as [-> ->].
  rewrite turns_cons by (apply B3; lia). destruct (Q (Z.to_nat b) 0%nat _ _ (B3 c Hc)) as [-> ->].
  rewrite turns_cons by (cbn; lia). destruct (Q (Z.to_nat c) 0%nat (prodn []) 0%nat ltac:(cbn; lia)) as [-> ->]. cbn [turns]. rewrite !I by lia. unfold Rdiv. ring.
Qed.
(** k.R for mesh points is 2 pi times the sum of the products of their indices over the dimensions *)
Lemma phase_value d u l z m i j : la_make d u = Ok l -> bz_make l = Ok z -> fits l m -> cy_valid m i = true -> cy_valid m j = true ->
  dot (br_value (br_make z m) i) (cl_value l j) = 2 * PI * turns (dims_of m) (Z.to_nat (cy_data m i)) (Z.to_nat (cy_data m j)).
Proof.
  intros Hl Hz Hf Hi Hj. pose proof (fits_ok _ _ Hf) as Hm. rewrite (turns_3 m i j Hm Hi Hj).
  destruct i as [|a [|b [|c [|]]]]; try discriminate. destruct j as [|a' [|b' [|c' [|]]]]; try discriminate.
  apply cy_valid_iff in Hi. apply cy_valid_iff in Hj. destruct Hi as (Ha & Hb & Hc). destruct Hj as (Ha' & Hb' & Hc').
  unfold cl_value. rewrite (la_to_real_coord d u l _ Hl). destruct (la_make_inv d u l Hl) as [_ Ed]. destruct (bz_det l z Hz) as (_ & _ & El).
  assert (Hbr : brz_built (br_make z m)) by (exists d, u, l, z, m; auto).
  unfold br_value. rewrite (br_units_rows _ Hbr). cbn [br_make br_dims br_bz]. rewrite El, Ed.
  destruct Hf as (A & B & D & F1 & F2). rewrite Ed in F1, F2. unfold vec_of.
  set (v := V3 (IZR a) (IZR b) (IZR c)). set (v' := V3 (IZR a') (IZR b') (IZR c')).
  assert (K : keep d v = v /\ keep d v' = v').
  { destruct d as [|[|[|[|d]]]]; try discriminate; cbn [keep]; unfold v, v'; cbn [vx vy vz].
    - assert (cy_d1 m = 1%Z /\ cy_d2 m = 1%Z) by (split; [apply F1; lia|apply F2; lia]). replace b with 0%Z by lia. replace b' with 0%Z by lia. replace c with 0%Z by lia. replace c' with 0%Z by lia. split; reflexivity.
    - assert (cy_d2 m = 1%Z) by (apply F2; lia). replace c with 0%Z by lia. replace c' with 0%Z by lia. split; reflexivity.
    - split; reflexivity. }
  destruct K as [-> ->]. unfold v, v'. cbn [vx vy vz].
  pose proof (fun p q => thm_bz_dual l z p q Hz) as Dl.
  pose proof (Dl 0%nat 0%nat ltac:(lia) ltac:(lia)) as D00. pose proof (Dl 0%nat 1%nat ltac:(lia) ltac:(lia)) as D01. pose proof (Dl 0%nat 2%nat ltac:(lia) ltac:(lia)) as D02.
  pose proof (Dl 1%nat 0%nat ltac:(lia) ltac:(lia)) as D10. pose proof (Dl 1%nat 1%nat ltac:(lia) ltac:(lia)) as D11. pose proof (Dl 1%nat 2%nat ltac:(lia) ltac:(lia)) as D12.
  pose proof (Dl 2%nat 0%nat ltac:(lia) ltac:(lia)) as D20. pose proof (Dl 2%nat 1%nat ltac:(lia) ltac:(lia)) as D21. pose proof (Dl 2%nat 2%nat ltac:(lia) ltac:(lia)) as D22. clear Dl.
  cbn [Lattice_proofs.row Nat.eqb] in *.
  set (x0 := / IZR (cy_d0 m)). set (x1 := / IZR (cy_d1 m)). set (x2 := / IZR (cy_d2 m)). unfold Rdiv. fold x0 x1 x2.
  set (k0 := r0 (bz_K z)) in *. set (k1 := r1 (bz_K z)) in *. set (k2 := r2 (bz_K z)) in *.
  set (u0 := r0 (la_units l)) in *. set (u1 := r1 (la_units l)) in *. set (u2 := r2 (la_units l)) in *.
  transitivity (IZR a * x0 * (IZR a' * dot k0 u0 + IZR b' * dot k0 u1 + IZR c' * dot k0 u2) + IZR b * x1 * (IZR a' * dot k1 u0 + IZR b' * dot k1 u1 + IZR c' * dot k1 u2)
    + IZR c * x2 * (IZR a' * dot k2 u0 + IZR b' * dot k2 u1 + IZR c' * dot k2 u2)).
  - clearbody k0 k1 k2 u0 u1 u2 x0 x1 x2. clear. cbv [mvec transpose dot vadd vscal vx vy vz r0 r1 r2]. destruct k0, k1, k2, u0, u1, u2. ring.
  - rewrite D00, D01, D02, D10, D11, D12, D20, D21, D22. ring.
Qed.

Lemma base_ok sgn dims nin nout inp : prodn dims <> 0%nat -> (prodn dims <= nin)%nat -> (prodn dims <= nout)%nat ->
  fourier_base sgn dims nin nout inp = Ok (fun k c => if (k <? prodn dims)%nat then dft sgn dims (fun j => inp j c) k else RtoC 0).
Proof.
  intros H0 H1 H2. unfold fourier_base. destruct (Nat.eqb_spec (prodn dims) 0) as [E|_]; [congruence|].
  destruct (Nat.ltb_spec nin (prodn dims)) as [E|_]; [lia|]. destruct (Nat.ltb_spec nout (prodn dims)) as [E|_]; [lia|]. reflexivity.
Qed.
(** sum over the mesh points is sum over the rows *)
Lemma csum_points m (f : idx -> C) : csum (ms_points (cyc_mesh m)) f = csum (seq 0 (cy_rows m)) (fun d => f (cy_index m (Z.of_nat d))).
Proof. unfold ms_points. rewrite csum_map. reflexivity. Qed.
Lemma row_index m d : cyc_ok m -> (d < cy_rows m)%nat -> cy_valid m (cy_index m (Z.of_nat d)) = true /\ Z.to_nat (cy_data m (cy_index m (Z.of_nat d))) = d.
Proof.
  intros Hm Hd. destruct (cyc_mesh_ok m Hm) as (Hs & _ & H). cbn [cyc_mesh ms_size ms_valid ms_data ms_index] in *. destruct (H (Z.of_nat d)) as [A B].
  - unfold cy_rows in Hd. lia.
  - split; [exact A|]. rewrite B. lia.
Qed.
Lemma index_row m i : cyc_ok m -> cy_valid m i = true -> (Z.to_nat (cy_data m i) < cy_rows m)%nat.
Proof.
  intros Hm Hi. destruct (cyc_mesh_ok m Hm) as (Hs & H & _). cbn [cyc_mesh ms_size ms_valid ms_data ms_index] in *. destruct (H i Hi) as [A _]. unfold cy_rows. lia.
Qed.

Lemma thm_lattice sgn d u l z m g : la_make d u = Ok l -> bz_make l = Ok z -> fits l m ->
  exists g', lattice_impl sgn m m g = Ok g' /\
    (forall i c, cy_valid m i = true -> at_index m g' i c = csum (ms_points (cyc_mesh m)) (fun j => Cmult (expi (sgn * (2 * PI * turns (dims_of m) (Z.to_nat (cy_data m j)) (Z.to_nat (cy_data m i))))) (at_index m g j c))).
Proof.
  intros Hl Hz Hf. pose proof (fits_ok _ _ Hf) as Hm. pose proof (rows_prod m Hm) as Er. pose proof (rows_pos m Hm) as Hr.
  eexists. split; [unfold lattice_impl; apply base_ok; lia|]. intros i c Hi. unfold at_index. pose proof (index_row m i Hm Hi) as Hlt.
  destruct (Nat.ltb_spec (Z.to_nat (cy_data m i)) (prodn (dims_of m))) as [_|E]; [|lia]. unfold dft. rewrite csum_points, <- Er. apply csum_ext.
  intros j Hj. apply in_seq in Hj. destruct (row_index m j Hm ltac:(lia)) as [_ ->]. ring.
Qed.
Lemma thm_r_to_k d u l z m gr : la_make d u = Ok l -> bz_make l = Ok z -> fits l m ->
  exists gk, fourier_r_to_k m m gr = Ok gk /\
    forall k c, cy_valid m k = true ->
      at_index m gk k c = csum (ms_points (cyc_mesh m)) (fun r => Cmult (expi (dot (br_value (br_make z m) k) (cl_value l r))) (at_index m gr r c)).
Proof.
  intros Hl Hz Hf. destruct (thm_lattice FFTW_BACKWARD d u l z m gr Hl Hz Hf) as (gk & E & V). exists gk. split; [exact E|]. intros k c Hk. rewrite (V k c Hk).
  apply csum_ext. intros r Hr. f_equal. f_equal. apply in_map_iff in Hr. destruct Hr as (x & <- & Hx). apply in_seq in Hx. cbn [cyc_mesh ms_index ms_size] in *.
  pose proof (fits_ok _ _ Hf) as Hm. destruct (row_index m x Hm ltac:(unfold cy_rows; lia)) as [Hv _]. rewrite (phase_value d u l z m k _ Hl Hz Hf Hk Hv), turns_sym. unfold FFTW_BACKWARD. ring.
Qed.
Lemma thm_k_to_r d u l z m gk : la_make d u = Ok l -> bz_make l = Ok z -> fits l m ->
  exists gr, fourier_k_to_r m m gk = Ok gr /\
    forall r c, cy_valid m r = true ->
      at_index m gr r c = Cdiv (csum (ms_points (cyc_mesh m)) (fun k => Cmult (expi (- dot (br_value (br_make z m) k) (cl_value l r))) (at_index m gk k c))) (RtoC (IZR (cy_size m))).
Proof.
  intros Hl Hz Hf. destruct (thm_lattice FFTW_FORWARD d u l z m gk Hl Hz Hf) as (gr & E & V). unfold fourier_k_to_r. rewrite E. cbn [bind].
  eexists. split; [reflexivity|]. intros r c Hr. unfold at_index at 1. f_equal. fold (at_index m gr r c). rewrite (V r c Hr).
  apply csum_ext. intros k Hk. f_equal. f_equal. apply in_map_iff in Hk. destruct Hk as (x & <- & Hx). apply in_seq in Hx. cbn [cyc_mesh ms_index ms_size] in *.
  pose proof (fits_ok _ _ Hf) as Hm. destruct (row_index m x Hm ltac:(unfold cy_rows; lia)) as [Hv _]. rewrite (phase_value d u l z m _ r Hl Hz Hf Hv Hr). unfold FFTW_FORWARD. ring.
Qed.
(** both round trips *)
Lemma RtoC_nz x : x <> 0 -> RtoC x <> RtoC 0.
Proof. intros H E. apply (f_equal fst) in E. cbn in E. congruence. Qed.
Lemma thm_round_r m gr : cyc_ok m -> exists gk gr', fourier_r_to_k m m gr = Ok gk /\ fourier_k_to_r m m gk = Ok gr' /\ same_rows (cy_rows m) gr gr'.
Proof.
  intros Hm. pose proof (rows_prod m Hm) as Er. pose proof (rows_pos m Hm) as Hr. unfold fourier_r_to_k, fourier_k_to_r, lattice_impl.
  rewrite base_ok by lia. do 2 eexists. split; [reflexivity|]. rewrite base_ok by lia. cbn [bind]. split; [reflexivity|]. intros i c Hi. rewrite <- Er.
  destruct (Nat.ltb_spec i (cy_rows m)) as [_|]; [|lia].
  rewrite (dft_ext _ _ _ (dft FFTW_BACKWARD (dims_of m) (fun j => gr j c))) by (intros j Hj; rewrite <- Er in Hj; destruct (Nat.ltb_spec j (cy_rows m)); [reflexivity|lia]).
  replace FFTW_FORWARD with (- FFTW_BACKWARD) by (unfold FFTW_FORWARD, FFTW_BACKWARD; ring). rewrite dft_inverse by (unfold FFTW_BACKWARD; lia || (left; reflexivity)).
  rewrite <- Er, (size_INR m Hm). field. apply RtoC_nz, not_0_INR. lia.
Qed.
Lemma dft_scal sgn dims a f k : dft sgn dims (fun j => Cdiv (f j) a) k = Cdiv (dft sgn dims f k) a.
Proof. unfold dft, Cdiv. rewrite <- csum_r. apply csum_ext. intros j _. ring. Qed.
Lemma thm_round_k m gk : cyc_ok m -> exists gr gk', fourier_k_to_r m m gk = Ok gr /\ fourier_r_to_k m m gr = Ok gk' /\ same_rows (cy_rows m) gk gk'.
Proof.
  intros Hm. pose proof (rows_prod m Hm) as Er. pose proof (rows_pos m Hm) as Hr. unfold fourier_r_to_k, fourier_k_to_r, lattice_impl.
  rewrite base_ok by lia. cbn [bind]. do 2 eexists. split; [reflexivity|]. rewrite base_ok by lia. split; [reflexivity|]. intros i c Hi. rewrite <- Er.
  destruct (Nat.ltb_spec i (cy_rows m)) as [_|]; [|lia].
  rewrite (dft_ext _ _ _ (fun j => Cdiv (dft FFTW_FORWARD (dims_of m) (fun j => gk j c) j) (RtoC (IZR (cy_size m))))) by (intros j Hj; rewrite <- Er in Hj; destruct (Nat.ltb_spec j (cy_rows m)); [reflexivity|lia]).
  rewrite dft_scal. replace FFTW_BACKWARD with (- FFTW_FORWARD) by (unfold FFTW_FORWARD, FFTW_BACKWARD; ring). rewrite dft_inverse by (unfold FFTW_FORWARD; lia || (right; lra)).
  rewrite <- Er, (size_INR m Hm). field. apply RtoC_nz, not_0_INR. lia.
Qed.
(** the sizes of the meshes are not compared *)
Lemma thm_small_mesh rm km g : cyc_ok km -> (cy_size rm < cy_size km)%Z -> fourier_k_to_r rm km g = UB /\ fourier_r_to_k rm km g = UB.
Proof.
  intros Hm H. pose proof (rows_prod km Hm) as Er. unfold fourier_k_to_r, fourier_r_to_k, lattice_impl, fourier_base. rewrite <- Er.
  assert (L : (cy_rows rm <? cy_rows km)%nat = true) by (apply Nat.ltb_lt; unfold cy_rows; pose proof (rows_pos km Hm); unfold cy_rows in *; lia).
  rewrite L, !orb_true_r. split; reflexivity.
Qed.
