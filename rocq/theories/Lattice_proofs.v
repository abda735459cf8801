From Coq Require Import ZArith Reals List Bool Lia Lra.
From Verif Require Import Base Mesh Mesh_proofs LinMesh LinMesh_proofs Lattice.
Import ListNotations.
Local Open Scope R_scope.

Ltac vext := repeat match goal with |- V3 _ _ _ = V3 _ _ _ => f_equal | |- M3 _ _ _ = M3 _ _ _ => f_equal end.

Lemma vec_ext (u v : vec) : vx u = vx v -> vy u = vy v -> vz u = vz v -> u = v.
Proof. destruct u as [u1 u2 u3], v as [v1 v2 v3]; cbn [vx vy vz]; intros; subst; reflexivity. Qed.
Lemma mat_ext (m n : mat) : r0 m = r0 n -> r1 m = r1 n -> r2 m = r2 n -> m = n.
Proof. destruct m as [m1 m2 m3], n as [n1 n2 n3]; cbn [r0 r1 r2]; intros; subst; reflexivity. Qed.

Lemma adj_r m : mmul m (adjugate m) = mscal (det m) mone.
Proof. destruct m as [[a b c] [d e f] [g h i]]. cbv [mmul adjugate mone mvec transpose mscal vscal det dot cross vx vy vz r0 r1 r2]. vext; ring. Qed.
Lemma adj_l m : mmul (adjugate m) m = mscal (det m) mone.
Proof. destruct m as [[a b c] [d e f] [g h i]]. cbv [mmul adjugate mone mvec transpose mscal vscal det dot cross vx vy vz r0 r1 r2]. vext; ring. Qed.
Lemma mmul_scal_r c m n : mmul m (mscal c n) = mscal c (mmul m n).
Proof. destruct m as [[a b c0] [d e f] [g h i]], n as [[a' b' c'] [d' e' f'] [g' h' i']]. cbv [mmul mvec transpose mscal vscal dot vx vy vz r0 r1 r2]. vext; ring. Qed.
Lemma mmul_scal_l c m n : mmul (mscal c m) n = mscal c (mmul m n).
Proof. destruct m as [[a b c0] [d e f] [g h i]], n as [[a' b' c'] [d' e' f'] [g' h' i']]. cbv [mmul mvec transpose mscal vscal dot vx vy vz r0 r1 r2]. vext; ring. Qed.
Lemma mscal_mscal c c' m : mscal c (mscal c' m) = mscal (c * c') m.
Proof. destruct m as [[a b c0] [d e f] [g h i]]. cbv [mscal vscal vx vy vz r0 r1 r2]. vext; ring. Qed.
Lemma mscal_1 m : mscal 1 m = m.
Proof. destruct m as [[a b c0] [d e f] [g h i]]. cbv [mscal vscal vx vy vz r0 r1 r2]. vext; ring. Qed.
Lemma inv_r m : det m <> 0 -> mmul m (inverse m) = mone.
Proof. intros H. unfold inverse. rewrite mmul_scal_r, adj_r, mscal_mscal, Rinv_l by exact H. apply mscal_1. Qed.
Lemma inv_l m : det m <> 0 -> mmul (inverse m) m = mone.
Proof. intros H. unfold inverse. rewrite mmul_scal_l, adj_l, mscal_mscal, Rinv_l by exact H. apply mscal_1. Qed.
Lemma mvec_mmul m n v : mvec (mmul m n) v = mvec m (mvec n v).
Proof.
  destruct m as [[a b c] [d e f] [g h i]], n as [[a' b' c'] [d' e' f'] [g' h' i']], v as [v1 v2 v3]. cbv [mmul mvec transpose dot vx vy vz r0 r1 r2]. vext; ring.
Qed.
Lemma mvec_one v : mvec mone v = v.
Proof. destruct v as [v1 v2 v3]. cbv [mvec mone dot vx vy vz r0 r1 r2]. vext; ring. Qed.
Lemma transpose_mmul m n : transpose (mmul m n) = mmul (transpose n) (transpose m).
Proof.
  destruct m as [[a b c] [d e f] [g h i]], n as [[a' b' c'] [d' e' f'] [g' h' i']]. cbv [mmul mvec transpose dot vx vy vz r0 r1 r2]. vext; ring.
Qed.
Lemma transpose_one : transpose mone = mone. Proof. reflexivity. Qed.
Lemma mvec_inv_l m v : det m <> 0 -> mvec (transpose (inverse m)) (mvec (transpose m) v) = v.
Proof. intros H. rewrite <- mvec_mmul, <- transpose_mmul, inv_r, transpose_one by exact H. apply mvec_one. Qed.
Lemma mvec_inv_r m v : det m <> 0 -> mvec (transpose m) (mvec (transpose (inverse m)) v) = v.
Proof. intros H. rewrite <- mvec_mmul, <- transpose_mmul, inv_l, transpose_one by exact H. apply mvec_one. Qed.
Lemma mvec_add m u v : mvec m (vadd u v) = vadd (mvec m u) (mvec m v).
Proof. destruct m as [[a b c] [d e f] [g h i]], u as [u1 u2 u3], v as [v1 v2 v3]. cbv [mvec vadd dot vx vy vz r0 r1 r2]. vext; ring. Qed.
Lemma mvec_sub m u v : mvec m (vsub u v) = vsub (mvec m u) (mvec m v).
Proof. destruct m as [[a b c] [d e f] [g h i]], u as [u1 u2 u3], v as [v1 v2 v3]. cbv [mvec vsub dot vx vy vz r0 r1 r2]. vext; ring. Qed.
Lemma det_transpose m : det (transpose m) = det m.
Proof. destruct m as [[a b c] [d e f] [g h i]]. cbv [det transpose dot cross vx vy vz r0 r1 r2]. ring. Qed.
Lemma det_mul m n : det (mmul m n) = det m * det n.
Proof. destruct m as [[a b c] [d e f] [g h i]], n as [[a' b' c'] [d' e' f'] [g' h' i']]. cbv [det mmul mvec transpose dot cross vx vy vz r0 r1 r2]. ring. Qed.
Lemma det_scal c m : det (mscal c m) = c * c * c * det m.
Proof. destruct m as [[a b c0] [d e f] [g h i]]. cbv [det mscal vscal dot cross vx vy vz r0 r1 r2]. ring. Qed.
Lemma det_one : det mone = 1. Proof. cbv [det mone dot cross vx vy vz r0 r1 r2]. ring. Qed.
Lemma det_inv m : det m <> 0 -> det (inverse m) <> 0.
Proof. intros H E. pose proof (inv_r m H) as H1. apply (f_equal det) in H1. rewrite det_mul, det_one, E in H1. lra. Qed.

Lemma dot_nonneg u : 0 <= dot u u.
Proof. unfold dot. nra. Qed.
Lemma norm_sq u : norm u * norm u = dot u u.
Proof. unfold norm. apply sqrt_sqrt, dot_nonneg. Qed.
Lemma norm_nonneg u : 0 <= norm u. Proof. apply sqrt_pos. Qed.

(** ---- bravais lattice ---- *)
Lemma la_make_inv d u l : la_make d u = Ok l -> la_inv l = inverse (la_units l) /\ la_dim l = d.
Proof.
  unfold la_make. destruct d as [|[|[|[|d]]]]; try discriminate; cbv zeta.
  - match goal with |- (if ?c then _ else _) = _ -> _ => destruct c; [discriminate|] end. intros E. injection E as <-. split; reflexivity.
  - match goal with |- (if ?c then _ else _) = _ -> _ => destruct c; [discriminate|] end. intros E. injection E as <-. split; reflexivity.
  - match goal with |- (if ?c then _ else _) = _ -> _ => destruct c; [discriminate|] end. intros E. injection E as <-. split; reflexivity.
Qed.

(** shape of the completed basis: the plane (or line) and its orthogonal complement *)
Lemma la_make_1 u l : la_make 1 u = Ok l -> vx (r0 u) <> 0 /\
  exists s, (s = 1 \/ s = -1) /\ la_units l = M3 (V3 (vx (r0 u)) 0 0) (V3 0 1 0) (V3 0 0 s).
Proof.
  unfold la_make. cbv zeta. destruct u as [[a b c] r1' r2']. cbn [r0 vx].
  assert (E0 : vsub (V3 0 1 0) (vscal (dot (V3 0 1 0) (V3 a 0 0)) (V3 a 0 0)) = V3 0 1 0).
  { cbv [vsub vscal dot vx vy vz]. vext; ring. }
  rewrite E0. assert (E1 : norm (V3 0 1 0) = 1).
  { cbv [norm dot vx vy vz]. replace (0 * 0 + 1 * 1 + 0 * 0) with 1 by ring. apply sqrt_1. }
  rewrite E1. destruct (Rlt_dec 1 almost_zero) as [H|_]; [unfold almost_zero in H; lra|]. rewrite E1.
  assert (E2 : vscal (/ 1) (V3 0 1 0) = V3 0 1 0) by (cbv [vscal vx vy vz]; vext; field).
  rewrite E2. assert (E3 : cross (V3 0 1 0) (V3 a 0 0) = V3 0 0 (- a)) by (cbv [cross vx vy vz]; vext; ring).
  rewrite E3. destruct (Req_EM_T (norm (V3 0 0 (- a))) 0) as [H|H]; [discriminate|].
  assert (EN : norm (V3 0 0 (- a)) = Rabs a).
  { cbv [norm dot vx vy vz]. replace (0 * 0 + 0 * 0 + - a * - a) with (a²) by (unfold Rsqr; ring). apply sqrt_Rsqr_abs. }
  rewrite EN in H |- *. intros E. injection E as <-. assert (Ha : a <> 0) by (intros ->; apply H; apply Rabs_R0). split; [exact Ha|].
  exists (/ Rabs a * - a). split.
  - unfold Rabs. destruct (Rcase_abs a); [left|right]; field; exact Ha.
  - cbn [la_units]. cbv [vscal vx vy vz]. vext; ring.
Qed.
Lemma la_make_2 u l : la_make 2 u = Ok l ->
  let D := vx (r0 u) * vy (r1 u) - vy (r0 u) * vx (r1 u) in
  D <> 0 /\ exists s, (s = 1 \/ s = -1) /\ s * D = Rabs D /\ la_units l = M3 (V3 (vx (r0 u)) (vy (r0 u)) 0) (V3 (vx (r1 u)) (vy (r1 u)) 0) (V3 0 0 s).
Proof.
  unfold la_make. cbv zeta. destruct u as [[a b c] [d e f] r2']. cbn [r0 r1 vx vy].
  set (D := a * e - b * d).
  assert (E3 : cross (V3 a b 0) (V3 d e 0) = V3 0 0 D) by (unfold cross, D; cbn [vx vy vz]; vext; ring).
  rewrite E3. assert (EN : norm (V3 0 0 D) = Rabs D).
  { cbv [norm dot vx vy vz]. replace (0 * 0 + 0 * 0 + D * D) with (D²) by (unfold Rsqr; ring). apply sqrt_Rsqr_abs. }
  rewrite EN, Rabs_Rabsolu. destruct (Rlt_dec (Rabs D) almost_zero) as [H|H]; [discriminate|]. intros E. injection E as <-.
  assert (HD : D <> 0) by (intros E; rewrite E, Rabs_R0 in H; unfold almost_zero in H; lra). split; [exact HD|].
  exists (/ Rabs D * D). split; [|split].
  - unfold Rabs. destruct (Rcase_abs D); [right|left]; field; exact HD.
  - unfold Rabs. destruct (Rcase_abs D); field; exact HD.
  - cbn [la_units]. cbv [vscal vx vy vz]. vext; ring.
Qed.
Lemma la_make_3 u l : la_make 3 u = Ok l -> la_units l = u /\ det u <> 0.
Proof.
  unfold la_make. match goal with |- (if ?c then _ else _) = _ -> _ => destruct c as [H|H]; [discriminate|] end. intros E. injection E as <-. split; [reflexivity|].
  fold (det u) in H. intros E. rewrite E, Rabs_R0 in H. unfold almost_zero in H. lra.
Qed.
Lemma la_det d u l : la_make d u = Ok l -> det (la_units l) <> 0.
Proof.
  destruct u as [[ua ub uc] [ud ue uf] [ug uh ui]]. intros H. destruct d as [|[|[|[|d]]]]; try discriminate.
  - apply la_make_1 in H. destruct H as (Ha & s & Hs & ->). cbv [det dot cross vx vy vz r0 r1 r2] in *. intros E; apply Ha; destruct Hs as [-> | ->]; lra.
  - apply la_make_2 in H. destruct H as (HD & s & Hs & _ & ->). cbv [det dot cross vx vy vz r0 r1 r2] in *. intros E; apply HD; destruct Hs as [-> | ->]; lra.
  - apply la_make_3 in H. destruct H as [-> H]. exact H.
Qed.
(** block structure: the first d coordinates do not mix with the others *)
Definition planar (d : nat) (m : mat) : Prop :=
  match d with
  | 0%nat => False
  | 1%nat => vy (r0 m) = 0 /\ vz (r0 m) = 0 /\ vx (r1 m) = 0 /\ vx (r2 m) = 0
  | 2%nat => vz (r0 m) = 0 /\ vz (r1 m) = 0 /\ vx (r2 m) = 0 /\ vy (r2 m) = 0
  | _ => True
  end.
Lemma planar_t d m : planar d m -> planar d (transpose m).
Proof. destruct m as [[a b c] [e f g] [h i j]], d as [|[|[|d]]]; cbv [planar transpose vx vy vz r0 r1 r2]; tauto. Qed.
Lemma planar_scal d c m : planar d m -> planar d (mscal c m).
Proof.
  destruct m as [[a b c0] [e f g] [h i j]], d as [|[|[|d]]]; cbv [planar mscal vscal vx vy vz r0 r1 r2]; try tauto; intros (-> & -> & -> & ->); repeat split; ring.
Qed.
Lemma planar_inv d m : planar d m -> planar d (inverse m).
Proof.
  intros H. unfold inverse. apply planar_scal. unfold adjugate.
  destruct m as [[a b c] [e f g] [h i j]], d as [|[|[|d]]]; unfold planar, transpose, cross in *; cbn [vx vy vz r0 r1 r2] in *; try tauto; destruct H as (-> & -> & -> & ->); repeat split; ring.
Qed.
Lemma planar_keep d m v : planar d m -> keep d (mvec m (keep d v)) = mvec m (keep d v).
Proof.
  destruct m as [[a b c] [e f g] [h i j]], v as [v1 v2 v3], d as [|[|[|d]]]; cbv [planar mvec dot vx vy vz r0 r1 r2 keep]; try tauto; intros (-> & -> & -> & ->); vext; ring.
Qed.
Lemma la_planar d u l : la_make d u = Ok l -> planar d (la_units l).
Proof.
  intros H. destruct d as [|[|[|[|d]]]]; try discriminate.
  - apply la_make_1 in H. destruct H as (_ & s & _ & ->). cbn. tauto.
  - apply la_make_2 in H. destruct H as (_ & s & _ & _ & ->). cbn. tauto.
  - exact I.
Qed.
Lemma keep_units d u l v : la_make d u = Ok l -> keep d (mvec (transpose (la_units l)) (keep d v)) = mvec (transpose (la_units l)) (keep d v).
Proof. intros H. apply planar_keep, planar_t, (la_planar d u l H). Qed.
Lemma keep_inv d u l v : la_make d u = Ok l -> keep d (mvec (transpose (inverse (la_units l))) (keep d v)) = mvec (transpose (inverse (la_units l))) (keep d v).
Proof. intros H. apply planar_keep, planar_t, planar_inv, (la_planar d u l H). Qed.
Lemma keep_keep d v : keep d (keep d v) = keep d v.
Proof. destruct d as [|[|[|d]]]; reflexivity. Qed.
Lemma thm_la_round d u l x : la_make d u = Ok l ->
  la_to_lattice l (la_to_real l x) = keep d x /\ la_to_real l (la_to_lattice l x) = keep d x.
Proof.
  intros H. destruct (la_make_inv d u l H) as [Ei Ed]. pose proof (la_det d u l H) as HD. unfold la_to_lattice, la_to_real. rewrite Ei, Ed. split.
  - rewrite (keep_units d u l x H). apply mvec_inv_l. exact HD.
  - rewrite (keep_inv d u l x H). apply mvec_inv_r. exact HD.
Qed.
Lemma la_to_real_coord d u l x : la_make d u = Ok l -> la_to_real l x = 
  vadd (vscal (vx (keep d x)) (r0 (la_units l))) (vadd (vscal (vy (keep d x)) (r1 (la_units l))) (vscal (vz (keep d x)) (r2 (la_units l)))).
Proof.
  intros H. destruct (la_make_inv d u l H) as [_ Ed]. unfold la_to_real. rewrite Ed. destruct (la_units l) as [[a b c] [e f g] [h i j]], (keep d x) as [v1 v2 v3].
  cbv [mvec transpose dot vadd vscal vx vy vz r0 r1 r2]. vext; ring.
Qed.

(** reciprocal vectors *)
Definition row (m : mat) (i : nat) : vec := match i with 0%nat => r0 m | 1%nat => r1 m | _ => r2 m end.
Lemma thm_bz_dual l z i j : bz_make l = Ok z -> (i < 3)%nat -> (j < 3)%nat ->
  dot (row (bz_K z) i) (row (la_units l) j) = if Nat.eqb i j then 2 * PI else 0.
Proof.
  unfold bz_make. destruct (Rlt_dec _ _) as [H|H]; [discriminate|]. intros E Hi Hj. injection E as <-. cbn [bz_K].
  assert (HD : det (la_units l) <> 0) by (intros E; rewrite E, Rabs_R0 in H; unfold almost_zero in H; lra).
  assert (HT : det (transpose (la_units l)) <> 0) by (rewrite det_transpose; exact HD).
  pose proof (inv_l _ HT) as E. set (W := inverse (transpose (la_units l))) in *. clearbody W.
  assert (E' : forall i j, (i < 3)%nat -> (j < 3)%nat -> dot (row W i) (row (la_units l) j) = if Nat.eqb i j then 1 else 0).
  { clear - E. intros i j Hi Hj. destruct (la_units l) as [[a b c] [d e f] [g h k]], W as [[a' b' c'] [d' e' f'] [g' h' k']]. unfold mone in E. cbv [mmul mvec transpose dot vx vy vz r0 r1 r2] in E.
    injection E as E1 E2 E3 E4 E5 E6 E7 E8 E9. destruct i as [|[|[|i]]]; try lia; destruct j as [|[|[|j]]]; try lia; cbv [row Nat.eqb dot vx vy vz r0 r1 r2]; lra. }
  replace (dot (row (mscal (2 * PI) W) i) (row (la_units l) j)) with (2 * PI * dot (row W i) (row (la_units l) j)).
  - rewrite E' by assumption. destruct (Nat.eqb i j); ring.
  - destruct W as [[a' b' c'] [d' e' f'] [g' h' k']]. destruct i as [|[|i]]; cbv [row mscal vscal dot vx vy vz r0 r1 r2]; ring.
Qed.
Lemma bz_det l z : bz_make l = Ok z -> det (bz_K z) <> 0 /\ bz_Kinv z = inverse (bz_K z) /\ bz_lat z = l.
Proof.
  unfold bz_make. destruct (Rlt_dec _ _) as [H|H]; [discriminate|]. intros E. injection E as <-. cbn [bz_K bz_Kinv bz_lat].
  assert (HD : det (la_units l) <> 0) by (intros E; rewrite E, Rabs_R0 in H; unfold almost_zero in H; lra).
  split; [|split; reflexivity]. rewrite det_scal. pose proof PI_RGT_0. pose proof (det_inv (transpose (la_units l)) ltac:(rewrite det_transpose; exact HD)) as Hi.
  assert (H2 : 2 * PI <> 0) by lra. set (q := 2 * PI) in *. clearbody q. apply Rmult_integral_contrapositive_currified; [|exact Hi]. repeat apply Rmult_integral_contrapositive_currified; exact H2.
Qed.
Lemma bz_planar d u l z : la_make d u = Ok l -> bz_make l = Ok z -> planar d (bz_K z).
Proof.
  intros H Hz. unfold bz_make in Hz. destruct (Rlt_dec _ _) as [|_] in Hz; [discriminate|]. injection Hz as <-. cbn [bz_K].
  apply planar_scal, planar_inv, planar_t, (la_planar d u l H).
Qed.
Lemma bz_keep d u l z v : la_make d u = Ok l -> bz_make l = Ok z ->
  keep d (mvec (transpose (bz_K z)) (keep d v)) = mvec (transpose (bz_K z)) (keep d v) /\
  keep d (mvec (transpose (inverse (bz_K z))) (keep d v)) = mvec (transpose (inverse (bz_K z))) (keep d v).
Proof.
  intros H Hz. pose proof (bz_planar d u l z H Hz) as HP. split; apply planar_keep, planar_t; [exact HP|apply planar_inv, HP].
Qed.
Lemma thm_bz_round d u l z k : la_make d u = Ok l -> bz_make l = Ok z ->
  bz_to_lattice z (bz_to_real z k) = keep d k /\ bz_to_real z (bz_to_lattice z k) = keep d k.
Proof.
  intros H Hz. destruct (bz_det l z Hz) as (HD & Ei & El). destruct (la_make_inv d u l H) as [_ Ed]. destruct (bz_keep d u l z k H Hz) as [K1 K2].
  unfold bz_to_lattice, bz_to_real. rewrite Ei, El, Ed. split.
  - rewrite K1. apply mvec_inv_l, HD.
  - rewrite K2. apply mvec_inv_r, HD.
Qed.
(** degenerate units: rejected in 2 and 3 dimensions, silently NaN in one *)
Lemma cex_la_zero : la_make 1 (M3 (V3 0 0 0) (V3 0 0 0) (V3 0 0 0)) = UB.
Proof.
  unfold la_make. cbv zeta. cbn [r0 vx].
  assert (E0 : vsub (V3 0 1 0) (vscal (dot (V3 0 1 0) (V3 0 0 0)) (V3 0 0 0)) = V3 0 1 0) by (cbv [vsub vscal dot vx vy vz]; vext; ring).
  rewrite E0. assert (E1 : norm (V3 0 1 0) = 1).
  { cbv [norm dot vx vy vz]. replace (0 * 0 + 1 * 1 + 0 * 0) with 1 by ring. apply sqrt_1. }
  rewrite E1. destruct (Rlt_dec 1 almost_zero) as [H|_]; [unfold almost_zero in H; lra|]. rewrite E1.
  assert (E3 : cross (vscal (/ 1) (V3 0 1 0)) (V3 0 0 0) = V3 0 0 0) by (cbv [cross vscal vx vy vz]; vext; ring).
  rewrite E3. destruct (Req_EM_T (norm (V3 0 0 0)) 0) as [_|H]; [reflexivity|]. exfalso. apply H. cbv [norm dot vx vy vz].
  replace (0 * 0 + 0 * 0 + 0 * 0) with 0 by ring. apply sqrt_0.
Qed.

(** ---- brzone ---- *)
Definition brz_built (m : brz) : Prop :=
  exists d u l z dm, la_make d u = Ok l /\ bz_make l = Ok z /\ cyc_ok dm /\ m = br_make z dm.

Lemma br_units_rows m : brz_built m ->
  br_units m = M3 (vscal (/ IZR (cy_d0 (br_dims m))) (r0 (bz_K (br_bz m)))) (vscal (/ IZR (cy_d1 (br_dims m))) (r1 (bz_K (br_bz m)))) (vscal (/ IZR (cy_d2 (br_dims m))) (r2 (bz_K (br_bz m)))).
Proof.
  intros (d & u & l & z & dm & Hl & Hz & (H0 & H1 & H2) & ->). unfold br_make. cbn [br_units br_dims br_bz].
  assert (IZR (cy_d0 dm) <> 0) by (apply not_0_IZR; lia). assert (IZR (cy_d1 dm) <> 0) by (apply not_0_IZR; lia). assert (IZR (cy_d2 dm) <> 0) by (apply not_0_IZR; lia).
  assert (Ei : inverse (mdiag (IZR (cy_d0 dm)) (IZR (cy_d1 dm)) (IZR (cy_d2 dm))) = mdiag (/ IZR (cy_d0 dm)) (/ IZR (cy_d1 dm)) (/ IZR (cy_d2 dm))).
  { cbv [inverse mdiag det mscal adjugate vscal transpose dot cross vx vy vz r0 r1 r2]. vext; field; auto. }
  rewrite Ei. destruct (bz_K z) as [[a b c] [e f g] [h i j]]. cbv [mmul mdiag vscal mvec transpose dot vx vy vz r0 r1 r2]. vext; ring.
Qed.
Lemma br_units_det m : brz_built m -> det (br_units m) <> 0 /\ br_uinv m = inverse (br_units m).
Proof.
  intros Hm. pose proof (br_units_rows m Hm) as E. destruct Hm as (d & u & l & z & dm & Hl & Hz & (H0 & H1 & H2) & ->). cbn [br_make br_units br_dims br_bz br_uinv] in *.
  split; [|reflexivity]. rewrite E. destruct (bz_det l z Hz) as (HD & _).
  assert (A0 : / IZR (cy_d0 dm) <> 0) by (apply Rinv_neq_0_compat, not_0_IZR; lia). assert (A1 : / IZR (cy_d1 dm) <> 0) by (apply Rinv_neq_0_compat, not_0_IZR; lia). assert (A2 : / IZR (cy_d2 dm) <> 0) by (apply Rinv_neq_0_compat, not_0_IZR; lia).
  destruct (bz_K z) as [[a b c] [e f g] [h i j]]. unfold det, vscal, dot, cross in *. cbn [vx vy vz r0 r1 r2] in *.
  match goal with |- ?x <> 0 => replace x with (/ IZR (cy_d0 dm) * / IZR (cy_d1 dm) * / IZR (cy_d2 dm) * ((b * g - c * f) * h + (c * e - a * g) * i + (a * f - b * e) * j)) by ring end.
  repeat apply Rmult_integral_contrapositive_currified; assumption.
Qed.

Lemma floor_spec x : IZR (floor x) <= x < IZR (floor x) + 1.
Proof. unfold floor. destruct (base_Int_part x) as [H1 H2]. lra. Qed.
Lemma floor_uniq x i : IZR i <= x < IZR i + 1 -> floor x = i.
Proof.
  intros [H1 H2]. destruct (floor_spec x) as [H3 H4]. assert (IZR (floor x) < IZR (i + 1)) by (rewrite plus_IZR; lra). assert (IZR i < IZR (floor x + 1)) by (rewrite plus_IZR; lra).
  apply lt_IZR in H. apply lt_IZR in H0. lia.
Qed.
Lemma floor_add x k : floor (x + IZR k) = (floor x + k)%Z.
Proof. destruct (floor_spec x). apply floor_uniq. rewrite plus_IZR. lra. Qed.
Lemma floor_IZR k : floor (IZR k) = k.
Proof. apply floor_uniq. lra. Qed.

(** periodicity in the reciprocal lattice *)
Lemma br_eval1_periodic dim v f k : (1 <= dim)%Z -> br_eval1 dim (v + IZR (k * dim)) f = br_eval1 dim v f.
Proof.
  intros Hd. unfold br_eval1. rewrite floor_add. rewrite !pos_mod by exact Hd. rewrite Z.mod_add by lia.
  replace (floor v + k * dim + 1)%Z with (floor v + 1 + k * dim)%Z by ring. rewrite Z.mod_add by lia. rewrite plus_IZR. f_equal; f_equal; ring.
Qed.
Lemma mvec_units_rec m n0 n1 n2 : brz_built m ->
  mvec (transpose (bz_K (br_bz m))) (V3 (IZR n0) (IZR n1) (IZR n2)) =
  mvec (transpose (br_units m)) (V3 (IZR (n0 * cy_d0 (br_dims m))) (IZR (n1 * cy_d1 (br_dims m))) (IZR (n2 * cy_d2 (br_dims m)))).
Proof.
  intros Hm. rewrite (br_units_rows m Hm). destruct Hm as (d & u & l & z & dm & Hl & Hz & (H0 & H1 & H2) & ->). cbn [br_make br_dims br_bz].
  assert (IZR (cy_d0 dm) <> 0) by (apply not_0_IZR; lia). assert (IZR (cy_d1 dm) <> 0) by (apply not_0_IZR; lia). assert (IZR (cy_d2 dm) <> 0) by (apply not_0_IZR; lia).
  rewrite !mult_IZR. destruct (bz_K z) as [[a b c] [e f g] [h i j]]. cbv [mvec transpose vscal dot vx vy vz r0 r1 r2]. vext; field; auto.
Qed.
Lemma br_built_dims m : brz_built m -> cyc_ok (br_dims m).
Proof. intros (d & u & l & z & dm & Hl & Hz & Hd & ->). exact Hd. Qed.
Lemma ev_tuple_ext {I} (es es' : list ((I -> R) -> R)) f :
  Forall2 (fun e e' => (forall g, e g = e' g) /\ (forall g g', (forall y, g y = g' y) -> e' g = e' g')) es es' -> ev_tuple es f = ev_tuple es' f.
Proof.
  intros HF. revert f. induction HF as [|e e' es es' [He Hx] HF IH]; intros f; [reflexivity|]. destruct HF as [|e2 e2' es2 es2' He2 HF2].
  - cbn [ev_tuple]. apply He.
  - change (ev_tuple (e2 :: es2) (fun ys => e (fun y1 => f (y1 :: ys))) = ev_tuple (e2' :: es2') (fun ys => e' (fun y1 => f (y1 :: ys)))).
    rewrite IH. assert (Hext : forall es f g, Forall (fun e : (I -> R) -> R => forall g g', (forall y, g y = g' y) -> e g = e g') es -> (forall y, f y = g y) -> ev_tuple es f = ev_tuple es g).
    { clear. intros es f g HF. revert f g. induction HF as [|e es He HF IH]; intros f g H; [apply H|]. destruct es as [|e2 es]; [apply He; intros; apply H|].
      change (ev_tuple (e2 :: es) (fun ys => e (fun y1 => f (y1 :: ys))) = ev_tuple (e2 :: es) (fun ys => e (fun y1 => g (y1 :: ys)))). apply IH. intros ys. apply He. intros; apply H. }
    apply Hext; [|intros; apply He]. apply Forall_cons; [apply He2|]. clear - HF2. induction HF2; constructor; tauto.
Qed.
Lemma br_eval1_wsum dim v g : br_eval1 dim v g = wsum [(1 - (v - IZR (floor v)), positive_modulo (floor v) dim); (v - IZR (floor v), if (dim =? 1)%Z then 0%Z else positive_modulo (floor v + 1) dim)] g.
Proof. unfold br_eval1, wsum. cbn [fold_right fst snd]. ring. Qed.
Lemma br_eval1_ext dim v g g' : (forall y, g y = g' y) -> br_eval1 dim v g = br_eval1 dim v g'.
Proof. intros H. rewrite !br_eval1_wsum. apply wsum_ext. exact H. Qed.

Lemma thm_br_periodic m f k n0 n1 n2 : brz_built m ->
  br_eval m f (vadd k (mvec (transpose (bz_K (br_bz m))) (V3 (IZR n0) (IZR n1) (IZR n2)))) = br_eval m f k.
Proof.
  intros Hm. destruct (br_units_det m Hm) as [HD Ei]. destruct (br_built_dims m Hm) as (H0 & H1 & H2). unfold br_eval. rewrite mvec_add, (mvec_units_rec m n0 n1 n2 Hm), Ei, mvec_inv_l by exact HD.
  unfold vadd. cbn [vx vy vz]. apply ev_tuple_ext.
  repeat (apply Forall2_cons; [split; [intros; apply br_eval1_periodic; assumption|intros; apply br_eval1_ext; assumption]|]). apply Forall2_nil.
Qed.

(** on mesh points: the stored value *)
Lemma br_eval1_mesh dim i f : (0 <= i < dim)%Z -> br_eval1 dim (IZR i) f = f i.
Proof. intros Hi. unfold br_eval1. rewrite floor_IZR, pos_mod, Z.mod_small by lia. replace (IZR i - IZR i) with 0 by ring. ring. Qed.
Lemma thm_br_mesh m f i : brz_built m -> cy_valid (br_dims m) i = true ->
  keep (la_dim (bz_lat (br_bz m))) (vec_of i) = vec_of i -> br_eval m f (br_value m i) = f i.
Proof.
  intros Hm Hv Hk. destruct (br_units_det m Hm) as [HD Ei]. unfold br_eval, br_value. rewrite Hk, Ei, mvec_inv_l by exact HD.
  destruct i as [|a [|b [|c [|x i]]]]; try discriminate. apply cy_valid_iff in Hv. destruct Hv as (Ha & Hb & Hc). cbn [vec_of vx vy vz].
  apply ev_tuple_exact; [discriminate|]. repeat (apply Forall2_cons; [intros; apply br_eval1_mesh; assumption|]). apply Forall2_nil.
Qed.
(** meshes with one point in the directions outside of the lattice *)
Lemma thin_keep m i : (la_dim (bz_lat (br_bz m)) <= 3)%nat -> (1 <= la_dim (bz_lat (br_bz m)))%nat ->
  ((la_dim (bz_lat (br_bz m)) < 2)%nat -> cy_d1 (br_dims m) = 1%Z) -> ((la_dim (bz_lat (br_bz m)) < 3)%nat -> cy_d2 (br_dims m) = 1%Z) ->
  cy_valid (br_dims m) i = true -> keep (la_dim (bz_lat (br_bz m))) (vec_of i) = vec_of i.
Proof.
  intros H3 H1 D1 D2 Hv. destruct i as [|a [|b [|c [|x i]]]]; try discriminate. apply cy_valid_iff in Hv. destruct Hv as (Ha & Hb & Hc). cbn [vec_of].
  destruct (la_dim (bz_lat (br_bz m))) as [|[|[|[|d]]]]; try lia; cbn [keep vx vy vz].
  - rewrite D1 in Hb by lia. rewrite D2 in Hc by lia. assert (b = 0%Z) as -> by lia. assert (c = 0%Z) as -> by lia. reflexivity.
  - rewrite D2 in Hc by lia. assert (c = 0%Z) as -> by lia. reflexivity.
  - reflexivity.
Qed.

(** the weights *)
Lemma thm_br_weights m k : brz_built m -> exists ws : list (R * idx),
  (forall f, br_eval m f k = wsum ws f) /\ Forall (fun wi => 0 <= fst wi /\ cy_valid (br_dims m) (snd wi) = true) ws /\ wsum ws (fun _ => 1) = 1.
Proof.
  intros Hm. destruct (br_built_dims m Hm) as (H0 & H1 & H2). set (v := mvec (transpose (br_uinv m)) k).
  set (W := fun dim v => [(1 - (v - IZR (floor v)), positive_modulo (floor v) dim); (v - IZR (floor v), if (dim =? 1)%Z then 0%Z else positive_modulo (floor v + 1) dim)]).
  set (wss := [W (cy_d0 (br_dims m)) (vx v); W (cy_d1 (br_dims m)) (vy v); W (cy_d2 (br_dims m)) (vz v)]).
  assert (HW : forall dim v, (1 <= dim)%Z -> Forall (fun wi => 0 <= fst wi) (W dim v) /\ wsum (W dim v) (fun _ => 1) = 1).
  { intros dim t Hd. destruct (floor_spec t). split; [repeat (apply Forall_cons || apply Forall_nil); cbn [fst]; lra|]. unfold W, wsum. cbn [fold_right fst snd]. ring. }
  assert (HI : forall dim v wi, (1 <= dim)%Z -> In wi (W dim v) -> (0 <= snd wi < dim)%Z).
  { intros dim t wi Hd [<-|[<-|[]]]; cbn [snd]; [rewrite pos_mod by exact Hd; apply Z.mod_pos_bound; lia|].
    destruct (Z.eqb_spec dim 1); [lia|]. rewrite pos_mod by exact Hd. apply Z.mod_pos_bound. lia. }
  destruct (tensor_weights wss) as [Hp Hs]. { unfold wss. repeat (apply Forall_cons; [apply HW; assumption|]). apply Forall_nil. }
  exists (tensor wss). split; [|split; [|exact Hs]].
  - intros f. unfold br_eval. fold v. apply thm_ev_tuple; [discriminate|]. unfold wss. repeat (apply Forall2_cons; [intros; apply br_eval1_wsum|]). apply Forall2_nil.
  - apply Forall_forall. intros x Hx. rewrite Forall_forall in Hp. split; [apply Hp; exact Hx|].
    unfold wss in Hx. cbn [tensor] in Hx. apply in_flat_map in Hx. destruct Hx as (y0 & Hy0 & Hx). apply in_map_iff in Hx. destruct Hx as (x1 & <- & Hx).
    apply in_flat_map in Hx. destruct Hx as (y1 & Hy1 & Hx). apply in_map_iff in Hx. destruct Hx as (x2 & <- & Hx).
    apply in_flat_map in Hx. destruct Hx as (y2 & Hy2 & Hx). apply in_map_iff in Hx. destruct Hx as (x3 & <- & [<-|[]]). cbn [snd].
    apply cy_valid_iff. split; [exact (HI _ _ y0 H0 Hy0)|]. split; [exact (HI _ _ y1 H1 Hy1)|exact (HI _ _ y2 H2 Hy2)].
Qed.

(** ---- closest mesh point ---- *)
Definition tri : Type := (Z * Z * Z)%type.
Definition img (m : brz) (c : tri) : vec := mvec (transpose (br_units m)) (cvec c).
Definition dist (m : brz) (k : vec) (c : tri) : R := norm (vsub k (img m c)).

Definition rng2 (d : Z) : list Z := map Z.of_nat (seq 0 (Z.to_nat (Z.min d 2))).
Lemma rng2_in d i : (1 <= d)%Z -> (In i (rng2 d) <-> i = 0%Z \/ (i = 1%Z /\ (2 <= d)%Z)).
Proof.
  intros Hd. unfold rng2. rewrite in_map_iff. split.
  - intros (x & <- & Hx). apply in_seq in Hx. lia.
  - intros [->|[-> H]]; [exists 0%nat|exists 1%nat]; (split; [reflexivity|apply in_seq; lia]).
Qed.
Lemma corners_in dm c : In c (corners dm) <-> exists i1 i2 i3, c = (i1, i2, i3) /\ In i1 (rng2 (cy_d0 dm)) /\ In i2 (rng2 (cy_d1 dm)) /\ In i3 (rng2 (cy_d2 dm)).
Proof.
  unfold corners. fold (rng2 (cy_d0 dm)) (rng2 (cy_d1 dm)) (rng2 (cy_d2 dm)). rewrite in_flat_map. split.
  - intros (i1 & H1 & Hc). apply in_flat_map in Hc. destruct Hc as (i2 & H2 & Hc). apply in_map_iff in Hc. destruct Hc as (i3 & <- & H3). eauto 10.
  - intros (i1 & i2 & i3 & -> & H1 & H2 & H3). exists i1. split; [exact H1|]. apply in_flat_map. exists i2. split; [exact H2|]. apply in_map_iff. eauto.
Qed.
Lemma br_step_min m w l acc0 : l <> [] \/ acc0 <> None ->
  (forall d c, acc0 = Some (d, c) -> d = norm (mvec (transpose (br_units m)) (vsub w (cvec c)))) ->
  exists d c, fold_left (br_step m w) l acc0 = Some (d, c) /\ d = norm (mvec (transpose (br_units m)) (vsub w (cvec c))) /\
    (In c l \/ acc0 = Some (d, c)) /\ (forall c', In c' l -> d <= norm (mvec (transpose (br_units m)) (vsub w (cvec c')))) /\ (forall d' c', acc0 = Some (d', c') -> d <= d').
Proof.
  revert acc0. induction l as [|x l IH]; intros acc0 Hne Hacc.
  - destruct acc0 as [[d c]|]; [|destruct Hne; congruence]. exists d, c. cbn [fold_left]. split; [reflexivity|]. split; [apply Hacc; reflexivity|]. split; [right; reflexivity|]. split; [intros c' []|]. intros d' c' E. injection E as <- <-. lra.
  - cbn [fold_left]. destruct (IH (br_step m w acc0 x)) as (d & c & E & Ed & Hc & Hmin & Hle).
    + right. unfold br_step. destruct acc0 as [[d0 c0]|]; [destruct (Rlt_dec _ _)|]; discriminate.
    + intros d c. unfold br_step. destruct acc0 as [[d0 c0]|]; [destruct (Rlt_dec _ _)|]; intros E; try (injection E as <- <-; reflexivity). apply Hacc. exact E.
    + exists d, c. split; [exact E|]. split; [exact Ed|]. unfold br_step in Hc, Hle. destruct acc0 as [[d0 c0]|].
      * destruct (Rlt_dec _ _) as [Hlt|Hge] in Hc, Hle.
        -- destruct (Rlt_dec (norm (mvec (transpose (br_units m)) (vsub w (cvec x)))) d0) as [_|]; [|contradiction].
           split; [destruct Hc as [Hc|Hc]; [left; right; exact Hc|injection Hc as Hd <-; left; left; reflexivity]|]. specialize (Hle _ _ eq_refl).
           split; [intros c' [<-|Hc']; [exact Hle|apply Hmin; exact Hc']|]. intros d' c' E'. injection E' as <- <-. lra.
        -- destruct (Rlt_dec (norm (mvec (transpose (br_units m)) (vsub w (cvec x)))) d0) as [|_]; [contradiction|].
           split; [destruct Hc as [Hc|Hc]; [left; right; exact Hc|right; exact Hc]|]. specialize (Hle _ _ eq_refl).
           split; [intros c' [<-|Hc']; [lra|apply Hmin; exact Hc']|]. intros d' c' E'. injection E' as <- <-. lra.
      * split; [destruct Hc as [Hc|Hc]; [left; right; exact Hc|injection Hc as Hd <-; left; left; reflexivity]|]. specialize (Hle _ _ eq_refl).
        split; [intros c' [<-|Hc']; [exact Hle|apply Hmin; exact Hc']|]. intros d' c' E'. discriminate E'.
Qed.

Definition tadd (a b : tri) : tri := let '(a1, a2, a3) := a in let '(b1, b2, b3) := b in ((a1 + b1)%Z, (a2 + b2)%Z, (a3 + b3)%Z).
Definition cell (m : brz) (k : vec) : tri := let v := mvec (transpose (br_uinv m)) k in (floor (vx v), floor (vy v), floor (vz v)).
Lemma cell_dist m k c : brz_built m ->
  let v := mvec (transpose (br_uinv m)) k in
  norm (mvec (transpose (br_units m)) (vsub (vsub v (cvec (cell m k))) (cvec c))) = dist m k (tadd (cell m k) c).
Proof.
  intros Hm v. destruct (br_units_det m Hm) as [HD Ei]. unfold dist, img. f_equal.
  assert (Ek : k = mvec (transpose (br_units m)) v) by (unfold v; rewrite Ei, mvec_inv_r by exact HD; reflexivity).
  rewrite Ek at 2. rewrite <- mvec_sub. f_equal. unfold cell. fold v. destruct c as [[c1 c2] c3]. cbn [tadd cvec]. unfold vsub. cbn [vx vy vz]. rewrite !plus_IZR. vext; ring.
Qed.
(** the chosen lattice point: the closest corner of the cell containing k *)
Lemma thm_br_corner m k : brz_built m -> exists c, br_corner m k = Some (tadd (cell m k) c) /\ In c (corners (br_dims m)) /\
  forall c', In c' (corners (br_dims m)) -> dist m k (tadd (cell m k) c) <= dist m k (tadd (cell m k) c').
Proof.
  intros Hm. destruct (br_built_dims m Hm) as (H0 & H1 & H2). unfold br_corner. cbv zeta.
  set (v := mvec (transpose (br_uinv m)) k).
  change (V3 (IZR (floor (vx v))) (IZR (floor (vy v))) (IZR (floor (vz v)))) with (cvec (cell m k)).
  destruct (br_step_min m (vsub v (cvec (cell m k))) (corners (br_dims m)) None) as (d & c & E & Ed & Hc & Hmin & _).
  - left. assert (Hin : In (0%Z, 0%Z, 0%Z) (corners (br_dims m))).
    { apply corners_in. exists 0%Z, 0%Z, 0%Z. split; [reflexivity|]. rewrite !rng2_in by assumption. tauto. }
    intros E. rewrite E in Hin. destruct Hin.
  - discriminate.
  - rewrite E. destruct Hc as [Hc|Hc]; [|discriminate]. exists c. split; [destruct c as [[c1 c2] c3]; reflexivity|]. split; [exact Hc|].
    intros c' Hc'. rewrite <- !cell_dist by exact Hm. fold v. rewrite <- Ed. apply Hmin. exact Hc'.
Qed.
Definition fold_tri (m : brz) (c : tri) : idx := let '(a, b, c) := c in cy_modulo (br_dims m) [a; b; c].
Lemma br_closest_fold m k c : br_corner m k = Some c -> br_closest m k = Some (fold_tri m c).
Proof. intros E. unfold br_closest. rewrite E. destruct c as [[c1 c2] c3]. reflexivity. Qed.

Lemma norm_le u v : norm u <= norm v <-> dot u u <= dot v v.
Proof.
  pose proof (norm_nonneg u). pose proof (norm_nonneg v). rewrite <- !norm_sq. split; intros E; [apply Rmult_le_compat; lra|].
  destruct (Rle_lt_dec (norm u) (norm v)) as [Hc|Hc]; [exact Hc|]. exfalso. nra.
Qed.
(** orthogonal reciprocal vectors: the nearest of all mesh points and their images *)
Definition orthogonal (u : mat) : Prop := dot (r0 u) (r1 u) = 0 /\ dot (r0 u) (r2 u) = 0 /\ dot (r1 u) (r2 u) = 0.
Lemma dist_orth m k c : orthogonal (br_units m) -> brz_built m ->
  let v := mvec (transpose (br_uinv m)) k in
  dot (vsub k (img m c)) (vsub k (img m c)) =
    (vx v - vx (cvec c)) * (vx v - vx (cvec c)) * dot (r0 (br_units m)) (r0 (br_units m)) +
    (vy v - vy (cvec c)) * (vy v - vy (cvec c)) * dot (r1 (br_units m)) (r1 (br_units m)) +
    (vz v - vz (cvec c)) * (vz v - vz (cvec c)) * dot (r2 (br_units m)) (r2 (br_units m)).
Proof.
  intros HO Hm v. destruct (br_units_det m Hm) as [HD Ei].
  assert (Ek : k = mvec (transpose (br_units m)) v) by (unfold v; rewrite Ei, mvec_inv_r by exact HD; reflexivity).
  unfold img. rewrite Ek, <- mvec_sub. clear Ek. clearbody v. clear Hm HD Ei. destruct (br_units m) as [[a b c0] [d e f] [g h i]], v as [v1 v2 v3], (cvec c) as [c1 c2 c3].
  destruct HO as (O1 & O2 & O3). unfold dot, vsub, mvec, transpose in *. cbn [vx vy vz r0 r1 r2] in *. unfold dot. cbn [vx vy vz].
  set (p := v1 - c1). set (q := v2 - c2). set (r := v3 - c3).
  transitivity (p * p * (a * a + b * b + c0 * c0) + q * q * (d * d + e * e + f * f) + r * r * (g * g + h * h + i * i) +
     2 * (p * q * (a * d + b * e + c0 * f) + p * r * (a * g + b * h + c0 * i) + q * r * (d * g + e * h + f * i))); [ring|].
  rewrite O1, O2, O3. ring.
Qed.
Lemma best_int w i : 0 <= w < 1 -> (i = 0 \/ i = 1)%Z -> (forall j, (j = 0 \/ j = 1)%Z -> (w - IZR i) * (w - IZR i) <= (w - IZR j) * (w - IZR j)) ->
  forall j, (w - IZR i) * (w - IZR i) <= (w - IZR j) * (w - IZR j).
Proof.
  intros Hw Hi Hm j. destruct (Z_le_gt_dec j 0) as [Hj|Hj].
  - apply IZR_le in Hj. specialize (Hm 0%Z ltac:(lia)). assert ((w - IZR 0) * (w - IZR 0) <= (w - IZR j) * (w - IZR j)) by nra. lra.
  - assert (Hj' : (1 <= j)%Z) by lia. apply IZR_le in Hj'. specialize (Hm 1%Z ltac:(lia)). assert ((w - IZR 1) * (w - IZR 1) <= (w - IZR j) * (w - IZR j)) by nra. lra.
Qed.
Lemma thm_br_closest_orth m k : brz_built m -> orthogonal (br_units m) ->
  exists c i, br_closest m k = Some i /\ i = fold_tri m c /\ forall c', dist m k c <= dist m k c'.
Proof.
  intros Hm HO. destruct (thm_br_corner m k Hm) as (c & E & Hc & Hmin). destruct (br_built_dims m Hm) as (H0 & H1 & H2).
  apply corners_in in Hc. destruct Hc as (i1 & i2 & i3 & -> & I1 & I2 & I3).
  set (v := mvec (transpose (br_uinv m)) k) in *. unfold cell in *. fold v in E, Hmin.
  (* in a flat direction any integer folds to the same index: take the best one *)
  set (best := fun (x : R) => if Rle_dec (x - IZR (floor x)) (1 / 2) then 0%Z else 1%Z).
  set (pick := fun (d i : Z) (x : R) => if (d =? 1)%Z then best x else i).
  set (c := (floor (vx v) + pick (cy_d0 (br_dims m)) i1 (vx v), floor (vy v) + pick (cy_d1 (br_dims m)) i2 (vy v), floor (vz v) + pick (cy_d2 (br_dims m)) i3 (vz v))%Z).
  exists c, (fold_tri m (tadd (floor (vx v), floor (vy v), floor (vz v)) (i1, i2, i3))). split; [apply br_closest_fold; exact E|]. split.
  { cbn [tadd fold_tri c]. unfold cy_modulo. rewrite !pos_mod by assumption.
    assert (G : forall d i x, (1 <= d)%Z -> ((floor x + i) mod d = (floor x + pick d i x) mod d)%Z).
    { intros d i x Hd. unfold pick. destruct (Z.eqb_spec d 1) as [->|]; [rewrite !Z.mod_1_r; reflexivity|reflexivity]. }
    rewrite <- !G by assumption. reflexivity. }
  intros c'. unfold dist. apply norm_le. pose proof (dist_orth m k c HO Hm) as D1. pose proof (dist_orth m k c' HO Hm) as D2. cbv zeta in D1, D2. rewrite D1, D2. clear D1 D2. fold v.
  assert (Hrow : 0 <= dot (r0 (br_units m)) (r0 (br_units m)) /\ 0 <= dot (r1 (br_units m)) (r1 (br_units m)) /\ 0 <= dot (r2 (br_units m)) (r2 (br_units m))) by (repeat split; apply dot_nonneg).
  destruct (br_units_det m Hm) as [HD _].
  assert (Hpos : 0 < dot (r0 (br_units m)) (r0 (br_units m)) /\ 0 < dot (r1 (br_units m)) (r1 (br_units m)) /\ 0 < dot (r2 (br_units m)) (r2 (br_units m))).
  { assert (G : forall u, dot u u = 0 -> u = V3 0 0 0). { intros [a b e]. unfold dot. cbn [vx vy vz]. intros H. assert (a = 0 /\ b = 0 /\ e = 0) as (-> & -> & ->) by (repeat split; nra). reflexivity. }
    destruct Hrow as (R0 & R1 & R2). repeat split.
    - destruct (Req_dec (dot (r0 (br_units m)) (r0 (br_units m))) 0) as [Z0|Z0]; [|lra]. exfalso. apply HD. apply G in Z0. unfold det. rewrite Z0. unfold dot, cross. cbn [vx vy vz]. ring.
    - destruct (Req_dec (dot (r1 (br_units m)) (r1 (br_units m))) 0) as [Z0|Z0]; [|lra]. exfalso. apply HD. apply G in Z0. unfold det. rewrite Z0. unfold dot, cross. cbn [vx vy vz]. ring.
    - destruct (Req_dec (dot (r2 (br_units m)) (r2 (br_units m))) 0) as [Z0|Z0]; [|lra]. exfalso. apply HD. apply G in Z0. unfold det. rewrite Z0. unfold dot, cross. cbn [vx vy vz]. ring. }
  assert (Hsq : forall d1 d2 d3, In d1 (rng2 (cy_d0 (br_dims m))) -> In d2 (rng2 (cy_d1 (br_dims m))) -> In d3 (rng2 (cy_d2 (br_dims m))) ->
     (vx v - IZR (floor (vx v) + i1)) * (vx v - IZR (floor (vx v) + i1)) * dot (r0 (br_units m)) (r0 (br_units m)) +
     (vy v - IZR (floor (vy v) + i2)) * (vy v - IZR (floor (vy v) + i2)) * dot (r1 (br_units m)) (r1 (br_units m)) +
     (vz v - IZR (floor (vz v) + i3)) * (vz v - IZR (floor (vz v) + i3)) * dot (r2 (br_units m)) (r2 (br_units m)) <=
     (vx v - IZR (floor (vx v) + d1)) * (vx v - IZR (floor (vx v) + d1)) * dot (r0 (br_units m)) (r0 (br_units m)) +
     (vy v - IZR (floor (vy v) + d2)) * (vy v - IZR (floor (vy v) + d2)) * dot (r1 (br_units m)) (r1 (br_units m)) +
     (vz v - IZR (floor (vz v) + d3)) * (vz v - IZR (floor (vz v) + d3)) * dot (r2 (br_units m)) (r2 (br_units m))).
  { intros d1 d2 d3 J1 J2 J3. assert (J : In (d1, d2, d3) (corners (br_dims m))) by (apply corners_in; eauto 10). specialize (Hmin _ J). unfold dist in Hmin. apply norm_le in Hmin.
    pose proof (dist_orth m k (tadd (floor (vx v), floor (vy v), floor (vz v)) (i1, i2, i3)) HO Hm) as D1.
    pose proof (dist_orth m k (tadd (floor (vx v), floor (vy v), floor (vz v)) (d1, d2, d3)) HO Hm) as D2. cbv zeta in D1, D2. rewrite D1, D2 in Hmin. exact Hmin. }
  assert (G : forall d i x j, (1 <= d)%Z -> In i (rng2 d) ->
     ((2 <= d)%Z -> forall j', In j' (rng2 d) -> (x - IZR (floor x + i)) * (x - IZR (floor x + i)) <= (x - IZR (floor x + j')) * (x - IZR (floor x + j'))) ->
     (x - IZR (floor x + pick d i x)) * (x - IZR (floor x + pick d i x)) <= (x - IZR j) * (x - IZR j)).
  { clear. intros d i x j Hd Hi Hm. destruct (floor_spec x) as [F1 F2]. set (w := x - IZR (floor x)).
    assert (Hx : forall q, x - IZR (floor x + q) = w - IZR q) by (intros q; unfold w; rewrite plus_IZR; ring).
    replace (x - IZR j) with (w - IZR (j - floor x)) by (unfold w; rewrite minus_IZR; ring). rewrite Hx.
    assert (Hw : 0 <= w < 1) by (unfold w; lra).
    unfold pick. destruct (Z.eqb_spec d 1) as [->|Hd1].
    - unfold best. fold w. apply best_int; [exact Hw|destruct (Rle_dec w (1 / 2)); auto|]. intros j' [-> | ->]; destruct (Rle_dec w (1 / 2)); nra.
    - apply rng2_in in Hi; [|exact Hd]. apply best_int; [exact Hw|lia|]. intros j' Hj'. rewrite <- !Hx. apply Hm; [lia|]. apply rng2_in; lia. }
  destruct c' as [[j1 j2] j3]. cbn [cvec c vx vy vz].
  destruct Hpos as (P0 & P1 & P2).
  apply Rplus_le_compat; [apply Rplus_le_compat|]; (apply Rmult_le_compat_r; [lra|]); apply G; try assumption; intros Hd2 j' Hj'.
  - specialize (Hsq j' i2 i3 Hj' I2 I3). apply (Rmult_le_reg_r (dot (r0 (br_units m)) (r0 (br_units m)))); lra.
  - specialize (Hsq i1 j' i3 I1 Hj' I3). apply (Rmult_le_reg_r (dot (r1 (br_units m)) (r1 (br_units m)))); lra.
  - specialize (Hsq i1 i2 j' I1 I2 Hj'). apply (Rmult_le_reg_r (dot (r2 (br_units m)) (r2 (br_units m)))); lra.
Qed.
(** the returned index always belongs to the mesh *)
Lemma thm_br_closest_valid m k : brz_built m -> exists i, br_closest m k = Some i /\ cy_valid (br_dims m) i = true.
Proof.
  intros Hm. destruct (thm_br_corner m k Hm) as (c & E & _). exists (fold_tri m (tadd (cell m k) c)). split; [apply br_closest_fold; exact E|].
  destruct (tadd (cell m k) c) as [[c1 c2] c3]. cbn [fold_tri]. apply thm_modulo. apply br_built_dims. exact Hm.
Qed.
Lemma norm_zero u : norm u = 0 -> u = V3 0 0 0.
Proof.
  intros H. pose proof (norm_sq u) as E. rewrite H in E. destruct u as [a b c]. unfold dot in E. cbn [vx vy vz] in E. assert (a = 0 /\ b = 0 /\ c = 0) as (-> & -> & ->) by (repeat split; nra). reflexivity.
Qed.
Lemma thm_br_closest_mesh m i : brz_built m -> cy_valid (br_dims m) i = true ->
  keep (la_dim (bz_lat (br_bz m))) (vec_of i) = vec_of i -> br_closest m (br_value m i) = Some i.
Proof.
  intros Hm Hv Hk. destruct (br_units_det m Hm) as [HD Ei]. pose proof (br_built_dims m Hm) as Hd. set (k := br_value m i).
  assert (Ev : mvec (transpose (br_uinv m)) k = vec_of i) by (unfold k, br_value; rewrite Hk, Ei, mvec_inv_l by exact HD; reflexivity).
  destruct i as [|a [|b [|c [|x i]]]]; try discriminate. destruct (thm_br_corner m k Hm) as (c0 & E & Hc & Hmin).
  assert (Ecell : cell m k = (a, b, c)) by (unfold cell; rewrite Ev; cbn [vec_of vx vy vz]; rewrite !floor_IZR; reflexivity).
  assert (Hz : dist m k (tadd (cell m k) c0) <= dist m k (tadd (cell m k) (0, 0, 0)%Z)).
  { apply Hmin. apply corners_in. exists 0%Z, 0%Z, 0%Z. destruct Hd as (? & ? & ?). split; [reflexivity|]. rewrite !rng2_in by assumption. tauto. }
  assert (Hz0 : dist m k (tadd (cell m k) (0, 0, 0)%Z) = 0).
  { rewrite Ecell. cbn [tadd]. rewrite !Z.add_0_r. unfold dist, img, k, br_value. rewrite Hk. cbn [vec_of cvec]. unfold norm, vsub, dot. cbn [vx vy vz].
    match goal with |- sqrt ?t = 0 => replace t with 0 by ring end. apply sqrt_0. }
  assert (Hz1 : dist m k (tadd (cell m k) c0) = 0) by (pose proof (norm_nonneg (vsub k (img m (tadd (cell m k) c0)))); unfold dist in *; lra).
  unfold dist in Hz1. apply norm_zero in Hz1. unfold img in Hz1. rewrite Ecell in Hz1.
  assert (Ek : k = mvec (transpose (br_units m)) (vec_of [a; b; c])) by (unfold k, br_value; rewrite Hk; reflexivity).
  rewrite Ek, <- mvec_sub in Hz1. apply (f_equal (mvec (transpose (br_uinv m)))) in Hz1. rewrite Ei, mvec_inv_l in Hz1 by exact HD.
  replace (mvec (transpose (inverse (br_units m))) (V3 0 0 0)) with (V3 0 0 0) in Hz1.
  2:{ destruct (transpose (inverse (br_units m))) as [[m1 m2 m3] [m4 m5 m6] [m7 m8 m9]]. unfold mvec, dot. cbn [vx vy vz r0 r1 r2]. vext; ring. }
  rewrite (br_closest_fold m k _ E). f_equal. rewrite Ecell. destruct c0 as [[c1 c2] c3]. cbn [tadd vec_of cvec] in Hz1.
  unfold vsub in Hz1. cbn [vx vy vz] in Hz1. injection Hz1 as Z1 Z2 Z3.
  assert (c1 = 0%Z) as -> by (apply eq_IZR; rewrite plus_IZR in Z1; lra). assert (c2 = 0%Z) as -> by (apply eq_IZR; rewrite plus_IZR in Z2; lra). assert (c3 = 0%Z) as -> by (apply eq_IZR; rewrite plus_IZR in Z3; lra).
  cbn [tadd fold_tri]. rewrite !Z.add_0_r. apply thm_modulo_valid; assumption.
Qed.

(** skewed reciprocal vectors: the closest point may not be a corner of the cell *)
Definition skew_units : mat := M3 (V3 1 (-3) 0) (V3 0 1 0) (V3 0 0 0).
Lemma skew_lattice : exists l z, la_make 2 skew_units = Ok l /\ bz_make l = Ok z /\
  br_units (br_make z (mkCyc 4 4 1)) = M3 (V3 (PI / 2) 0 0) (V3 (3 * (PI / 2)) (PI / 2) 0) (V3 0 0 (2 * PI)).
Proof.
  assert (EL : exists l, la_make 2 skew_units = Ok l).
  { unfold la_make, skew_units. cbv zeta. cbn [r0 r1 vx vy].
    assert (E3 : cross (V3 1 (-3) 0) (V3 0 1 0) = V3 0 0 1) by (unfold cross; cbn [vx vy vz]; vext; ring). rewrite E3.
    assert (E1 : norm (V3 0 0 1) = 1). { unfold norm, dot. cbn [vx vy vz]. replace (0 * 0 + 0 * 0 + 1 * 1) with 1 by ring. apply sqrt_1. }
    rewrite E1, Rabs_R1. destruct (Rlt_dec 1 almost_zero) as [H|_]; [unfold almost_zero in H; lra|]. eexists. reflexivity. }
  destruct EL as [l Hl]. exists l. destruct (la_make_2 _ _ Hl) as (_ & s & Hs & HsD & EU). cbn [skew_units r0 r1 vx vy] in EU, HsD.
  replace (1 * 1 - -3 * 0) with 1 in HsD by ring. rewrite Rabs_R1 in HsD. assert (s = 1) as -> by lra.
  assert (HDet : det (la_units l) = 1) by (rewrite EU; unfold det, dot, cross; cbn [vx vy vz r0 r1 r2]; ring).
  assert (Hz : exists z, bz_make l = Ok z). { unfold bz_make. rewrite HDet, Rabs_R1. destruct (Rlt_dec 1 almost_zero) as [H|_]; [unfold almost_zero in H; lra|]. eexists. reflexivity. }
  destruct Hz as [z Hz]. exists z. split; [exact Hl|]. split; [exact Hz|].
  assert (Hb : brz_built (br_make z (mkCyc 4 4 1))). { exists 2%nat, skew_units, l, z, (mkCyc 4 4 1). repeat split; try assumption; cbn [cy_d0 cy_d1 cy_d2]; lia. }
  rewrite (br_units_rows _ Hb). cbn [br_make br_dims br_bz cy_d0 cy_d1 cy_d2].
  unfold bz_make in Hz. destruct (Rlt_dec _ _) as [|_] in Hz; [discriminate|]. injection Hz as <-. cbn [bz_K].
  assert (EI : inverse (transpose (la_units l)) = M3 (V3 1 0 0) (V3 3 1 0) (V3 0 0 1)).
  { unfold inverse. rewrite det_transpose, HDet, EU. unfold adjugate, mscal, vscal, transpose, cross. cbn [vx vy vz r0 r1 r2]. vext; field. }
  rewrite EI. unfold mscal, vscal. cbn [vx vy vz r0 r1 r2]. vext; field.
Qed.
Lemma cex_br_closest : exists m k i, brz_built m /\ br_closest m k = Some i /\
  exists c', forall c, fold_tri m c = i -> dist m k c' < dist m k c.
Proof.
  destruct skew_lattice as (l & z & Hl & Hz & EU). set (m := br_make z (mkCyc 4 4 1)) in *. set (h := PI / 2) in *.
  assert (Hh : 0 < h) by (unfold h; pose proof PI_RGT_0; lra).
  assert (Hb : brz_built m). { exists 2%nat, skew_units, l, z, (mkCyc 4 4 1). repeat split; try assumption; cbn [cy_d0 cy_d1 cy_d2]; lia. }
  set (k := mvec (transpose (br_units m)) (V3 (1 / 2) (1 / 2) 0)).
  destruct (br_units_det m Hb) as [HD Ei].
  destruct (thm_br_corner m k Hb) as (c0 & E & Hc & _). exists m, k, (fold_tri m (tadd (cell m k) c0)).
  split; [exact Hb|]. split; [apply br_closest_fold; exact E|]. exists (2, 0, 0)%Z. intros c Hcf.
  assert (Ecell : cell m k = (0, 0, 0)%Z).
  { unfold cell, k. rewrite Ei, mvec_inv_l by exact HD. cbn [vx vy vz]. rewrite (floor_uniq (1 / 2) 0), (floor_uniq 0 0) by (cbn; lra). reflexivity. }
  rewrite Ecell in Hcf. apply corners_in in Hc. destruct Hc as (i1 & i2 & i3 & -> & I1 & I2 & I3). cbn [m br_make br_dims cy_d0 cy_d1 cy_d2] in I1, I2, I3.
  apply rng2_in in I1; [|lia]. apply rng2_in in I2; [|lia]. apply rng2_in in I3; [|lia].
  destruct c as [[n1 n2] n3]. cbn [tadd fold_tri] in Hcf. rewrite !Z.add_0_l in Hcf. unfold cy_modulo in Hcf. cbn [m br_make br_dims cy_d0 cy_d1 cy_d2] in Hcf.
  rewrite !pos_mod in Hcf by lia. injection Hcf as M1 M2 _.
  assert (B1 : (n1 mod 4 = i1 mod 4)%Z) by exact M1. assert (B2 : (n2 mod 4 = i2 mod 4)%Z) by exact M2. clear M1 M2.
  rewrite (Z.mod_small i1) in B1 by lia. rewrite (Z.mod_small i2) in B2 by lia.
  unfold dist. assert (Hlt : dot (vsub k (img m (2, 0, 0)%Z)) (vsub k (img m (2, 0, 0)%Z)) < dot (vsub k (img m (n1, n2, n3))) (vsub k (img m (n1, n2, n3)))).
  { unfold k, img. rewrite <- !mvec_sub, EU. unfold vsub, mvec, transpose, dot. cbn [vx vy vz r0 r1 r2 cvec]. unfold dot. cbn [vx vy vz].
    set (x := IZR n1 + 3 * IZR n2 - 2). set (y := IZR n2 - 1 / 2).
    match goal with |- ?a < ?b => replace a with (h * h * (1 / 4)) by (unfold h; field) end.
    match goal with |- ?a < ?b => replace b with (h * h * (x * x + y * y) + (2 * PI * IZR n3) * (2 * PI * IZR n3)) by (unfold x, y; field) end.
    assert (Hy : 1 / 4 <= y * y). { unfold y. destruct (Z_le_gt_dec n2 0) as [G|G]; [apply IZR_le in G; nra|]. assert (G' : (1 <= n2)%Z) by lia. apply IZR_le in G'. nra. }
    assert (Hs : 1 / 4 < x * x + y * y).
    { destruct (Z.eq_dec (n1 + 3 * n2 - 2) 0) as [G|G].
      - (* x = 0 : then n2 is neither 0 nor 1 *)
        assert (Hn2 : (n2 <= -1 \/ 2 <= n2)%Z).
        { destruct (Z.eq_dec n2 0) as [->|]; [exfalso; assert (n1 = 2%Z) by lia; subst n1; cbn in B1; lia|].
          destruct (Z.eq_dec n2 1) as [->|]; [exfalso; assert (n1 = (-1)%Z) by lia; subst n1; cbn in B1; lia|]. lia. }
        unfold y in *. destruct Hn2 as [G'|G']; apply IZR_le in G'; nra.
      - assert (Hx : 1 <= x * x). { replace x with (IZR (n1 + 3 * n2 - 2)) by (unfold x; rewrite minus_IZR, plus_IZR, mult_IZR; reflexivity). rewrite <- mult_IZR. apply (IZR_le 1). nia. }
        lra. }
    assert (0 < h * h) by nra. nra. }
  pose proof (norm_le (vsub k (img m (n1, n2, n3))) (vsub k (img m (2, 0, 0)%Z))) as HN.
  destruct (Rlt_le_dec (norm (vsub k (img m (2, 0, 0)%Z))) (norm (vsub k (img m (n1, n2, n3))))) as [G|G]; [exact G|]. apply HN in G. lra.
Qed.
(** a mesh with several points in a direction outside of a 2d lattice: distinct indices have
    the same value, so evaluation at the value of a mesh point cannot return what is stored *)
Lemma cex_br_flat : exists m i i', brz_built m /\ cy_valid (br_dims m) i = true /\ cy_valid (br_dims m) i' = true /\ i <> i' /\ br_value m i = br_value m i'.
Proof.
  destruct skew_lattice as (l & z & Hl & Hz & _). exists (br_make z (mkCyc 4 4 2)), [0; 0; 0]%Z, [0; 0; 1]%Z.
  split. { exists 2%nat, skew_units, l, z, (mkCyc 4 4 2). repeat split; try assumption; cbn [cy_d0 cy_d1 cy_d2]; lia. }
  split; [reflexivity|]. split; [reflexivity|]. split; [discriminate|].
  unfold br_value. cbn [br_make br_bz]. destruct (bz_det l z Hz) as (_ & _ & ->). destruct (la_make_inv _ _ _ Hl) as [_ ->]. reflexivity.
Qed.
