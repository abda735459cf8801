(** Properties C39 and C59 (brzone meshes) and C55 (lattice coordinates, Legendre). *)
From Coq Require Import ZArith Reals List Bool Lia Lra.
From Verif Require Import Base Mesh Mesh_proofs LinMesh LinMesh_proofs Lattice Lattice_proofs Legendre Legendre_proofs.
Import ListNotations.
Open Scope R_scope.

(** [brz_built m]: m is a brzone mesh made by the constructors from a (non-degenerate)
    lattice of dimension 1, 2 or 3 and any dimensions >= 1. *)
Example C39_built_ex : exists m, brz_built m /\ br_dims m = mkCyc 4 4 1 /\ la_dim (bz_lat (br_bz m)) = 2%nat.
Proof.
  destruct skew_lattice as (l & z & Hl & Hz & _). exists (br_make z (mkCyc 4 4 1)). split; [|split; [reflexivity|]].
  - exists 2%nat, skew_units, l, z, (mkCyc 4 4 1). repeat split; try assumption; cbn [cy_d0 cy_d1 cy_d2]; lia.
  - cbn [br_make br_bz]. destruct (bz_det l z Hz) as (_ & _ & ->). destruct (la_make_inv _ _ _ Hl) as [_ ->]. reflexivity.
Qed.

(** adding integer multiples of the reciprocal lattice vectors (rows of K) *)
Theorem C39_interpolation_periodic :
  forall m f k n0 n1 n2, brz_built m ->
    br_eval m f (vadd k (mvec (transpose (bz_K (br_bz m))) (V3 (IZR n0) (IZR n1) (IZR n2)))) = br_eval m f k.
Proof. exact thm_br_periodic. Qed.
Print Assumptions C39_interpolation_periodic.

(** exact on mesh points, when the mesh has one point in each direction outside of the lattice *)
Theorem C39_interpolation_exact_on_mesh :
  forall m f i, brz_built m ->
    (1 <= la_dim (bz_lat (br_bz m)) <= 3)%nat ->
    ((la_dim (bz_lat (br_bz m)) < 2)%nat -> cy_d1 (br_dims m) = 1%Z) ->
    ((la_dim (bz_lat (br_bz m)) < 3)%nat -> cy_d2 (br_dims m) = 1%Z) ->
    cy_valid (br_dims m) i = true -> br_eval m f (br_value m i) = f i.
Proof. exact (fun m f i Hm Hd D1 D2 Hv => thm_br_mesh m f i Hm Hv (thin_keep m i (proj2 Hd) (proj1 Hd) D1 D2 Hv)). Qed.
Print Assumptions C39_interpolation_exact_on_mesh.
(** without that condition different mesh points have the same momentum *)
Theorem C39_mesh_points_distinct_refuted :
  exists m i i', brz_built m /\ cy_valid (br_dims m) i = true /\ cy_valid (br_dims m) i' = true /\
    i <> i' /\ br_value m i = br_value m i'.
Proof. exact cex_br_flat. Qed.
Print Assumptions C39_mesh_points_distinct_refuted.

(** the interpolation is an average of stored values *)
Theorem C39_interpolation_weights :
  forall m k, brz_built m -> exists ws : list (R * idx),
    (forall f, br_eval m f k = wsum ws f) /\
    Forall (fun wi => 0 <= fst wi /\ cy_valid (br_dims m) (snd wi) = true) ws /\
    wsum ws (fun _ => 1) = 1.
Proof. exact thm_br_weights. Qed.
Print Assumptions C39_interpolation_weights.

(** C59: closest mesh point *)
Theorem C59_closest_point_in_mesh :
  forall m k, brz_built m -> exists i, br_closest m k = Some i /\ cy_valid (br_dims m) i = true.
Proof. exact thm_br_closest_valid. Qed.
Print Assumptions C59_closest_point_in_mesh.
Theorem C59_closest_point_of_mesh_point :
  forall m i, brz_built m -> cy_valid (br_dims m) i = true ->
    keep (la_dim (bz_lat (br_bz m))) (vec_of i) = vec_of i -> br_closest m (br_value m i) = Some i.
Proof. exact thm_br_closest_mesh. Qed.
Print Assumptions C59_closest_point_of_mesh_point.
(** [img m c] is the point with integer coordinates c in the mesh basis, [dist m k c] its
    distance to k, [fold_tri m c] its index in the mesh: the result is the index of the
    closest of all these points when the mesh vectors are orthogonal ... *)
Theorem C59_closest_point_is_nearest_orthogonal_partial :
  forall m k, brz_built m -> orthogonal (br_units m) ->
    exists c i, br_closest m k = Some i /\ i = fold_tri m c /\ forall c', dist m k c <= dist m k c'.
Proof. exact thm_br_closest_orth. Qed.
Print Assumptions C59_closest_point_is_nearest_orthogonal_partial.
(** ... but not in general: a point of the mesh can be strictly closer than every image of the
    returned one *)
Theorem C59_closest_point_is_nearest_refuted :
  exists m k i, brz_built m /\ br_closest m k = Some i /\
    exists c', forall c, fold_tri m c = i -> dist m k c' < dist m k c.
Proof. exact cex_br_closest. Qed.
Print Assumptions C59_closest_point_is_nearest_refuted.

(** C55: lattice and real coordinates; [keep d] sets the coordinates outside of a
    d-dimensional lattice to zero *)
Theorem C55_lattice_coordinates_round_trip :
  forall d u l x, la_make d u = Ok l ->
    la_to_lattice l (la_to_real l x) = keep d x /\ la_to_real l (la_to_lattice l x) = keep d x.
Proof. exact thm_la_round. Qed.
Print Assumptions C55_lattice_coordinates_round_trip.
Theorem C55_lattice_to_real_is_combination_of_units :
  forall d u l x, la_make d u = Ok l -> la_to_real l x =
    vadd (vscal (vx (keep d x)) (r0 (la_units l))) (vadd (vscal (vy (keep d x)) (r1 (la_units l))) (vscal (vz (keep d x)) (r2 (la_units l)))).
Proof. exact la_to_real_coord. Qed.
Print Assumptions C55_lattice_to_real_is_combination_of_units.
Theorem C55_completed_basis_independent :
  forall d u l, la_make d u = Ok l -> det (la_units l) <> 0.
Proof. exact la_det. Qed.
Print Assumptions C55_completed_basis_independent.
Theorem C55_reciprocal_vectors_dual :
  forall l z i j, bz_make l = Ok z -> (i < 3)%nat -> (j < 3)%nat ->
    dot (row (bz_K z) i) (row (la_units l) j) = if Nat.eqb i j then 2 * PI else 0.
Proof. exact thm_bz_dual. Qed.
Print Assumptions C55_reciprocal_vectors_dual.
Theorem C55_reciprocal_coordinates_round_trip :
  forall d u l z k, la_make d u = Ok l -> bz_make l = Ok z ->
    bz_to_lattice z (bz_to_real z k) = keep d k /\ bz_to_real z (bz_to_lattice z k) = keep d k.
Proof. exact thm_bz_round. Qed.
Print Assumptions C55_reciprocal_coordinates_round_trip.
Example C55_lattice_ex : exists l z, la_make 2 skew_units = Ok l /\ bz_make l = Ok z.
Proof. destruct skew_lattice as (l & z & Hl & Hz & _). eauto. Qed.
(** a zero vector is not rejected in one dimension *)
Theorem C55_zero_unit_vector_rejected_refuted :
  la_make 1 (M3 (V3 0 0 0) (V3 0 0 0) (V3 0 0 0)) = UB.
Proof. exact cex_la_zero. Qed.
Print Assumptions C55_zero_unit_vector_rejected_refuted.

(** C55: successive calls of next() after reset(x) return P_0(x), P_1(x), ... *)
Theorem C55_legendre_generator :
  forall x P k, bonnet x P -> lg_calls k (lg_reset x) = map P (seq 0 k).
Proof. exact thm_lg. Qed.
Print Assumptions C55_legendre_generator.
Example C55_legendre_ex : forall x, exists P, bonnet x P.
Proof. intros x. eexists. apply bonnet_ex. Qed.
Theorem C55_legendre_generator_at_one_and_parity :
  (forall k, lg_calls k (lg_reset 1) = repeat 1 k) /\
  (forall x k i, nth_error (lg_calls k (lg_reset (- x))) i = option_map (fun v => (-1) ^ i * v) (nth_error (lg_calls k (lg_reset x)) i)).
Proof. exact thm_lg_values. Qed.
Print Assumptions C55_legendre_generator_at_one_and_parity.
(** tail coefficients t_l^(p) *)
Theorem C55_legendre_tail_coefficients :
  forall l p, (0 <= l)%Z -> (1 <= p)%Z ->
    legendre_t l p = if Z.odd (l + p) && (p <=? l + 1)%Z
      then powm1 p * 2 * sqrt (IZR (2 * l + 1)) * (zfact (l + p - 1) / (zfact (p - 1) * zfact (l - p + 1))) else 0.
Proof. exact thm_legendre_t. Qed.
Print Assumptions C55_legendre_tail_coefficients.
