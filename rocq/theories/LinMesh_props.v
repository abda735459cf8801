(** Property C36: linear meshes (imtime, refreq, retime). *)
From Coq Require Import ZArith Reals List Bool Lia Lra String.
From Verif Require Import Base Matsubara LinMesh LinMesh_proofs.
Import ListNotations.
Open Scope R_scope.

Theorem C36_linear_mesh_values :
  forall a b n, (2 <= n)%Z -> a < b ->
    let m := li_make a b n in
    li_value m 0 = a /\ li_value m (n - 1) = b /\
    (forall i, li_value m (i + 1) - li_value m i = li_delta m) /\ 0 < li_delta m /\
    (forall i, li_valid m i = true -> a <= li_value m i <= b).
Proof. exact thm_li_ends. Qed.
Print Assumptions C36_linear_mesh_values.

(** the closest mesh point is valid, within half a step, and no other point is closer *)
Theorem C36_closest_point_is_nearest :
  forall a b n, (2 <= n)%Z -> a < b -> forall x, a <= x <= b ->
    let m := li_make a b n in
    exists i, li_closest m x = Ok i /\ li_valid m i = true /\
      Rabs (x - li_value m i) <= li_delta m / 2 /\ forall j, Rabs (x - li_value m i) <= Rabs (x - li_value m j).
Proof. exact thm_li_closest. Qed.
Print Assumptions C36_closest_point_is_nearest.
Theorem C36_closest_point_of_mesh_point :
  forall a b n, (2 <= n)%Z -> a < b -> forall i,
    let m := li_make a b n in li_valid m i = true -> li_closest m (li_value m i) = Ok i.
Proof. exact thm_li_closest_mesh. Qed.
Print Assumptions C36_closest_point_of_mesh_point.

(** linear interpolation between two neighbouring mesh points bracketing x *)
Theorem C36_evaluation_interpolates :
  forall a b n, (2 <= n)%Z -> a < b -> forall f x, a <= x <= b ->
    let m := li_make a b n in
    exists i w, (0 <= i)%Z /\ (i + 1 < n)%Z /\ 0 <= w <= 1 /\
      x = (1 - w) * li_value m i + w * li_value m (i + 1) /\
      li_eval m f x = Ok ((1 - w) * f i + w * f (i + 1)%Z).
Proof. exact thm_li_eval. Qed.
Print Assumptions C36_evaluation_interpolates.
Theorem C36_evaluation_exact_on_mesh_points :
  forall a b n, (2 <= n)%Z -> a < b -> forall f i,
    let m := li_make a b n in li_valid m i = true -> li_eval m f (li_value m i) = Ok (f i).
Proof. exact thm_li_eval_mesh. Qed.
Print Assumptions C36_evaluation_exact_on_mesh_points.
Theorem C36_evaluation_exact_on_affine_functions :
  forall a b n, (2 <= n)%Z -> a < b -> forall p q x, a <= x <= b ->
    let m := li_make a b n in li_eval m (fun i => p + q * li_value m i) x = Ok (p + q * x).
Proof. exact thm_li_eval_affine. Qed.
Print Assumptions C36_evaluation_exact_on_affine_functions.
(** an imaginary-time mesh has n equidistant points from 0 to beta, ends included *)
Theorem C36_imtime_mesh_values :
  forall beta s n, (2 <= n)%Z -> 0 < beta ->
    let m := it_make beta s n in
    it_beta m = beta /\ it_stat m = s /\ li_value (it_lin m) 0 = 0 /\ li_value (it_lin m) (n - 1) = beta /\
    (forall i, li_valid (it_lin m) i = true <-> (0 <= i < n)%Z) /\
    (forall i, li_value (it_lin m) i = IZR i * (beta / (IZR n - 1))).
Proof. exact thm_it_values. Qed.
Print Assumptions C36_imtime_mesh_values.
Example C36_imtime_ex : (2 <= 10001)%Z /\ 0 < 40.
Proof. split; [discriminate|lra]. Qed.
(** outside of the interval the end values are used *)
Theorem C36_evaluation_outside :
  forall a b n, (2 <= n)%Z -> a < b -> forall f x,
    let m := li_make a b n in
    (x <= a -> li_eval m f x = Ok (f 0%Z)) /\ (b <= x -> li_eval m f x = Ok (f (n - 1)%Z)).
Proof. exact thm_li_eval_outside. Qed.
Print Assumptions C36_evaluation_outside.
Example C36_ex : (2 <= 5)%Z /\ 0 < 1 /\ li_value (li_make 0 1 5) 2 = 1 / 2 /\ li_eval (li_make 0 1 5) IZR (li_value (li_make 0 1 5) 3) = Ok 3.
Proof.
  split; [lia|]. split; [lra|]. split; [unfold li_value; cbn; lra|]. apply (thm_li_eval_mesh 0 1 5 ltac:(lia) ltac:(lra) IZR 3). reflexivity.
Qed.

Theorem C36_linear_h5_round_trip :
  (forall a b n, li_read (li_write (li_make a b n)) = li_make a b n) /\
  (forall beta s n, it_read (it_write (it_make beta s n)) = it_make beta s n).
Proof. exact (conj thm_li_h5 thm_it_h5). Qed.
Print Assumptions C36_linear_h5_round_trip.

(** with one point, or an interval of length zero, the closest-point call converts an
    infinite or NaN number to an integer, although the mesh point exists *)
Theorem C36_closest_point_always_defined_refuted :
  li_closest (li_make 0 1 1) 0 = UB /\ li_closest (li_make 1 1 5) 1 = UB /\
  li_valid (li_make 0 1 1) 0 = true /\ li_value (li_make 0 1 1) 0 = 0.
Proof. exact cex_li_degenerate. Qed.
Print Assumptions C36_closest_point_always_defined_refuted.
