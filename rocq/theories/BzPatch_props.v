(** Property C96: the triangles and the weight of a patch of the Brillouin zone *)
From Coq Require Import Reals List Bool Arith Lia Lra.
From Verif Require Import BzPatch.
Import ListNotations.
Open Scope R_scope.

(** specification: the triangles (first corner, corner i, corner i+1) of a polygon *)
Definition corner (p : list pt) (i : nat) : pt := nth i p (0, 0).
Definition fan (p : list pt) : list (pt * pt * pt) := map (fun i => (corner p 0, corner p i, corner p (i + 1))) (seq 1 (length p - 2)).
(** the oriented area of a triangle, positive if its corners are counterclockwise *)
Definition oriented (t : pt * pt * pt) : R :=
  match t with ((xa, ya), (xb, yb), (xc, yc)) => ((xb - xa) * (yc - ya) - (yb - ya) * (xc - xa)) / 2 end.
Definition corners (t : pt * pt * pt) : list pt := match t with (a, b, c) => [a; b; c] end.
Definition sum (l : list R) : R := fold_right Rplus 0 l.
(** the oriented area of a polygon: Gauss's formula over its edges *)
Definition edges (p : list pt) : list (pt * pt) := combine p (tl p ++ [corner p 0]).
Definition gauss_area (p : list pt) : R := sum (map (fun e => fst (fst e) * snd (snd e) - fst (snd e) * snd (fst e)) (edges p)) / 2.

(** the fan, recursively *)
Fixpoint fanr (a q : pt) (l : list pt) : list (pt * pt * pt) := match l with [] => [] | x :: r => (a, q, x) :: fanr a x r end.

Lemma fanr_nth : forall l a q o, fanr a q l = map (fun i => (a, nth i (q :: l) o, nth (i + 1) (q :: l) o)) (seq 0 (length l)).
Proof.
  induction l as [|x r IH]; intros a q o; [reflexivity|]. cbn [fanr length seq map]. f_equal. rewrite (IH a x o), <- seq_shift, map_map. reflexivity.
Qed.
Lemma fan_fanr : forall a q l, fan (a :: q :: l) = fanr a q l.
Proof.
  intros a q l. rewrite (fanr_nth l a q (0, 0)). unfold fan. replace (length (a :: q :: l) - 2)%nat with (length l) by (cbn; lia).
  rewrite <- seq_shift, map_map. reflexivity.
Qed.
Lemma sum_app : forall l m, sum (l ++ m) = sum l + sum m.
Proof. induction l as [|x l IH]; intros m; [change (sum m = 0 + sum m); ring|]. cbn [app]. change (x + sum (l ++ m) = x + sum l + sum m). rewrite IH. ring. Qed.
Lemma weight_oriented : forall a b c, tri_weight a b c = Rabs (oriented (a, b, c)).
Proof. intros [xa ya] [xb yb] [xc yc]. unfold tri_weight, oriented. cbn [fst snd]. unfold Rdiv. rewrite Rabs_mult, (Rabs_pos_eq (/ 2)) by lra. ring. Qed.

Lemma loop : forall l k P a q c, (2 <= k)%nat -> fst (fold_left corner_step (combine (seq k (length l)) l) (P, (a, q, c))) =
  mkPatch (p_weight P + sum (map (fun t => Rabs (oriented t)) (fanr a q l))) (p_triangles P ++ flat_map corners (fanr a q l)) (p_weights P ++ map (fun t => Rabs (oriented t)) (fanr a q l)).
Proof.
  induction l as [|x r IH]; intros k P a q c Hk.
  - destruct P as [w t ws]. cbn. rewrite !app_nil_r, Rplus_0_r. reflexivity.
  - cbn [length seq combine fold_left]. unfold corner_step at 2. replace (1 <? k)%nat with true by (symmetry; apply Nat.ltb_lt; lia).
    rewrite IH by lia. cbn [p_weight p_triangles p_weights fanr map flat_map corners]. rewrite weight_oriented, <- !app_assoc. cbn [sum fold_right]. f_equal. unfold sum. ring.
Qed.
Lemma polygon_fan : forall P p, add_polygon P p = mkPatch (p_weight P + sum (map (fun t => Rabs (oriented t)) (fan p))) (p_triangles P ++ flat_map corners (fan p)) (p_weights P ++ map (fun t => Rabs (oriented t)) (fan p)).
Proof.
  intros P [|a [|q l]].
  - destruct P. cbn. rewrite !app_nil_r, Rplus_0_r. reflexivity.
  - destruct P. cbn. rewrite !app_nil_r, Rplus_0_r. reflexivity.
  - rewrite fan_fanr. unfold add_polygon. cbn [length seq combine fold_left]. apply (loop l 2). lia.
Qed.

(** C96: the triangles of a patch are the fans of its polygons in order, the weights are their areas, and the weight of the patch is the sum of the weights *)
Theorem C96_triangles : forall polygons,
  p_triangles (make_patch polygons) = flat_map corners (flat_map fan polygons) /\
  p_weights (make_patch polygons) = map (fun t => Rabs (oriented t)) (flat_map fan polygons) /\
  p_weight (make_patch polygons) = sum (p_weights (make_patch polygons)).
Proof.
  assert (G : forall l P, fold_left add_polygon l P = mkPatch (p_weight P + sum (map (fun t => Rabs (oriented t)) (flat_map fan l))) (p_triangles P ++ flat_map corners (flat_map fan l)) (p_weights P ++ map (fun t => Rabs (oriented t)) (flat_map fan l))).
  { induction l as [|p l IH]; intros P.
    - destruct P. cbn. rewrite !app_nil_r, Rplus_0_r. reflexivity.
    - cbn [fold_left flat_map]. rewrite IH, polygon_fan. cbn [p_weight p_triangles p_weights]. rewrite flat_map_app, map_app, sum_app, !app_assoc, Rplus_assoc. reflexivity. }
  intros polygons. unfold make_patch. rewrite G. cbn. repeat split. apply Rplus_0_l.
Qed.
Print Assumptions C96_triangles.

Lemma gauss_fan : forall l a q, sum (map (fun e : pt * pt => fst (fst e) * snd (snd e) - fst (snd e) * snd (fst e)) (combine (q :: l) (l ++ [a]))) + (fst a * snd q - fst q * snd a) = 2 * sum (map oriented (fanr a q l)).
Proof.
  induction l as [|x r IH]; intros [xa ya] [xq yq].
  - cbn. ring.
  - specialize (IH (xa, ya) x). destruct x as [xx yx]. cbn [combine app map fanr sum fold_right] in *. fold (sum (map oriented (fanr (xa, ya) (xx, yx) r))) in *. cbn [fst snd] in *. cbn [oriented]. unfold sum in *.
    rewrite Rmult_plus_distr_l, <- IH. field.
Qed.
Lemma area_fan : forall p, gauss_area p = sum (map oriented (fan p)).
Proof.
  intros [|[xa ya] [|q l]].
  - unfold gauss_area. cbn. field.
  - unfold gauss_area. cbn. field.
  - rewrite fan_fanr. pose proof (gauss_fan l (xa, ya) q) as H. unfold gauss_area, edges. change (tl ((xa, ya) :: q :: l) ++ [corner ((xa, ya) :: q :: l) 0]) with (q :: (l ++ [(xa, ya)])).
    change (combine ((xa, ya) :: q :: l) (q :: (l ++ [(xa, ya)]))) with (((xa, ya), q) :: combine (q :: l) (l ++ [(xa, ya)])).
    cbn [map]. match goal with |- sum (?x :: ?y) / 2 = _ => change (sum (x :: y)) with (x + sum y) end.
    cbn [fst snd] in H |- *. set (X := sum (map _ (combine _ _))) in *. set (Y := sum (map oriented _)) in *. lra.
Qed.
Lemma sum_sign : forall (s : R) l, s = 1 \/ s = -1 -> (forall t, In t l -> 0 <= s * oriented t) -> sum (map (fun t => Rabs (oriented t)) l) = s * sum (map oriented l) /\ 0 <= s * sum (map oriented l).
Proof.
  intros s l Hs. induction l as [|t l IH]; intros H; [cbn; lra|]. destruct IH as [I1 I2]; [intros; apply H; right; assumption|].
  pose proof (H t (or_introl eq_refl)) as Ht. cbn [map sum fold_right]. unfold sum in *. rewrite I1.
  assert (E : Rabs (oriented t) = s * oriented t) by (destruct Hs as [-> | ->]; [rewrite Rabs_pos_eq; lra|rewrite Rabs_left1; lra]). rewrite E. split; lra.
Qed.

(** C96: if the first corner sees the others in one direction of rotation (so for all convex polygons), the weight is the area of the polygon *)
Theorem C96_weight : forall p s, s = 1 \/ s = -1 -> (forall i, (0 < i)%nat -> (i + 1 < length p)%nat -> 0 <= s * oriented (corner p 0, corner p i, corner p (i + 1))) ->
  p_weight (make_patch [p]) = Rabs (gauss_area p).
Proof.
  intros p s Hs H. destruct (C96_triangles [p]) as (_ & W & ->). rewrite W. cbn [flat_map]. rewrite app_nil_r.
  destruct (sum_sign s (fan p) Hs) as [E P].
  - intros t Ht. unfold fan in Ht. apply in_map_iff in Ht. destruct Ht as (i & <- & Hi). apply in_seq in Hi. apply H; lia.
  - rewrite E, area_fan. destruct Hs as [-> | ->]; [rewrite Rabs_pos_eq; lra|rewrite Rabs_left1; lra].
Qed.
Print Assumptions C96_weight.

(** For other polygons it is not the area: 12 instead of 4, although the same polygon from another corner gives 4. *)
Theorem C96_weight_refuted : exists p, p_weight (make_patch [p]) <> Rabs (gauss_area p) /\ p_weight (make_patch [tl p ++ [corner p 0]]) = Rabs (gauss_area p).
Proof.
  exists [(4, 0); (1, 1); (0, 4); (0, 0)].
  assert (A : gauss_area [(4, 0); (1, 1); (0, 4); (0, 0)] = 4) by (unfold gauss_area; cbn; field).
  rewrite A, (Rabs_pos_eq 4) by lra. split.
  - rewrite (proj2 (proj2 (C96_triangles _))), (proj1 (proj2 (C96_triangles _))). cbn. rewrite (Rabs_left1 (((1 - 4) * (4 - 0) - (1 - 0) * (0 - 4)) / 2)), (Rabs_pos_eq (((0 - 4) * (0 - 0) - (4 - 0) * (0 - 4)) / 2)) by lra. lra.
  - rewrite (proj2 (proj2 (C96_triangles _))), (proj1 (proj2 (C96_triangles _))). cbn. rewrite (Rabs_pos_eq (((0 - 1) * (0 - 1) - (4 - 1) * (0 - 1)) / 2)), (Rabs_pos_eq (((0 - 1) * (0 - 1) - (0 - 1) * (4 - 1)) / 2)) by lra. lra.
Qed.
Print Assumptions C96_weight_refuted.

(** the unit square meets the hypotheses of C96_weight and has weight 1 *)
Example square_weight : p_weight (make_patch [[(0, 0); (1, 0); (1, 1); (0, 1)]]) = 1.
Proof.
  rewrite (C96_weight _ 1); [unfold gauss_area; cbn; rewrite Rabs_pos_eq; lra|left; reflexivity|].
  intros i H1 H2. cbn in H2. assert (i = 1 \/ i = 2)%nat as [-> | ->] by lia; cbn; lra.
Qed.
