(** Properties C37, C38 (cyclic meshes) and C40 (product meshes). *)
From Coq Require Import ZArith Reals List Bool Lia Lra.
From Verif Require Import Base Mesh Mesh_proofs LinMesh LinMesh_proofs.
Import ListNotations.
Open Scope Z_scope.

(** index <-> data index of a cyclic mesh *)
Theorem C37_cyclic_index_bijection :
  forall m, 1 <= cy_d0 m -> 1 <= cy_d1 m -> 1 <= cy_d2 m ->
    (forall i, cy_valid m i = true -> 0 <= cy_data m i < cy_size m /\ cy_index m (cy_data m i) = i) /\
    (forall d, 0 <= d < cy_size m -> cy_valid m (cy_index m d) = true /\ cy_data m (cy_index m d) = d).
Proof. exact (fun m H0 H1 H2 => proj2 (cyc_mesh_ok m (conj H0 (conj H1 H2)))). Qed.
Print Assumptions C37_cyclic_index_bijection.
Example C37_index_ex : cy_data (mkCyc 2 3 4) [1; 2; 3] = 23 /\ cy_index (mkCyc 2 3 4) 23 = [1; 2; 3].
Proof. split; reflexivity. Qed.

(** valid indices are exactly the triples in the box *)
Theorem C37_cyclic_valid_indices :
  forall m a b c, cy_valid m [a; b; c] = true <-> 0 <= a < cy_d0 m /\ 0 <= b < cy_d1 m /\ 0 <= c < cy_d2 m.
Proof. exact cy_valid_iff. Qed.
Print Assumptions C37_cyclic_valid_indices.

(** index_modulo: the unique valid index that differs by multiples of the dimensions *)
Theorem C37_index_modulo_unique_representative :
  forall m a b c, 1 <= cy_d0 m -> 1 <= cy_d1 m -> 1 <= cy_d2 m ->
    cy_valid m (cy_modulo m [a; b; c]) = true /\ congruent m [a; b; c] (cy_modulo m [a; b; c]) /\
    forall r', cy_valid m r' = true -> congruent m [a; b; c] r' -> r' = cy_modulo m [a; b; c].
Proof. exact (fun m a b c H0 H1 H2 => thm_modulo m a b c (conj H0 (conj H1 H2))). Qed.
Print Assumptions C37_index_modulo_unique_representative.
Example C37_modulo_ex : cy_modulo (mkCyc 4 4 1) [-1; 9; 5] = [3; 1; 0]. Proof. reflexivity. Qed.

(** evaluation at an index: periodic, and the stored value inside the mesh *)
Theorem C37_cyclic_evaluation :
  forall A m (f : idx -> A), 1 <= cy_d0 m -> 1 <= cy_d1 m -> 1 <= cy_d2 m ->
    (forall r r', congruent m r r' -> cy_eval m f r = cy_eval m f r') /\
    (forall r, cy_valid m r = true -> cy_eval m f r = f r).
Proof.
  exact (fun A m f H0 H1 H2 => conj (fun r r' => thm_eval_periodic A m f r r' (conj H0 (conj H1 H2)))
                                  (fun r => thm_eval_on_mesh A m f r (conj H0 (conj H1 H2)))).
Qed.
Print Assumptions C37_cyclic_evaluation.

(** lazy arithmetic on mesh points is arithmetic modulo the dimensions *)
Theorem C37_mesh_point_arithmetic :
  forall m e, 1 <= cy_d0 m -> 1 <= cy_d1 m -> 1 <= cy_d2 m -> k_len e ->
    0 <= k_data m e < cy_size m /\
    cy_index m (k_data m e) = [k_coord 0 e mod cy_d0 m; k_coord 1 e mod cy_d1 m; k_coord 2 e mod cy_d2 m].
Proof. exact (fun m e H0 H1 H2 => thm_kexpr m e (conj H0 (conj H1 H2))). Qed.
Print Assumptions C37_mesh_point_arithmetic.
Example C37_arith_ex : k_len (KSub (KPt [0; 1; 0]) (KMul 3 (KPt [1; 1; 0]))) /\
  k_data (mkCyc 4 4 1) (KSub (KPt [0; 1; 0]) (KMul 3 (KPt [1; 1; 0]))) = 6.
Proof. split; [cbn; eauto 10|reflexivity]. Qed.

(** iteration visits every mesh point once, in the order of the data index *)
Theorem C37_mesh_iteration :
  forall m, mesh_ok m ->
    Z.of_nat (length (ms_points m)) = ms_size m /\ NoDup (ms_points m) /\
    (forall i, In i (ms_points m) <-> ms_valid m i = true) /\
    (forall d i, nth_error (ms_points m) d = Some i -> ms_data m i = Z.of_nat d).
Proof. exact thm_points. Qed.
Print Assumptions C37_mesh_iteration.
Example C37_iteration_ex : mesh_ok (cyc_mesh (mkCyc 2 3 4)) /\ mesh_ok (range_mesh 7).
Proof. split; [apply cyc_mesh_ok; repeat split; cbn; lia|apply range_ok; lia]. Qed.

(** C38: meshes with the same parameters compare equal, whatever the hash functions ... *)
Theorem C38_equal_meshes_compare_equal_partial :
  forall hl hu m, cy_eqb hl hu m hu m = true.
Proof. exact thm_cy_eq_refl. Qed.
Print Assumptions C38_equal_meshes_compare_equal_partial.
(** ... but meshes of different shapes also do, whatever the hash functions: an index valid
    for one is not valid for the other ... *)
Theorem C38_equality_identifies_mesh_refuted :
  exists m m', cyc_ok m /\ cyc_ok m' /\ cy_size m = cy_size m' /\
    (forall hl hu, cy_eqb hl hu m hu m' = true) /\ m <> m' /\
    exists r, cy_valid m r = true /\ cy_valid m' r = false.
Proof. exact cex_cy_eq. Qed.
Print Assumptions C38_equality_identifies_mesh_refuted.
(** ... and with the identity hash of integers, even meshes of different size. *)
Theorem C38_equality_identifies_size_refuted :
  exists m m', cyc_ok m /\ cyc_ok m' /\ cy_size m <> cy_size m' /\
    forall hu, cy_eqb (fun z => z) hu m hu m' = true.
Proof. exact cex_cy_eq_size. Qed.
Print Assumptions C38_equality_identifies_size_refuted.

(** C40: product meshes *)
Theorem C40_product_index_bijection :
  forall ms, Forall mesh_ok ms ->
    (forall is_, pr_valid ms is_ = true ->
       Forall2 (fun m d => 0 <= d < ms_size m) ms (pr_data ms is_) /\ pr_index ms (pr_data ms is_) = is_) /\
    (forall ds, Forall2 (fun m d => 0 <= d < ms_size m) ms ds ->
       pr_valid ms (pr_index ms ds) = true /\ pr_data ms (pr_index ms ds) = ds).
Proof. exact thm_prod_index. Qed.
Print Assumptions C40_product_index_bijection.
Example C40_product_ex : Forall mesh_ok [range_mesh 5; cyc_mesh (mkCyc 2 2 1); range_mesh 3].
Proof. repeat apply Forall_cons; try apply Forall_nil; try (apply range_ok; lia). apply cyc_mesh_ok. repeat split; cbn; lia. Qed.

Theorem C40_product_iteration :
  forall ms, Forall mesh_ok ms ->
    Z.of_nat (length (pr_points ms)) = pr_size ms /\ NoDup (pr_points ms) /\
    (forall is_, In is_ (pr_points ms) <-> pr_valid ms is_ = true).
Proof. exact thm_prod_points. Qed.
Print Assumptions C40_product_iteration.

(** evaluation on a product mesh: when the evaluation on each component is a weighted sum,
    the evaluation on the product is the weighted sum over all tuples, with the product of
    the weights *)
Theorem C40_product_evaluation :
  forall I (es : list ((I -> R) -> R)) (wss : list (list (R * I))) (f : list I -> R),
    es <> [] -> Forall2 (fun e ws => forall g, e g = wsum ws g) es wss ->
    ev_tuple es f = wsum (tensor wss) f.
Proof. exact (fun I => @thm_ev_tuple I). Qed.
Print Assumptions C40_product_evaluation.
Theorem C40_product_evaluation_on_mesh_point :
  forall I (es : list ((I -> R) -> R)) (is_ : list I) (f : list I -> R),
    es <> [] -> Forall2 (fun e i => forall g, e g = g i) es is_ -> ev_tuple es f = f is_.
Proof. exact (fun I => @ev_tuple_exact I). Qed.
Print Assumptions C40_product_evaluation_on_mesh_point.
Example C40_eval_ex :
  ev_tuple [(fun g : Z -> R => 1 / 2 * g 0%Z + 1 / 2 * g 1%Z)%R; (fun g : Z -> R => g 7%Z)] (fun ij : list Z => IZR (nth 0 ij 0 * 10 + nth 1 ij 0)) = 12%R.
Proof. cbn. lra. Qed.
