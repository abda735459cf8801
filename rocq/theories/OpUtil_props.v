(** Properties C68 - C71: interaction Hamiltonians, observables, interaction matrices and
    operator utilities (python/triqs/operators/util). *)
From Coq Require Import ZArith NArith String List Bool Reals Lia Lra.
From Coquelicot Require Import Complex.
From Verif Require Import Base Indices Scalar Fock OpModel OpExpr ScalarInst Op_proofs RealAtom UMatrix OpUtil OpUtilSpec
  OpUtil_L OpUtil_lab OpUtil_thms OpUtil_thm2 OpUtil_thm3 UMatrix_neg OpUtil_mat OpUtil_diag OpUtil_dd OpUtil_misc.
Import ListNotations.

(** ---- C68 : interaction Hamiltonians ---- *)
Theorem C68_slater_formula off mp spins n lab U cpx : labelled off mp spins n lab -> accepted cpx U n ->
  exists H, h_int_slater spins n U off mp cpx = Ok H /\ same_op H (slater_formula lab spins n (used cpx U)).
Proof. intros HL. exact (thm_slater off mp spins n lab HL U cpx). Qed.
Print Assumptions C68_slater_formula.

Theorem C68_complex_matrix_refused off mp spins n lab (U : tensor4) a b c d : labelled off mp spins n lab -> spins <> [] ->
  (a < n)%nat -> (b < n)%nat -> (c < n)%nat -> (d < n)%nat -> (/ 10 ^ 10 < Rabs (Im (U a b c d)))%R ->
  h_int_slater spins n U off mp false = Throw.
Proof. intros HL. exact (thm_slater_refused off mp spins n lab HL U a b c d). Qed.
Print Assumptions C68_complex_matrix_refused.

(** the density-density builder adds U_ii n_i / 2 to the documented sum over different orbitals *)
Theorem C68_density_formula off mp spins n lab (U Uprime : nat -> nat -> C) : labelled off mp spins n lab ->
  exists H, h_int_density spins n U Uprime off mp = Ok H /\
    same_op H (EAdd (density_formula lab spins n U Uprime) (self_term lab spins n U)).
Proof. intros HL. exact (thm_density off mp spins n lab HL U Uprime). Qed.
Print Assumptions C68_density_formula.

Theorem C68_kanamori_formula off mp up down n lab (U Uprime : nat -> nat -> C) (J : C) : labelled off mp [up; down] n lab ->
  exists H, h_int_kanamori [up; down] n U Uprime J off mp = Ok H /\
    same_op H (EAdd (kanamori_formula lab [up; down] n up down U Uprime J) (self_term lab [up; down] n U)).
Proof. intros HL. exact (thm_kanamori off mp up down n lab HL U Uprime J). Qed.
Print Assumptions C68_kanamori_formula.

Theorem C68_hermitian off mp spins n lab H : labelled off mp spins n lab ->
  (exists (U : tensor4) cpx, accepted cpx U n /\ h_int_slater spins n U off mp cpx = Ok H /\
     forall i j k l, (i < n)%nat -> (j < n)%nat -> (k < n)%nat -> (l < n)%nat -> Cconj (U k l i j) = U i j k l) \/
  (exists U Uprime : nat -> nat -> R, h_int_density spins n (fun i j => RtoC (U i j)) (fun i j => RtoC (Uprime i j)) off mp = Ok H) \/
  (exists (U Uprime : nat -> nat -> R) (J : R),
     h_int_kanamori spins n (fun i j => RtoC (U i j)) (fun i j => RtoC (Uprime i j)) (RtoC J) off mp = Ok H) ->
  hermitian H.
Proof.
  intros HL [(U & cpx & HA & E & HU)|[(U & Up & E)|(U & Up & J & E)]].
  - exact (thm_hermitian_slater off mp spins n lab HL U cpx H HA E HU).
  - exact (thm_hermitian_density off mp spins n lab HL U Up H E).
  - exact (thm_hermitian_kanamori off mp spins n lab HL U Up J H E).
Qed.
Print Assumptions C68_hermitian.

Theorem C68_conserves_particle_number off mp spins n lab H N : labelled off mp spins n lab -> N_op spins n off mp = Ok N ->
  (exists (U : tensor4) cpx, accepted cpx U n /\ h_int_slater spins n U off mp cpx = Ok H) \/
  (exists U Uprime : nat -> nat -> C, h_int_density spins n U Uprime off mp = Ok H) \/
  (exists (U Uprime : nat -> nat -> C) (J : C), h_int_kanamori spins n U Uprime J off mp = Ok H) ->
  commute H N.
Proof. intros HL EN HB. exact (thm_conserves_N off mp spins n lab HL H N HB EN). Qed.
Print Assumptions C68_conserves_particle_number.

(** the Hamiltonian of the two-index Kanamori matrices and the Slater Hamiltonian of the
    four-index Kanamori matrix are the same operator *)
Theorem C68_kanamori_is_slater off mp spins n lab (U J : R) (Uprime : option R) : labelled off mp spins n lab ->
  exists HK HS,
    h_int_kanamori spins n (fun i j => RtoC (fst (kanamori_2 U J Uprime) i j)) (fun i j => RtoC (snd (kanamori_2 U J Uprime) i j)) (RtoC J) off mp = Ok HK /\
    h_int_slater spins n (kanamori_4 U J Uprime None) off mp false = Ok HS /\ same_op HK HS.
Proof. intros HL. exact (thm_kanamori_slater off mp spins n lab HL U J Uprime). Qed.
Print Assumptions C68_kanamori_is_slater.

(** the density-density Hamiltonian of the reduced matrices is the diagonal part of the Slater
    Hamiltonian *)
Theorem C68_density_is_diagonal_slater off mp spins n lab (U : tensor4) H a : labelled off mp spins n lab -> accepted false U n ->
  h_int_slater spins n U off mp false = Ok H -> eval H = Some a ->
  exists HD, h_int_density spins n (fun i j => RtoC (fst (reduce_4index U) i j)) (fun i j => RtoC (snd (reduce_4index U) i j)) off mp = Ok HD /\
    same_op (diagonal_part a) HD.
Proof. intros HL. exact (thm_diag_slater off mp spins n lab HL U H a). Qed.
Print Assumptions C68_density_is_diagonal_slater.

(** the labels of the two naming schemes are different for different orbitals, and are the
    labels of the block structure *)
Theorem C68_labels spins n (off_diag : bool) : NoDup spins ->
  exists lab, labelled (Some off_diag) None spins n lab /\
    forall i, In i (structure_labels (set_operator_structure spins n off_diag)) <-> exists s a, In s spins /\ (a < n)%nat /\ i = lab s a.
Proof.
  intros HN. destruct off_diag.
  - exists lab_block. split; [apply labelled_block; exact HN|apply structure_block].
  - exists lab_scalar. split; [apply labelled_scalar; exact HN|apply structure_scalar].
Qed.
Print Assumptions C68_labels.

Theorem C68_labels_of_a_map off d spins n lab : NoDup spins ->
  (forall s a, In s spins -> (a < n)%nat -> find d s a = Ok (lab s a)) ->
  (forall s a s' a', In s spins -> In s' spins -> (a < n)%nat -> (a' < n)%nat -> lab s a = lab s' a' -> s = s' /\ a = a') ->
  labelled off (Some d) spins n lab.
Proof. exact (labelled_dict off d spins n lab). Qed.
Print Assumptions C68_labels_of_a_map.
(** a map from (spin, orbital) to labels is read by its keys *)
Theorem C68_map_lookup d s a i : NoDup (map fst d) -> find d s a = Ok i <-> In (s, a, i) d.
Proof. exact (thm_find d s a i). Qed.
Print Assumptions C68_map_lookup.

Theorem C68_labels_refused off mp : get_mkind off mp = Throw <-> off = None /\ mp = None.
Proof. exact (thm_mkind_refused off mp). Qed.
Print Assumptions C68_labels_refused.

(** the hypotheses are met by the default labels *)
Example C68_example : labelled (Some true) None ["up"; "down"]%string 5 lab_block /\ labelled (Some false) None ["up"; "down"]%string 5 lab_scalar.
Proof. exact (labelled_example 5). Qed.
Example C68_example_complex : accepted true (fun _ _ _ _ => Ci) 2 /\ accepted false (kanamori_4 4 1 None None) 3 /\
  h_int_slater ["up"; "down"]%string 2 (fun _ _ _ _ => Ci) (Some true) None false = Throw.
Proof.
  split; [left; reflexivity|split].
  - right. intros. cbn. rewrite Rabs_R0. left. apply Rinv_0_lt_compat. lra.
  - apply (C68_complex_matrix_refused _ _ _ _ lab_block _ 0 0 0 0 (proj1 (labelled_example 2))); try lia; [discriminate|]. cbn. rewrite Rabs_R1. lra.
Qed.

(** ---- C69 : observables ---- *)
Theorem C69_number off mp spins n lab N : labelled off mp spins n lab -> N_op spins n off mp = Ok N ->
  same_op N (number_formula lab spins n) /\ hermitian N.
Proof. intros HL E. split; [exact (thm_number off mp spins n lab HL N E)|exact (thm_number_hermitian off mp spins n lab N HL E)]. Qed.
Print Assumptions C69_number.

Theorem C69_spin off mp up down n lab : labelled off mp [up; down] n lab ->
  exists J, (forall c, S_op c [up; down] n off mp = Ok (J c)) /\
    (forall c, same_op (J c) (spin_operator lab [up; down] n (spin_matrix up down c))) /\ angular_momentum J /\
    exists S2, S2_op [up; down] n off mp = Ok S2 /\ same_op S2 (sum_of_squares J) /\ forall c, commute S2 (J c).
Proof. intros HL. exact (thm_spin off mp up down n lab HL). Qed.
Print Assumptions C69_spin.

Theorem C69_more_than_two_spins_refused c off mp spins n lab : labelled off mp spins n lab -> (2 < length spins)%nat -> (0 < n)%nat ->
  S_op c spins n off mp = Throw.
Proof. exact (thm_three_spins c off mp spins n lab). Qed.
Print Assumptions C69_more_than_two_spins_refused.

Theorem C69_orbital_matrix off mp spins n lab c X : labelled off mp spins n lab -> (INR n <= 100000)%R -> c = CZ \/ c = CP \/ c = CM ->
  L_op c spins n off mp Spherical None = Ok X -> same_op X (orbital_operator lab spins n (orbital_matrix n c)).
Proof. exact (thm_orbital_matrix off mp spins n lab c X). Qed.
Print Assumptions C69_orbital_matrix.

Theorem C69_orbital off mp spins n lab b T : labelled off mp spins n lab -> (INR n <= 100000)%R -> good_basis n b T ->
  exists J, (forall c, L_op c spins n off mp b T = Ok (J c)) /\ angular_momentum J /\
    exists L2, L2_op spins n off mp b T = Ok L2 /\ same_op L2 (sum_of_squares J) /\ forall c, commute L2 (J c).
Proof. intros HL HS. exact (thm_orbital off mp spins n lab HL HS b T). Qed.
Print Assumptions C69_orbital.

Theorem C69_spin_orbit off mp up down n lab b T : labelled off mp [up; down] n lab -> (INR n <= 100000)%R -> good_basis n b T ->
  exists JL JS, (forall c, L_op c [up; down] n off mp b T = Ok (JL c)) /\ (forall c, S_op c [up; down] n off mp = Ok (JS c)) /\
    (forall c c', commute (JL c) (JS c')) /\
    exists X, LS_op [up; down] n off mp b T = Ok X /\ same_op X (scalar_product JL JS).
Proof. intros HL. exact (thm_LS off mp up down n lab HL b T). Qed.
Print Assumptions C69_spin_orbit.

(** the Slater Hamiltonian of a shell conserves the orbital angular momentum *)
Theorem C69_slater_rotation off mp spins n lab l radial U_int J_hund b T U cpx : labelled off mp spins n lab ->
  n = (2 * l + 1)%nat -> (INR n <= 100000)%R -> good_basis n b T -> U_matrix_slater l radial U_int J_hund b T = Ok U ->
  cpx = true \/ b = Cubic \/ (b = Spherical /\ T = None) ->
  exists H, h_int_slater spins n U off mp cpx = Ok H /\ hermitian H /\ forall c X, L_op c spins n off mp b T = Ok X -> commute H X.
Proof. intros HL. exact (thm_slater_rotation off mp spins n lab HL l radial U_int J_hund b T U cpx). Qed.
Print Assumptions C69_slater_rotation.

Theorem C69_slater_spin_rotation off mp up down n lab U cpx H : labelled off mp [up; down] n lab -> accepted cpx U n ->
  h_int_slater [up; down] n U off mp cpx = Ok H -> forall c X, S_op c [up; down] n off mp = Ok X -> commute H X.
Proof. intros HL. exact (slater_spin_free off mp up down n lab HL U cpx H). Qed.
Print Assumptions C69_slater_spin_rotation.

Theorem C69_kanamori_spin_rotation off mp up down n lab (U Uprime : nat -> nat -> C) J H : labelled off mp [up; down] n lab ->
  (forall a, (a < n)%nat -> U a a = RtoC 0) ->
  (forall a b, (a < n)%nat -> (b < n)%nat -> a <> b -> U a b = Cminus (Uprime a b) J) ->
  h_int_kanamori [up; down] n U Uprime J off mp = Ok H -> forall c X, S_op c [up; down] n off mp = Ok X -> commute H X.
Proof. intros HL. exact (thm_kanamori_spin off mp up down n lab HL U Uprime J H). Qed.
Print Assumptions C69_kanamori_spin_rotation.

Theorem C69_conserves_Sz off mp up down n lab H Sz : labelled off mp [up; down] n lab -> S_op CZ [up; down] n off mp = Ok Sz ->
  (exists (U : tensor4) cpx, accepted cpx U n /\ h_int_slater [up; down] n U off mp cpx = Ok H) \/
  (exists U Uprime : nat -> nat -> C, h_int_density [up; down] n U Uprime off mp = Ok H) \/
  (exists (U Uprime : nat -> nat -> C) (J : C), h_int_kanamori [up; down] n U Uprime J off mp = Ok H) ->
  commute H Sz.
Proof. intros HL ES HB. exact (built_sz off mp up down n lab HL H Sz HB ES). Qed.
Print Assumptions C69_conserves_Sz.

(** the hypotheses are met by a d shell in the cubic basis *)
Example C69_example : (INR 5 <= 100000)%R /\ good_basis 5 Cubic None /\ exists U, U_matrix_slater 2 None (Some 4%R) (Some 1%R) Cubic None = Ok U.
Proof. split; [cbn; lra|]. split; [right; left; reflexivity|]. eexists. reflexivity. Qed.

(** ---- C70 : interaction matrices ---- *)
Theorem C70_symmetries l radial U_int J_hund b T U : U_matrix_slater l radial U_int J_hund b T = Ok U ->
  (forall i j k m, U i j k m = U j i m k) /\ (forall i j k m, Cconj (U k m i j) = U i j k m).
Proof. exact (matrix_symmetries l radial U_int J_hund b T U). Qed.
Print Assumptions C70_symmetries.

Theorem C70_real l radial U_int J_hund b T U : U_matrix_slater l radial U_int J_hund b T = Ok U ->
  (b = Cubic /\ (0 < l)%nat) \/ (b = Spherical /\ T = None) ->
  forall i j k m, (i < 2 * l + 1)%nat -> (j < 2 * l + 1)%nat -> (k < 2 * l + 1)%nat -> (m < 2 * l + 1)%nat -> Im (U i j k m) = 0%R.
Proof. exact (matrix_real l radial U_int J_hund b T U). Qed.
Print Assumptions C70_real.

Theorem C70_conserves_m l radial U_int J_hund U : U_matrix_slater l radial U_int J_hund Spherical None = Ok U ->
  forall i j k m, (i + j <> k + m)%nat -> U i j k m = RtoC 0.
Proof. exact (matrix_conserves l radial U_int J_hund U). Qed.
Print Assumptions C70_conserves_m.

Theorem C70_mean_is_U l radial U_int J_hund b T U : U_matrix_slater l radial U_int J_hund b T = Ok U -> good_basis (2 * l + 1) b T ->
  exists F0, match radial with Some F => F0 = nth 0 F 0%R | None => U_int = Some F0 end /\
    csum_n (2 * l + 1) (fun i => csum_n (2 * l + 1) (fun j => U i j i j)) = RtoC (INR ((2 * l + 1) ^ 2) * F0).
Proof. exact (mean_U l radial U_int J_hund b T U). Qed.
Print Assumptions C70_mean_is_U.

Theorem C70_U_J_round_trip l U J F : U_J_to_radial_integrals l U J = Ok F -> radial_integrals_to_U_J l F = Ok (U, J).
Proof. exact (U_J_round l U J F). Qed.
Print Assumptions C70_U_J_round_trip.

Theorem C70_cubic_harmonics_unitary l c T : (0 < l)%nat -> spherical_to_cubic l c = Ok T -> unitary (2 * l + 1) T.
Proof. exact (cubic_unitary l c T). Qed.
Print Assumptions C70_cubic_harmonics_unitary.

(** for an s shell the matrix is zero *)
Theorem C70_cubic_harmonics_unitary_s_shell_refuted c : exists T, spherical_to_cubic 0 c = Ok T /\ ~ unitary 1 T.
Proof. exact (thm_cubic_l0 c). Qed.
Print Assumptions C70_cubic_harmonics_unitary_s_shell_refuted.

Theorem C70_reduced_kanamori U J Uprime Jc i j :
  fst (reduce_4index (kanamori_4 U J Uprime Jc)) i j = fst (kanamori_2 U J Uprime) i j /\
  snd (reduce_4index (kanamori_4 U J Uprime Jc)) i j = snd (kanamori_2 U J Uprime) i j.
Proof. exact (thm_reduce_kanamori U J Uprime Jc i j). Qed.
Print Assumptions C70_reduced_kanamori.

Theorem C70_reduced_symmetric (U : tensor4) : (forall i j k l, U i j k l = U j i l k) ->
  forall i j, fst (reduce_4index U) i j = fst (reduce_4index U) j i /\ snd (reduce_4index U) i j = snd (reduce_4index U) j i /\
    fst (reduce_4index U) i i = 0%R.
Proof. exact (thm_reduce_symmetric U). Qed.
Print Assumptions C70_reduced_symmetric.

Theorem C70_t2g_eg_names c :
  (forall x, In x t2g_names <-> In x (map (fun i => nth i (d_names c) EmptyString) (t2g_indices c))) /\
  (forall x, In x eg_names <-> In x (map (fun i => nth i (d_names c) EmptyString) (eg_indices c))).
Proof. exact (thm_t2g_eg c). Qed.
Print Assumptions C70_t2g_eg_names.

(** a harmonic has the same row, up to a phase, in all conventions, except for yz and xz in
    the wien2k convention *)
Theorem C70_named_harmonics c T0 T x : spherical_to_cubic 2 Triqs = Ok T0 -> spherical_to_cubic 2 c = Ok T -> In x (d_names Triqs) ->
  c <> Wien2k \/ (x <> "yz" /\ x <> "xz")%string ->
  exists r0 r, named_row Triqs T0 x = Some r0 /\ named_row c T x = Some r /\ same_up_to_phase r r0.
Proof. exact (thm_names c T0 T x). Qed.
Print Assumptions C70_named_harmonics.

Theorem C70_named_harmonics_wien2k_refuted T0 T : spherical_to_cubic 2 Triqs = Ok T0 -> spherical_to_cubic 2 Wien2k = Ok T ->
  (exists r r0, named_row Wien2k T "yz" = Some r /\ named_row Triqs T0 "xz" = Some r0 /\ same_up_to_phase r r0) /\
  (exists r r0, named_row Wien2k T "xz" = Some r /\ named_row Triqs T0 "yz" = Some r0 /\ same_up_to_phase r r0) /\
  (forall r r0, named_row Wien2k T "yz" = Some r -> named_row Triqs T0 "yz" = Some r0 -> ~ same_up_to_phase r r0).
Proof. exact (thm_names_wien2k T0 T). Qed.
Print Assumptions C70_named_harmonics_wien2k_refuted.

(** clebsch_gordan has the wrong sign exactly when j1-j2+m3 is even and j1-j2+(m3 mod 2) is not 0 *)
Theorem C70_clebsch_gordan_sign j1 m1 j2 m2 j3 m3 :
  clebsch_gordan j1 m1 j2 m2 j3 m3 =
  (if (Z.even (j1 - j2 + m3) && negb (j1 - j2 + m3 mod 2 =? 0)%Z)%bool then - cg_formula j1 m1 j2 m2 j3 m3 else cg_formula j1 m1 j2 m2 j3 m3)%R.
Proof. exact (thm_clebsch j1 m1 j2 m2 j3 m3). Qed.
Print Assumptions C70_clebsch_gordan_sign.

Theorem C70_clebsch_gordan_refuted : clebsch_gordan 2 0 0 0 2 0 = (-1)%R /\ cg_formula 2 0 0 0 2 0 = 1%R.
Proof. exact thm_clebsch_wrong. Qed.
Print Assumptions C70_clebsch_gordan_refuted.

Example C70_example : exists U, U_matrix_slater 3 (Some [4; 3; 2; 1]%R) None None Cubic None = Ok U /\
  csum_n 7 (fun i => csum_n 7 (fun j => U i j i j)) = RtoC 196.
Proof.
  eexists. split; [reflexivity|]. destruct (C70_mean_is_U 3 (Some [4; 3; 2; 1]%R) None None Cubic None _ eq_refl) as (F0 & E & H); [right; right; reflexivity|].
  cbn [nth] in E. subst F0. etransitivity; [exact H|]. change ((2 * 3 + 1) ^ 2)%nat with 49%nat. rewrite INR_IZR_INZ. change (Z.of_nat 49) with 49%Z. apply f_equal. lra.
Qed.

(** ---- C71 : diagonal, real and imaginary parts ---- *)
(** the matrix elements of diagonal_part(H) are those of H between equal Fock states, and zero
    otherwise *)
Theorem C71_diagonal_part (S : scalar_ops) (L : scalar_laws S) (H : expr S) a pos : modes_distinct pos (uses H) -> eval H = Some a ->
  exists d, eval (diagonal_part a) = Some d /\ forall f g, mel pos d f g = if N.eqb f g then mel pos a f f else k0.
Proof. exact (thm_diag S L H a pos). Qed.
Print Assumptions C71_diagonal_part.

Theorem C71_real_imag (H : oper) a pos f g : eval H = Some a ->
  mel pos (op_real a) f g = RtoC (Re (mel pos a f g)) /\ mel pos (op_imag a) f g = RtoC (Im (mel pos a f g)).
Proof. exact (thm_real_imag H a pos f g). Qed.
Print Assumptions C71_real_imag.

Theorem C71_make_operator_real (H : oper) a tol : eval H = Some a ->
  (make_operator_real a tol = Throw <-> exists m c, In (m, c) a /\ (tol < Rabs (Im c))%R) /\
  (forall r, make_operator_real a tol = Ok r -> r = op_real a) /\
  ((forall m c, In (m, c) a -> Im c = 0%R) -> op_real a = a).
Proof. exact (thm_make_real H a tol). Qed.
Print Assumptions C71_make_operator_real.

(** c+_0 c_1 + 3 n_0 n_1 : the diagonal part is the second term *)
Example C71_example : exists a, eval (EAdd (EMul (ECdag [LInt 0]) (EC [LInt 1])) (EMulS (EMul (EN [LInt 0]) (EN [LInt 1])) (3%Z : ZS)) : expr ZS) = Some a /\
  eval (diagonal_part a) = eval (EMulS (EMul (EN [LInt 0]) (EN [LInt 1])) (3%Z : ZS)) /\ length a = 2%nat.
Proof. eexists. split; [vm_compute; reflexivity|]. split; vm_compute; reflexivity. Qed.
Example C71_example_complex : exists a, eval (EMulS (EN [LInt 0]) (Ci : CS) : oper) = Some a /\ (forall pos f g, mel pos (op_real a) f g = RtoC (Re (mel pos a f g))).
Proof.
  destruct (Op_proofs.eval_wf CS CS_laws (EMulS (EN [LInt 0]) (Ci : CS))) as (a & E & _). exists a. split; [exact E|].
  intros pos f g. exact (proj1 (C71_real_imag _ a pos f g E)).
Qed.
