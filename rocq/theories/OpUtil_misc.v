(** Proofs: real and imaginary parts of operators, refused arguments, reduced and named
    matrices, Clebsch-Gordan coefficients. *)
From Coq Require Import ZArith NArith String List Bool Reals Lia Lra Setoid Morphisms Ring Sorted.
From Coquelicot Require Import Complex.
From Verif Require Import Base Indices Scalar Fock FockFacts OpModel OpExpr OpUnique OpNormal Op_proofs RealAtom UMatrix OpUtil OpUtilSpec OpAlg OpBody OpUtil_base OpUtil_ham OpUtil_phys OpUtil_thms OpUtil_L OpUtil_lab OpUtil_thm3 OpUtil_mat OpUtil_diag OpUtil_dd.
Import ListNotations.

(** ---- real and imaginary parts ---- *)
Section Part.
  Add Ring KringPt : (sl_ring CS CS_laws).
  Local Open Scope K_scope.
  Notation L := CS_laws.
  Variable h : CS -> CS.
  Hypothesis h_add : forall x y, h (x + y) = h x + h y.
  Hypothesis h_real : forall x y, kconj y = y -> h (x * y) = h x * y.
  Lemma h_0 : h k0 = k0.
  Proof. assert (E : h k0 + h k0 = h k0) by (rewrite <- h_add; f_equal; ring). transitivity (h k0 + h k0 - h k0); [ring|rewrite E; ring]. Qed.
  Lemma part_fold pos (a t : omap CS) f g : wf a -> (forall m c, In (m, c) a -> m_find m t = None) ->
    mel pos (fold_left (fun t mc => let c := h (snd mc) in if kisz c then t else m_insert (fst mc) c t) a t) f g = mel pos t f g + h (mel pos a f g).
  Proof.
    intros [Hsa _]. revert t. induction a as [|[m c] a IH]; intros t Hf; cbn [fold_left mel].
    - rewrite h_0. ring.
    - pose proof Hsa as Hs0. inversion Hsa as [|? ? Hsa' Hla]; subst. cbn [fst snd] in *. cbv zeta.
      assert (E : h (c * mel_mono pos m f g + mel pos a f g) = h c * mel_mono pos m f g + h (mel pos a f g)).
      { rewrite h_add, h_real; [reflexivity|]. apply (mel_mono_conj pos CS L). }
      rewrite E. destruct (kisz (h c)) eqn:Ez.
      + apply (sl_isz CS L) in Ez. rewrite Ez, IH; [ring|exact Hsa'|]. intros m' c' Hin. apply (Hf m' c'). right. exact Hin.
      + rewrite IH; [|exact Hsa'|].
        * unfold m_insert. rewrite (Hf m c) by (left; reflexivity). rewrite (mel_put_new CS L pos m (h c) t f g) by (apply (Hf m c); left; reflexivity). ring.
        * intros m' c' Hin. unfold m_insert. rewrite (Hf m c) by (left; reflexivity). rewrite m_find_put.
          destruct (mcmp m' m) eqn:Ec; try (apply (Hf m' c'); right; exact Hin). exfalso. apply (oc_eq _ mcmp_ok) in Ec. subst. rewrite Forall_forall in Hla. specialize (Hla _ Hin). unfold klt in Hla. cbn [fst] in Hla. rewrite (oc_refl _ mcmp_ok) in Hla. congruence.
  Qed.
  Lemma part_mel pos (a : omap CS) f g : wf a -> mel pos (op_transform (fun _ c => h c) a) f g = h (mel pos a f g).
  Proof. intros Ha. transitivity (mel pos (@nil (monomial * CS)) f g + h (mel pos a f g)); [exact (part_fold pos a [] f g Ha (fun _ _ _ => eq_refl))|cbn [mel]; ring]. Qed.
End Part.
Lemma conj_im (y : C) : @kconj CS y = y -> snd y = 0%R.
Proof. destruct y as [a b]. intros E. injection E as E. cbn. lra. Qed.
Lemma real_mel pos (a : omap CS) f g : wf a -> mel pos (op_real a) f g = RtoC (Re (mel pos a f g)).
Proof.
  intros Ha. apply (part_mel (fun c : CS => RtoC (fst (c : C)) : CS)); [| |exact Ha].
  - intros [x x'] [y y']. apply injective_projections; cbn; ring.
  - intros [x x'] [y y'] E. apply conj_im in E. cbn in E. subst y'. apply injective_projections; cbn; ring.
Qed.
Lemma imag_mel pos (a : omap CS) f g : wf a -> mel pos (op_imag a) f g = RtoC (Im (mel pos a f g)).
Proof.
  intros Ha. apply (part_mel (fun c : CS => RtoC (snd (c : C)) : CS)); [| |exact Ha].
  - intros [x x'] [y y']. apply injective_projections; cbn; ring.
  - intros [x x'] [y y'] E. apply conj_im in E. cbn in E. subst y'. apply injective_projections; cbn; ring.
Qed.
Theorem thm_real_imag (e : oper) a pos f g : eval e = Some a ->
  mel pos (op_real a) f g = RtoC (Re (mel pos a f g)) /\ mel pos (op_imag a) f g = RtoC (Im (mel pos a f g)).
Proof. intros E. destruct (eval_wf CS CS_laws e) as (a' & E' & Ha & _). rewrite E in E'. injection E' as <-. split; [apply real_mel|apply imag_mel]; exact Ha. Qed.

Theorem thm_make_real (e : oper) a tol : eval e = Some a ->
  (make_operator_real a tol = Throw <-> exists m c, In (m, c) a /\ (tol < Rabs (Im c))%R) /\
  (forall r, make_operator_real a tol = Ok r -> r = op_real a) /\
  ((forall m c, In (m, c) a -> Im c = 0%R) -> op_real a = a).
Proof.
  intros E. destruct (eval_wf CS CS_laws e) as (a' & E' & Ha & _). rewrite E in E'. injection E' as <-. set (big := fun mc : monomial * CS => if Rlt_dec tol (Rabs (snd (snd mc : C))) then true else false). change (make_operator_real a tol) with (if existsb big a then Throw else Ok (op_real a)). split; [|split].
  - destruct (existsb big a) eqn:Ex.
    + split; [intros _|reflexivity]. apply existsb_exists in Ex. destruct Ex as ([m c] & Hin & H). exists m, c. split; [exact Hin|]. unfold big in H. cbn [snd] in H. destruct (Rlt_dec tol (Rabs (snd c))); [assumption|discriminate].
    + split; [discriminate|]. intros (m & c & Hin & H). exfalso. assert (existsb big a = true); [|congruence].
      apply existsb_exists. exists (m, c). split; [exact Hin|]. unfold big. cbn [snd]. destruct (Rlt_dec tol (Rabs (snd c))) as [|Hn]; [reflexivity|]. exfalso. apply Hn. exact H.
  - intros r. destruct (existsb big a); [discriminate|]. intros Er. injection Er as <-. reflexivity.
  - intros H. destruct (op_real_coef a Ha) as [Hw Hc]. apply (wf_coef_ext CS CS_laws); [exact Hw|exact Ha|]. intros m. rewrite Hc. unfold coef. destruct (m_find m a) as [c|] eqn:Ef; [|reflexivity].
    apply m_find_some_In in Ef. specialize (H m c Ef). destruct c as [x y]. cbn in *. subst. reflexivity.
Qed.

(** ---- reduced matrices ---- *)
Theorem thm_reduce_kanamori U J Up Jc i j :
  fst (reduce_4index (kanamori_4 U J Up Jc)) i j = fst (kanamori_2 U J Up) i j /\ snd (reduce_4index (kanamori_4 U J Up Jc)) i j = snd (kanamori_2 U J Up) i j.
Proof.
  unfold reduce_4index, kanamori_4, kanamori_2. cbn [fst snd]. destruct (Nat.eqb_spec i j) as [->|Hne]; rewrite ?Nat.eqb_refl; cbn [andb fst RtoC].
  - split; lra.
  - rewrite ?Nat.eqb_refl. destruct (Nat.eqb_spec j i); [congruence|]. cbn [andb]. split; reflexivity.
Qed.
Theorem thm_reduce_symmetric (U : tensor4) : (forall i j k l, U i j k l = U j i l k) ->
  forall i j, fst (reduce_4index U) i j = fst (reduce_4index U) j i /\ snd (reduce_4index U) i j = snd (reduce_4index U) j i /\ fst (reduce_4index U) i i = 0%R.
Proof. intros H i j. unfold reduce_4index. cbn [fst snd]. rewrite (H j i j i), (H j i i j). repeat split; lra. Qed.

(** ---- a map of labels ---- *)
Theorem thm_find d s a i : NoDup (map fst d) -> find d s a = Ok i <-> In (s, a, i) d.
Proof.
  induction d as [|[[s' a'] i'] d IH]; intros HN; cbn [find map fst In] in *; [split; [discriminate|intros []]|]. inversion HN as [|? ? N1 N2]. subst.
  destruct (String.eqb_spec s s') as [->|Hs]; cbn [andb].
  - destruct (Nat.eqb_spec a a') as [->|Ha].
    + split; [intros E; injection E as ->; left; reflexivity|]. intros [E|E]; [injection E as ->; reflexivity|]. exfalso. apply N1. change (s', a') with (fst (s', a', i)). apply in_map. exact E.
    + rewrite (IH N2). split; [intros H; right; exact H|intros [E|H]; [congruence|exact H]].
  - rewrite (IH N2). split; [intros H; right; exact H|intros [E|H]; [congruence|exact H]].
Qed.

(** ---- names ---- *)
Theorem thm_t2g_eg c :
  (forall x, In x t2g_names <-> In x (map (fun i => nth i (d_names c) EmptyString) (t2g_indices c))) /\
  (forall x, In x eg_names <-> In x (map (fun i => nth i (d_names c) EmptyString) (eg_indices c))).
Proof. destruct c; cbn; split; intros x; tauto. Qed.
Ltac phase z := exists z; split; [unfold z; try rewrite Cmod_1; try reflexivity|].
Lemma rs2_nz : (1 / sqrt 2 <> 0)%R.
Proof. intros E. pose proof r2 as H. rewrite E in H. lra. Qed.
Theorem thm_names c T0 T x : spherical_to_cubic 2 Triqs = Ok T0 -> spherical_to_cubic 2 c = Ok T -> In x (d_names Triqs) -> c <> Wien2k \/ (x <> "yz" /\ x <> "xz")%string ->
  exists r0 r, named_row Triqs T0 x = Some r0 /\ named_row c T x = Some r /\ same_up_to_phase r r0.
Proof.
  intros E0 E Hx Hc. cbn [spherical_to_cubic] in E0. injection E0 as <-.
  assert (M1 : Cmod (RtoC 1) = 1%R) by apply Cmod_1.
  assert (Mi : Cmod Ci = 1%R). { unfold Cmod, Ci. cbn. replace (0 * (0 * 1) + 1 * (1 * 1))%R with 1%R by ring. apply sqrt_1. }
  cbn in Hx. destruct Hx as [<-|[<-|[<-|[<-|[<-|[]]]]]]; destruct c; cbn [spherical_to_cubic] in E; injection E as <-; try (exfalso; destruct Hc as [Hc|Hc]; [apply Hc; reflexivity|destruct Hc; congruence]);
  (eexists; eexists; split; [reflexivity|split; [reflexivity|]]); 
  try (exists (RtoC 1); split; [exact M1|intros m Hm; down m; apply injective_projections; cbn; ring]);
  exists Ci; (split; [exact Mi|intros m Hm; down m; apply injective_projections; cbn; ring]).
Qed.
Theorem thm_names_wien2k T0 T : spherical_to_cubic 2 Triqs = Ok T0 -> spherical_to_cubic 2 Wien2k = Ok T ->
  (exists r r0, named_row Wien2k T "yz" = Some r /\ named_row Triqs T0 "xz" = Some r0 /\ same_up_to_phase r r0) /\
  (exists r r0, named_row Wien2k T "xz" = Some r /\ named_row Triqs T0 "yz" = Some r0 /\ same_up_to_phase r r0) /\
  (forall r r0, named_row Wien2k T "yz" = Some r -> named_row Triqs T0 "yz" = Some r0 -> ~ same_up_to_phase r r0).
Proof.
  intros E0 E. cbn [spherical_to_cubic] in E0, E. injection E0 as <-. injection E as <-. split; [|split].
  - eexists; eexists; split; [reflexivity|split; [reflexivity|]]. exists (RtoC 1). split; [apply Cmod_1|]. intros m Hm; down m; apply injective_projections; cbn; ring.
  - eexists; eexists; split; [reflexivity|split; [reflexivity|]]. exists (Copp Ci). split.
    + rewrite Cmod_opp. unfold Cmod, Ci. cbn. replace (0 * (0 * 1) + 1 * (1 * 1))%R with 1%R by ring. apply sqrt_1.
    + intros m Hm; down m; apply injective_projections; cbn; ring.
  - intros r r0 Er E0. injection Er as <-. injection E0 as <-. intros ([a b] & _ & H). pose proof (H 1%nat ltac:(lia)) as H1. pose proof (H 3%nat ltac:(lia)) as H3.
    apply (f_equal fst) in H1, H3. cbn in H1, H3. pose proof rs2_nz. lra.
Qed.
Theorem thm_cubic_l0 c : exists T, spherical_to_cubic 0 c = Ok T /\ ~ unitary 1 T.
Proof.
  eexists. split; [reflexivity|]. intros H. specialize (H 0%nat 0%nat ltac:(lia) ltac:(lia)). apply (f_equal fst) in H. cbn in H. lra.
Qed.

(** ---- Clebsch-Gordan coefficients ---- *)
Theorem thm_clebsch j1 m1 j2 m2 j3 m3 :
  clebsch_gordan j1 m1 j2 m2 j3 m3 = (if (Z.even (j1 - j2 + m3) && negb (j1 - j2 + m3 mod 2 =? 0)%Z)%bool then - cg_formula j1 m1 j2 m2 j3 m3 else cg_formula j1 m1 j2 m2 j3 m3)%R.
Proof.
  unfold clebsch_gordan, cg_formula, par. rewrite <- Z.negb_odd. destruct (Z.odd (j1 - j2 + m3)) eqn:Eo; cbn [negb andb].
  - destruct (Z.eqb_spec (j1 - j2 + m3 mod 2) 0) as [e|e]; cbn [negb]; [|ring]. exfalso.
    assert (Ho : Z.odd (j1 - j2 + m3 mod 2) = Z.odd (j1 - j2 + m3)).
    { rewrite !(Z.odd_add (j1 - j2)). f_equal. rewrite Zmod_odd. destruct (Z.odd m3); reflexivity. }
    rewrite e, Eo in Ho. discriminate.
  - destruct (j1 - j2 + m3 mod 2 =? 0)%Z; cbn [negb]; ring.
Qed.
Theorem thm_clebsch_wrong : clebsch_gordan 2 0 0 0 2 0 = (-1)%R /\ cg_formula 2 0 0 0 2 0 = 1%R.
Proof.
  assert (F0 : fact 0 = 1%R) by reflexivity. assert (F2 : fact 2 = 2%R) by (unfold fact; change (Factorial.fact (Z.to_nat 2)) with 2%nat; rewrite INR_IZR_INZ; reflexivity).
  assert (F4 : fact 4 = 24%R) by (unfold fact; change (Factorial.fact (Z.to_nat 4)) with 24%nat; rewrite INR_IZR_INZ; reflexivity). assert (F5 : fact 5 = 120%R) by (unfold fact; change (Factorial.fact (Z.to_nat 5)) with 120%nat; rewrite INR_IZR_INZ; reflexivity).
  assert (T : three_j 2 0 0 0 2 0 = (1 * sqrt (fact 0 * fact 4 * fact 0 / fact 5) * sqrt (fact 2 * fact 2 * fact 0 * fact 0 * fact 2 * fact 2) *
    (0 + 1 / (fact 0 * fact 2 * fact 0 * fact 0 * fact 2 * fact 0)))%R) by reflexivity.
  assert (H : cg_formula 2 0 0 0 2 0 = 1%R).
  { unfold cg_formula. change (- 0)%Z with 0%Z. rewrite T, F0, F2, F4, F5. change (par (2 - 0 + 0)) with 1%R. change (2 * 2 + 1)%Z with 5%Z.
    replace (2 * 2 * 1 * 1 * 2 * 2)%R with (4 * 4)%R by ring. rewrite sqrt_square by lra.
    replace (1 * 24 * 1 / 120)%R with (/ 5)%R by field. rewrite sqrt_inv. field. apply Rgt_not_eq. apply sqrt_lt_R0. lra. }
  split; [|exact H]. rewrite thm_clebsch. cbn [Z.even Z.sub Z.add Z.opp]. change (0 mod 2)%Z with 0%Z. cbn. rewrite H. reflexivity.
Qed.

(** ---- refused arguments ---- *)
Theorem thm_mkind_refused off mp : get_mkind off mp = Throw <-> off = None /\ mp = None.
Proof. destruct off as [[]|], mp; cbn; split; try discriminate; try (intros [? ?]; discriminate); auto. Qed.
Theorem thm_three_spins c off mp spins n lab : labelled off mp spins n lab -> (2 < length spins)%nat -> (0 < n)%nat -> S_op c spins n off mp = Throw.
Proof.
  intros ((mk & Emk & Hmk) & _) Hl Hn. unfold S_op. rewrite Emk. cbn [bind].
  assert (HB : forall n1 n2 H o, (n1 < length spins)%nat -> (n2 < length spins)%nat -> In o (seq 0 n) ->
    (fun X o => do i1 <- mk (nth n1 spins EmptyString) o ; do p <- pauli c n1 n2 ; do i2 <- mk (nth n2 spins EmptyString) o ;
      Ok (EAdd X (EMul (EMulS (EMulS (ECdag i1) (half : CS)) (p : CS)) (EC i2)))) H o =
    match pauli c n1 n2 with Ok p => Ok (EAdd H (EMul (EMulS (EMulS (ECdag (lab (nth n1 spins EmptyString) o)) (half : CS)) (p : CS)) (EC (lab (nth n2 spins EmptyString) o)))) | _ => Throw end).
  { intros n1 n2 H o H1 H2 Ho. apply in_seq in Ho. rewrite (Hmk (nth n1 spins EmptyString) o), (Hmk (nth n2 spins EmptyString) o) by (try apply nth_In; (assumption || lia)). cbn [bind].
    destruct n1 as [|[|n1]], n2 as [|[|n2]]; cbn [pauli bind]; reflexivity. }
  apply (loop_throw_in _ (0, 2)%nat).
  - unfold pairs. apply in_prod_iff. rewrite !in_seq. lia.
  - intros H. apply (loop_throw_in _ 0%nat); [apply in_seq; lia| |].
    + intros H'. pose proof (HB 0%nat 2%nat H' 0%nat ltac:(lia) ltac:(lia) ltac:(apply in_seq; lia)) as E. cbn beta in E. rewrite E. reflexivity.
    + intros H' y Hy. pose proof (HB 0%nat 2%nat H' y ltac:(lia) ltac:(lia) Hy) as E. cbn beta in E. rewrite E. right. reflexivity.
  - intros H [n1 n2] Hp. unfold pairs in Hp. apply in_prod_iff in Hp. rewrite !in_seq in Hp. apply loop_ok_throw. intros H' y Hy.
    pose proof (HB n1 n2 H' y ltac:(lia) ltac:(lia) Hy) as E. cbn beta in E. rewrite E. destruct (pauli c n1 n2); [left; eauto|right; reflexivity|right; reflexivity].
Qed.
Theorem thm_number_hermitian off mp spins n lab N : labelled off mp spins n lab -> N_op spins n off mp = Ok N -> hermitian N.
Proof.
  intros HL E. destruct (N_op_ok off mp spins n lab HL) as (N' & E' & HN). rewrite E in E'. injection E' as <-. apply (hermitian_m _ _ HN).
  unfold hermitian. change same_op with (eqv CS). rewrite (dag_ob CS CS_laws). apply (ob_ext CS CS_laws). intros p q _ _. unfold spin_y. rewrite (Nat.eqb_sym (snd q)), (String.eqb_sym (fst q)).
  destruct (Nat.eqb _ _); [destruct (String.eqb _ _)|]; [apply (kconj_1 CS CS_laws)|apply (kconj_0 CS CS_laws)|apply (kconj_0 CS CS_laws)].
Qed.

(** ---- explicit matrices of the orbital angular momentum ---- *)
Lemma labelled_example n : labelled (Some true) None ["up"; "down"]%string n lab_block /\ labelled (Some false) None ["up"; "down"]%string n lab_scalar.
Proof.
  assert (HN : NoDup ["up"; "down"]%string) by (constructor; [intros [E|[]]; discriminate|constructor; [intros []|constructor]]).
  split; [apply labelled_block|apply labelled_scalar]; exact HN.
Qed.

Lemma orbital_matrix_ok n c i j : small n -> c = CZ \/ c = CP \/ c = CM -> (i < n)%nat -> (j < n)%nat -> L_matrix n c i j = orbital_matrix n c i j.
Proof.
  intros HS Hc Hi Hj. unfold orbital_matrix. cbv zeta. destruct Hc as [->|[->| ->]].
  - rewrite (L_z n HS i j Hi Hj). destruct (Nat.eqb_spec i j) as [->|]; reflexivity.
  - rewrite (L_plus n HS i j Hi Hj). rewrite (up_sq n j Hj). unfold upc. rewrite Nat.add_1_r. reflexivity.
  - rewrite (L_minus n HS i j Hi Hj). rewrite Nat.add_1_r. destruct (Nat.eqb_spec (S i) j) as [<-|]; [|reflexivity]. unfold upc. rewrite <- (up_sq n i Hi). rewrite S_INR. do 2 f_equal. ring.
Qed.
Theorem thm_orbital_matrix off mp spins n lab c X : labelled off mp spins n lab -> (INR n <= 100000)%R -> c = CZ \/ c = CP \/ c = CM ->
  L_op c spins n off mp Spherical None = Ok X -> same_op X (orbital_operator lab spins n (orbital_matrix n c)).
Proof.
  intros HL HS Hc E. pose proof (thm_L_spherical off mp spins n lab HL c X E) as H. change (eqv CS X (orbital_operator lab spins n (orbital_matrix n c))).
  transitivity (orbital_operator lab spins n (L_matrix n c)); [exact H|]. rewrite !(orbital_operator_ob off mp spins n lab HL).
  apply orb_ext. intros o o' Ho Ho'. apply orbital_matrix_ok; assumption.
Qed.
