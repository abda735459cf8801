(** Proofs: orbital angular momentum in any usable basis; the Slater interaction is
    rotationally invariant. *)
From Coq Require Import ZArith String List Bool Reals Lia Lra Setoid Morphisms Ring.
From Coquelicot Require Import Complex.
From Verif Require Import Base Indices Scalar Fock OpModel OpExpr Op_proofs RealAtom UMatrix OpUtil OpUtilSpec OpAlg OpBody
  OpUtil_base OpUtil_ham OpUtil_phys OpAng UMatrix_proofs UMatrix_inv OpUtil_L OpUtil_rot OpUtil_inv OpUtil_thms OpUtil_thm2.
Import ListNotations.

(** ---- the cubic harmonics form a unitary matrix ---- *)
Lemma r2 : ((1 / sqrt 2) * (1 / sqrt 2) = 1 / 2)%R.
Proof.
  assert (H : (sqrt 2 * sqrt 2 = 2)%R) by (apply sqrt_def; lra). assert (Hn : sqrt 2 <> 0%R) by (intros E; rewrite E in H; lra).
  replace (1 / 2)%R with (1 / (sqrt 2 * sqrt 2))%R by (rewrite H; reflexivity). field. exact Hn.
Qed.
Ltac cub x Hx := apply injective_projections; cbn; fold x; generalize Hx; generalize x; intros; lra.
Ltac down k := repeat (destruct k as [|k]; [|try (exfalso; lia)]).
Lemma cubic_unitary l c T : (0 < l)%nat -> spherical_to_cubic l c = Ok T -> unitary (2 * l + 1) T.
Proof.
  intros Hl E. destruct l as [|[|[|[|l]]]]; [lia| | | |discriminate E].
  all: destruct c; cbn [spherical_to_cubic] in E; try discriminate E; injection E as <-; intros j k Hj Hk; down j; down k.
  all: pose proof r2 as Hx; set (x := (1 / sqrt 2)%R) in *; cub x Hx.
Qed.
Definition unit_opt (n : nat) (T' : option (nat -> nat -> C)) : Prop := match T' with None => True | Some M => unitary n M end.
Lemma good_unit n b T : good_basis n b T -> exists T', L_basis n b T = Ok T' /\ unit_opt n T'.
Proof.
  destruct b; cbn [good_basis L_basis].
  - intros H. exists T. split; [reflexivity|]. destruct T; exact H.
  - intros [->|[->| ->]]; cbn [Nat.odd Nat.even negb Nat.sub].
    + destruct (spherical_to_cubic 1 Triqs) as [M| |] eqn:E; try discriminate E. exists (Some M). change ((3 - 1) / 2)%nat with 1%nat. split; [setoid_rewrite E; reflexivity|].
      apply (cubic_unitary 1 Triqs); [lia|exact E].
    + destruct (spherical_to_cubic 2 Triqs) as [M| |] eqn:E; try discriminate E. exists (Some M). split; [setoid_rewrite E; reflexivity|].
      apply (cubic_unitary 2 Triqs); [lia|exact E].
    + destruct (spherical_to_cubic 3 Triqs) as [M| |] eqn:E; try discriminate E. exists (Some M). split; [setoid_rewrite E; reflexivity|].
      apply (cubic_unitary 3 Triqs); [lia|exact E].
  - intros (M & -> & H). exists (Some M). split; [reflexivity|exact H].
Qed.

Section Opt.
  Add Ring KringO : (sl_ring CS CS_laws).
  Local Open Scope K_scope.
  Notation Sm := (Sm CS).
  Notation L := CS_laws.
  Context (n : nat) (T' : option (nat -> nat -> C)).
  Hypothesis HT : unit_opt n T'.
  Notation R := (rotate_opt n T').
  Lemma ro_ext M M' o o' : (o < n)%nat -> (o' < n)%nat -> (forall j k, (j < n)%nat -> (k < n)%nat -> M j k = M' j k) -> R M o o' = R M' o o'.
  Proof. clear HT. intros Ho Ho' H. destruct T' as [T|]; cbn [rotate_opt]; [apply rotate_ext; exact H|apply H; assumption]. Qed.
  Lemma ro_lin (x y : CS) (M M' : nat -> nat -> C) o o' :
    (R (fun j k => x * (M j k : CS) + y * (M' j k : CS)) o o' : CS) = x * (R M o o' : CS) + y * (R M' o o' : CS).
  Proof. clear HT. destruct T' as [T|]; cbn [rotate_opt]; [apply rotate_lin|reflexivity]. Qed.
  Lemma ro_comm (M M' : nat -> nat -> C) o o' : (o < n)%nat -> (o' < n)%nat -> mcomm n (R M) (R M') o o' = R (mcomm n M M') o o'.
  Proof. intros Ho Ho'. destruct T' as [T|]; cbn [rotate_opt]; [apply rotate_comm; assumption|reflexivity]. Qed.
  Lemma ro_dag (M : nat -> nat -> C) o o' : Cconj (R M o' o) = R (fun j k => Cconj (M k j)) o o'.
  Proof. clear HT. destruct T' as [T|]; cbn [rotate_opt]; [apply rotate_dag|reflexivity]. Qed.
  Lemma ro_inv (M : nat -> nat -> C) (U : tensor4) : invariant_under n M U ->
    invariant_under n (R M) (match T' with Some T => transform_U_matrix n U T | None => U end).
  Proof. destruct T' as [T|]; cbn [rotate_opt]; [apply transform_invariant; exact HT|exact (fun H => H)]. Qed.
End Opt.

Section Orb.
  Add Ring KringOr : (sl_ring CS CS_laws).
  Local Open Scope K_scope.
  Notation L := CS_laws.
  Infix "==" := (eqv CS) (at level 70).
  Notation cf := (cf CS).
  Notation Sm := (Sm CS).
  Local Instance cf_mOr : Proper (eqv CS ==> eq ==> eq) (OpAlg.cf CS) := cf_m CS L.
  Context (off : option bool) (mp : option dict) (spins : list string) (n : nat) (lab : string -> nat -> indices).
  Hypothesis HL : labelled off mp spins n lab.
  Notation ks := (ks spins n). Notation mk2 := (mk2 lab).
  Notation obk := (ob CS mk2 ks). Notation qk := (quart CS mk2 ks). Notation q4k := (q4 CS mk2).
  Lemma HD3 : distinct_labels lab spins n. Proof. apply HL. Qed.

  Lemma orb_ext (M M' : nat -> nat -> C) : (forall o o', (o < n)%nat -> (o' < n)%nat -> M o o' = M' o o') -> obk (orb_y M) == obk (orb_y M').
  Proof.
    intros H. apply (ob_ext CS L). intros p q Hp Hq. apply (ks_in spins n) in Hp, Hq. unfold orb_y. destruct (String.eqb _ _); [|reflexivity]. apply H; tauto.
  Qed.
  Lemma ob_muls3 y x : EMulS (obk y) x == obk (fun p q => y p q * x).
  Proof.
    apply (cf_eqv CS L). intros m. rewrite (cf_muls CS L), !(cf_ob CS L), <- (Sm_mul_r CS L). apply Sm_ext. intros p _. rewrite <- (Sm_mul_r CS L). apply Sm_ext. intros. ring.
  Qed.
  Lemma ob_add3 y z : EAdd (obk y) (obk z) == obk (fun p q => y p q + z p q).
  Proof.
    apply (cf_eqv CS L). intros m. rewrite (cf_add CS L), !(cf_ob CS L), <- (Sm_add CS L). apply Sm_ext. intros p _. rewrite <- (Sm_add CS L). apply Sm_ext. intros. ring.
  Qed.
  Lemma orb_muls (M : nat -> nat -> C) (c : CS) : EMulS (obk (orb_y M)) c == obk (orb_y (fun o o' => (M o o' : CS) * c)).
  Proof. rewrite ob_muls3. apply (ob_ext CS L). intros p q _ _. unfold orb_y. destruct (String.eqb _ _); [reflexivity|ring]. Qed.
  Lemma orb_add (M M' : nat -> nat -> C) : EAdd (obk (orb_y M)) (obk (orb_y M')) == obk (orb_y (fun o o' => (M o o' : CS) + (M' o o' : CS))).
  Proof. rewrite ob_add3. apply (ob_ext CS L). intros p q _ _. unfold orb_y. destruct (String.eqb _ _); [reflexivity|ring]. Qed.

  Context (T' : option (nat -> nat -> C)).
  Hypothesis HT : unit_opt n T'.
  Hypothesis HS : small n.
  Notation Rt := (rotate_opt n T').
  Definition LJ (c : component) : oper := obk (orb_y (Rt (L_matrix n c))).
  Lemma L_comm c c' (M : nat -> nat -> C) (x : CS) : (forall o o', (o < n)%nat -> (o' < n)%nat -> mcomm n (L_matrix n c) (L_matrix n c') o o' = x * (M o o' : CS)) ->
    comm CS (LJ c) (LJ c') == obk (orb_y (fun o o' => x * (Rt M o o' : CS))).
  Proof.
    intros H. unfold LJ. rewrite (comm_orb_orb spins n lab HD3). apply orb_ext. intros o o' Ho Ho'.
    change (mcomm n (Rt (L_matrix n c)) (Rt (L_matrix n c')) o o' = x * (Rt M o o' : CS)). rewrite (ro_comm n T' HT) by assumption.
    etransitivity; [apply (ro_ext n T' _ (fun j k => x * (M j k : CS) + k0 * (M j k : CS)) o o' Ho Ho')|].
    - intros j k Hj Hk. rewrite H by assumption. match goal with |- ?a = ?b => change (@eq (K CS) a b) end. ring.
    - etransitivity; [apply (ro_lin n T' x k0 M M o o')|]. match goal with |- ?a = ?b => change (@eq (K CS) a b) end. ring.
  Qed.
  Lemma L_zp : comm CS (LJ CZ) (LJ CP) == LJ CP.
  Proof.
    rewrite (L_comm CZ CP (L_matrix n CP) k1); [|intros; rewrite (mcomm_z_plus n HS) by assumption; match goal with |- ?a = ?b => change (@eq (K CS) a b) end; symmetry; ring].
    apply orb_ext. intros. match goal with |- ?a = ?b => change (@eq (K CS) a b) end. ring.
  Qed.
  Lemma L_zm : comm CS (LJ CZ) (LJ CM) == EMulS (LJ CM) (- k1).
  Proof.
    rewrite (L_comm CZ CM (L_matrix n CM) (- k1)); [|intros; rewrite (mcomm_z_minus n HS) by assumption; match goal with |- ?a = ?b => change (@eq (K CS) a b) end; ring].
    unfold LJ. rewrite orb_muls. apply orb_ext. intros. match goal with |- ?a = ?b => change (@eq (K CS) a b) end. ring.
  Qed.
  Lemma L_pmc : comm CS (LJ CP) (LJ CM) == EMulS (LJ CZ) (RtoC 2 : CS).
  Proof.
    rewrite (L_comm CP CM (L_matrix n CZ) (RtoC 2 : CS)); [|intros; rewrite (mcomm_plus_minus n HS) by assumption; match goal with |- ?a = ?b => change (@eq (K CS) a b) end; ring].
    unfold LJ. rewrite orb_muls. apply orb_ext. intros. match goal with |- ?a = ?b => change (@eq (K CS) a b) end. ring.
  Qed.
  Lemma L_xx : LJ CX == EMulS (EAdd (LJ CP) (LJ CM)) (half : CS).
  Proof.
    unfold LJ. rewrite orb_add, orb_muls. apply orb_ext. intros o o' Ho Ho'.
    etransitivity; [apply (ro_ext n T' _ (fun j k => (half : CS) * (L_matrix n CP j k : CS) + (half : CS) * (L_matrix n CM j k : CS)) o o' Ho Ho')|].
    - intros j k _ _. rewrite L_x. match goal with |- ?a = ?b => change (@eq (K CS) a b) end. cplx.
    - etransitivity; [apply (ro_lin n T')|]. match goal with |- ?a = ?b => change (@eq (K CS) a b) end. ring.
  Qed.
  Lemma L_yy : LJ CY == EMulS (ESub (LJ CP) (LJ CM)) (Copp (Cmult half Ci) : CS).
  Proof.
    unfold LJ. rewrite (sub_add CS L), orb_muls, orb_add, orb_muls. apply orb_ext. intros o o' Ho Ho'.
    etransitivity; [apply (ro_ext n T' _ (fun j k => (Copp (Cmult half Ci) : CS) * (L_matrix n CP j k : CS) + (Cmult half Ci : CS) * (L_matrix n CM j k : CS)) o o' Ho Ho')|].
    - intros j k _ _. rewrite L_y. match goal with |- ?a = ?b => change (@eq (K CS) a b) end. cplx.
    - etransitivity; [apply (ro_lin n T')|]. match goal with |- ?a = ?b => change (@eq (K CS) a b) end.
      generalize (Rt (L_matrix n CP) o o') (Rt (L_matrix n CM) o o'). intros a b. cplx.
  Qed.
  Lemma conj_R (x : R) : Cconj (RtoC x) = RtoC x.
  Proof. unfold Cconj, RtoC. cbn. f_equal. ring. Qed.
  Lemma L_dag_ob c c' : (forall o o', (o < n)%nat -> (o' < n)%nat -> Cconj (L_matrix n c o' o) = L_matrix n c' o o') -> EDag (LJ c) == LJ c'.
  Proof.
    intros H. unfold LJ. rewrite (dag_ob CS L). apply (ob_ext CS L). intros p q Hp Hq. apply (ks_in spins n) in Hp, Hq.
    unfold orb_y. rewrite (String.eqb_sym (fst q)). destruct (String.eqb _ _); [|apply (kconj_0 CS L)].
    change (Cconj (Rt (L_matrix n c) (snd q) (snd p)) = Rt (L_matrix n c') (snd p) (snd q)). rewrite ro_dag. apply ro_ext; [tauto|tauto|]. exact H.
  Qed.
  Lemma L_zd : hermitian (LJ CZ).
  Proof.
    apply L_dag_ob. intros o o' Ho Ho'. rewrite !(L_z n HS) by assumption. rewrite conj_R. rewrite (Nat.eqb_sym o' o). destruct (Nat.eqb_spec o o') as [->|]; reflexivity.
  Qed.
  Lemma L_pd : EDag (LJ CP) == LJ CM.
  Proof.
    apply L_dag_ob. intros o o' Ho Ho'. rewrite (L_plus n HS), (L_minus n HS) by assumption. rewrite conj_R, (Nat.eqb_sym o'). reflexivity.
  Qed.
  Lemma LJ_ang : angular_momentum LJ.
  Proof. apply ang_relations; [apply L_zp|apply L_zm|apply L_pmc|apply L_xx|apply L_yy|apply L_zd|apply L_pd]. Qed.
  Lemma L_ops b T : L_basis n b T = Ok T' -> exists J, (forall c, L_op c spins n off mp b T = Ok (J c)) /\ (forall c, J c == LJ c).
  Proof.
    intros EB. destruct (L_op_ok off mp spins n lab HL CX b T T' EB) as (x & Ex & Hx), (L_op_ok off mp spins n lab HL CY b T T' EB) as (y & Ey & Hy),
      (L_op_ok off mp spins n lab HL CZ b T T' EB) as (z & Ez & Hz), (L_op_ok off mp spins n lab HL CP b T T' EB) as (p & Ep & Hp), (L_op_ok off mp spins n lab HL CM b T T' EB) as (m & Em & Hm).
    exists (fun c => match c with CX => x | CY => y | CZ => z | CP => p | CM => m end). split; intros []; assumption.
  Qed.
  Lemma orbital_operator_ob M : orbital_operator lab spins n M == obk (orb_y M).
  Proof.
    apply (cf_eqv CS L). intros m. rewrite (cf_orb_y off mp spins n lab HL). unfold orbital_operator. rewrite cf_osum.
    apply Sm_ext. intros s _. rewrite cf_osum. apply Sm_ext. intros i _. rewrite cf_osum. apply Sm_ext. intros i' _. apply cf_times.
  Qed.
End Orb.

Section LThm.
  Notation L := CS_laws.
  Infix "==" := (eqv CS) (at level 70).
  Context (off : option bool) (mp : option dict) (spins : list string) (n : nat) (lab : string -> nat -> indices).
  Hypothesis HL : labelled off mp spins n lab.
  Hypothesis HS : small n.
  Lemma thm_orbital b T : good_basis n b T -> exists J, (forall c, L_op c spins n off mp b T = Ok (J c)) /\ angular_momentum J /\
    exists L2, L2_op spins n off mp b T = Ok L2 /\ same_op L2 (sum_of_squares J) /\ forall c, commute L2 (J c).
  Proof.
    intros HG. destruct (good_unit n b T HG) as (T' & EB & HT). destruct (L_ops off mp spins n lab HL T' b T EB) as (J & EJ & HJ). exists J. split; [exact EJ|].
    split; [apply (angular_m _ _ HJ); apply (LJ_ang off mp spins n lab HL T' HT HS)|].
    exists (square (J CZ) (J CP) (J CM)). split; [unfold L2_op; rewrite !EJ; reflexivity|].
    set (K := LJ spins n lab T') in *.
    assert (Eq : square (J CZ) (J CP) (J CM) == square (K CZ) (K CP) (K CM)) by (apply square_m; apply HJ). split.
    + change same_op with (eqv CS). rewrite Eq, (sum_squares_m _ _ HJ). apply square_formula; [apply (L_xx spins n lab T')|apply (L_yy spins n lab T')].
    + intros c. apply (commute_m _ _ _ _ Eq (HJ c)). apply square_commutes; [apply (L_zp off mp spins n lab HL T' HT HS)|apply (L_zm off mp spins n lab HL T' HT HS)|
        apply (L_pmc off mp spins n lab HL T' HT HS)|apply (L_xx spins n lab T')|apply (L_yy spins n lab T')].
  Qed.
  (** the spherical matrices *)
  Lemma thm_L_spherical c X : L_op c spins n off mp Spherical None = Ok X -> same_op X (orbital_operator lab spins n (L_matrix n c)).
  Proof.
    intros E. destruct (L_op_ok off mp spins n lab HL c Spherical None None eq_refl) as (X' & E' & HX). rewrite E in E'. injection E' as <-.
    change same_op with (eqv CS). rewrite HX. symmetry. apply (orbital_operator_ob off mp spins n lab HL).
  Qed.
  Lemma thm_slater_L l radial Ui Jh b T U cpx H : n = (2 * l + 1)%nat -> good_basis n b T -> U_matrix_slater l radial Ui Jh b T = Ok U ->
    (cpx = true \/ forall a b' c d, (a < n)%nat -> (b' < n)%nat -> (c < n)%nat -> (d < n)%nat -> snd (U a b' c d) = 0%R) ->
    h_int_slater spins n U off mp cpx = Ok H -> forall c X, L_op c spins n off mp b T = Ok X -> commute H X.
  Proof.
    intros En HG EU HR E c X EX. destruct (good_unit n b T HG) as (T' & EB & HT).
    assert (HA : accepted cpx U n).
    { destruct HR as [->|HR]; [left; reflexivity|right]. intros. rewrite HR by assumption. rewrite Rabs_R0. left. apply Rinv_0_lt_compat. apply pow_lt. lra. }
    destruct (slater_ok off mp spins n lab HL U cpx HA) as (H' & E' & EH). rewrite E in E'. injection E' as <-.
    destruct (L_op_ok off mp spins n lab HL c b T T' EB) as (X' & E' & HX). rewrite EX in E'. injection E' as <-.
    apply commute_sym. apply (commute_m _ _ _ _ HX EH). apply (commute_slater_orb spins n lab (HD3 off mp spins n lab HL)).
    assert (EU' : exists F, forall a b' c d, U a b' c d = match T' with Some M => transform_U_matrix n (slater_spherical l F) M | None => slater_spherical l F end a b' c d).
    { unfold U_matrix_slater in EU. match type of EU with bind ?m _ = _ => destruct m as [F| |]; try discriminate EU end. cbn [bind] in EU. exists F.
      destruct b; cbn [L_basis] in EB.
      - injection EB as ->. cbn [bind] in EU. destruct T' as [M|]; injection EU as <-; rewrite ?En; reflexivity.
      - rewrite En in EB. replace (Nat.odd (2 * l + 1)) with true in EB by (symmetry; rewrite Nat.odd_add, Nat.odd_mul; reflexivity).
        replace ((2 * l + 1 - 1) / 2)%nat with l in EB by (rewrite Nat.add_sub, (Nat.mul_comm 2 l), Nat.div_mul by lia; reflexivity).
        destruct (spherical_to_cubic l Triqs) as [M| |]; try discriminate EB. cbn [bind] in EB, EU. injection EB as <-. injection EU as <-. rewrite En. reflexivity.
      - destruct T as [M|]; [|discriminate EB]. injection EB as <-. injection EU as <-. rewrite En. reflexivity. }
    destruct EU' as (F & EU').
    assert (EV : forall a b' c d, (a < n)%nat -> (b' < n)%nat -> (c < n)%nat -> (d < n)%nat -> used cpx U a b' c d = match T' with Some M => transform_U_matrix n (slater_spherical l F) M | None => slater_spherical l F end a b' c d).
    { intros a b' c' d Ha Hb Hc Hd. rewrite <- EU'. unfold used. destruct cpx; [reflexivity|]. destruct HR as [HR|HR]; [discriminate|]. specialize (HR a b' c' d Ha Hb Hc Hd).
      destruct (U a b' c' d) as [u v]. cbn in *. subst v. reflexivity. }
    pose proof (inv_all l F) as HI. rewrite <- En in HI. specialize (HI HS c). apply (ro_inv n T' HT) in HI.
    intros i j k m Hi Hj Hk Hm. specialize (HI i j k m Hi Hj Hk Hm). etransitivity; [|etransitivity; [exact HI|]].
    - apply f_equal2; apply Sm_ext; intros a Ha; apply in_seq in Ha; cbv beta; rewrite !EV by lia; reflexivity.
    - apply f_equal2; apply Sm_ext; intros a Ha; apply in_seq in Ha; cbv beta; rewrite !EV by lia; reflexivity.
  Qed.
End LThm.
