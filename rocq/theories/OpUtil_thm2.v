(** Proofs: spin and orbital angular momentum, Kanamori for two spins. *)
From Coq Require Import ZArith String List Bool Reals Lia Lra Setoid Morphisms Ring.
From Coquelicot Require Import Complex.
From Verif Require Import Base Indices Scalar Fock OpModel OpExpr Op_proofs RealAtom UMatrix OpUtil OpUtilSpec OpAlg OpBody
  OpUtil_base OpUtil_ham OpUtil_phys OpAng UMatrix_proofs UMatrix_inv OpUtil_L OpUtil_rot OpUtil_inv OpUtil_thms.
Import ListNotations.

Section Ext.
  Infix "==" := (eqv CS) (at level 70).
  Notation L := CS_laws.
  Lemma angular_m (J J' : component -> oper) : (forall c, J c == J' c) -> angular_momentum J' -> angular_momentum J.
  Proof.
    intros E (H1 & H2 & H3 & H4 & H5 & H6 & H7 & H8). unfold angular_momentum, hermitian in *. change same_op with (eqv CS) in *. change bracket_op with (comm CS) in *. unfold times in *.
    pose proof (E CX) as EX. pose proof (E CY) as EY. pose proof (E CZ) as EZ. pose proof (E CP) as EP. pose proof (E CM) as EM.
    split; [rewrite EX, EY, EZ; exact H1|]. split; [rewrite EX, EY, EZ; exact H2|]. split; [rewrite EX, EY, EZ; exact H3|].
    split; [rewrite EX, EY, EP; exact H4|]. split; [rewrite EX, EY, EM; exact H5|].
    split; [rewrite EX; exact H6|]. split; [rewrite EY; exact H7|rewrite EZ; exact H8].
  Qed.
  Lemma square_m z z' p p' m m' : z == z' -> p == p' -> m == m' -> square z p m == square z' p' m'.
  Proof. intros Hz Hp Hm. unfold square. rewrite Hz, Hp, Hm. reflexivity. Qed.
  Lemma sum_squares_m (J J' : component -> oper) : (forall c, J c == J' c) -> sum_of_squares J == sum_of_squares J'.
  Proof. intros E. unfold sum_of_squares. rewrite (E CX), (E CY), (E CZ). reflexivity. Qed.
End Ext.

Section Two.
  Add Ring KringW : (sl_ring CS CS_laws).
  Local Open Scope K_scope.
  Notation L := CS_laws.
  Infix "==" := (eqv CS) (at level 70).
  Notation cf := (cf CS).
  Notation Sm := (Sm CS).
  Local Instance cf_mW : Proper (eqv CS ==> eq ==> eq) (OpAlg.cf CS) := cf_m CS L.
  Context (off : option bool) (mp : option dict) (up dn : string) (n : nat) (lab : string -> nat -> indices).
  Hypothesis HL : labelled off mp [up; dn] n lab.
  Notation ks := (ks [up; dn] n). Notation mk2 := (mk2 lab).
  Notation obk := (ob CS mk2 ks). Notation qk := (quart CS mk2 ks). Notation q4k := (q4 CS mk2).
  Notation tau := (tau up).
  Lemma HD2 : distinct_labels lab [up; dn] n. Proof. apply HL. Qed.

  Lemma tau_matrix c s s' : In s [up; dn] -> In s' [up; dn] -> tau c s s' = (spin_matrix up dn c s s' : CS).
  Proof.
    pose proof (up_dn off mp up dn n lab HL) as Hne.
    assert (String.eqb up dn = false) as E1 by (destruct (String.eqb_spec up dn); [contradiction|reflexivity]).
    assert (String.eqb dn up = false) as E2 by (destruct (String.eqb_spec dn up); [congruence|reflexivity]).
    intros [<-|[<-|[]]] [<-|[<-|[]]]; unfold OpUtil_ham.tau; rewrite ?(si_up up), ?(si_dn off mp up dn n lab HL);
      unfold spin_matrix; rewrite ?String.eqb_refl, ?E1, ?E2; destruct c; cbn [pm pauli andb orb]; apply injective_projections; cbn; field.
  Qed.
  Lemma spin_ext (x x' : string -> string -> CS) : (forall s s', In s [up; dn] -> In s' [up; dn] -> x s s' = x' s s') -> obk (spin_y x) == obk (spin_y x').
  Proof.
    intros H. apply (ob_ext CS L). intros p q Hp Hq. apply (ks_in [up; dn] n) in Hp, Hq. unfold spin_y. destruct (Nat.eqb (snd p) (snd q)); [|reflexivity]. apply H; tauto.
  Qed.
  Definition SJ (c : component) : oper := obk (spin_y (tau c)).
  Ltac two := intros s s' [<-|[<-|[]]] [<-|[<-|[]]]; rewrite ?(Sm_cons CS), ?(Sm_nil CS); unfold OpUtil_ham.tau; rewrite ?(si_up up), ?(si_dn off mp up dn n lab HL); cbn [pm pauli];
     apply injective_projections; cbn; field.
  Lemma S_zp : comm CS (SJ CZ) (SJ CP) == SJ CP.
  Proof. unfold SJ. rewrite (comm_spin_spin [up; dn] n lab HD2). apply spin_ext. two. Qed.
  Lemma ob_muls y x : EMulS (obk y) x == obk (fun p q => y p q * x).
  Proof.
    apply (cf_eqv CS L). intros m. rewrite (cf_muls CS L), !(cf_ob CS L), <- (Sm_mul_r CS L). apply Sm_ext. intros p _. rewrite <- (Sm_mul_r CS L). apply Sm_ext. intros. ring.
  Qed.
  Lemma ob_add y z : EAdd (obk y) (obk z) == obk (fun p q => y p q + z p q).
  Proof.
    apply (cf_eqv CS L). intros m. rewrite (cf_add CS L), !(cf_ob CS L), <- (Sm_add CS L). apply Sm_ext. intros p _. rewrite <- (Sm_add CS L). apply Sm_ext. intros. ring.
  Qed.
  Lemma spin_muls x c : EMulS (obk (spin_y x)) c == obk (spin_y (fun s s' => x s s' * c)).
  Proof. rewrite ob_muls. apply (ob_ext CS L). intros p q _ _. unfold spin_y. destruct (Nat.eqb _ _); ring. Qed.
  Lemma spin_add x x' : EAdd (obk (spin_y x)) (obk (spin_y x')) == obk (spin_y (fun s s' => x s s' + x' s s')).
  Proof. rewrite ob_add. apply (ob_ext CS L). intros p q _ _. unfold spin_y. destruct (Nat.eqb _ _); ring. Qed.
  Lemma S_zm : comm CS (SJ CZ) (SJ CM) == EMulS (SJ CM) (- k1).
  Proof. unfold SJ. rewrite (comm_spin_spin [up; dn] n lab HD2), spin_muls. apply spin_ext. two. Qed.
  Lemma S_pm : comm CS (SJ CP) (SJ CM) == EMulS (SJ CZ) (RtoC 2 : CS).
  Proof. unfold SJ. rewrite (comm_spin_spin [up; dn] n lab HD2), spin_muls. apply spin_ext. two. Qed.
  Lemma S_x : SJ CX == EMulS (EAdd (SJ CP) (SJ CM)) (half : CS).
  Proof. unfold SJ. rewrite spin_add, spin_muls. apply spin_ext. two. Qed.
  Lemma S_y : SJ CY == EMulS (ESub (SJ CP) (SJ CM)) (Copp (Cmult half Ci) : CS).
  Proof. unfold SJ. rewrite (sub_add CS L), spin_muls, spin_add, spin_muls. apply spin_ext. two. Qed.
  Lemma S_zd : hermitian (SJ CZ).
  Proof.
    apply hermitian_ob. intros p q Hp Hq. apply (ks_in [up; dn] n) in Hp, Hq. unfold spin_y. rewrite (Nat.eqb_sym (snd q)). destruct (Nat.eqb _ _); [|apply (kconj_0 CS L)].
    destruct Hp as [[<-|[<-|[]]] _], Hq as [[<-|[<-|[]]] _]; unfold OpUtil_ham.tau; rewrite ?(si_up up), ?(si_dn off mp up dn n lab HL); cbn [pm pauli]; apply injective_projections; cbn; field.
  Qed.
  Lemma S_pd : EDag (SJ CP) == SJ CM.
  Proof.
    unfold SJ. rewrite (dag_ob CS L). apply (ob_ext CS L). intros p q Hp Hq. apply (ks_in [up; dn] n) in Hp, Hq. unfold spin_y. rewrite (Nat.eqb_sym (snd q)). destruct (Nat.eqb _ _); [|apply (kconj_0 CS L)].
    destruct Hp as [[<-|[<-|[]]] _], Hq as [[<-|[<-|[]]] _]; unfold OpUtil_ham.tau; rewrite ?(si_up up), ?(si_dn off mp up dn n lab HL); cbn [pm pauli]; apply injective_projections; cbn; field.
  Qed.
  Lemma SJ_ang : angular_momentum SJ.
  Proof. apply ang_relations; [apply S_zp|apply S_zm|apply S_pm|apply S_x|apply S_y|apply S_zd|apply S_pd]. Qed.
  Lemma S_ops : exists J, (forall c, S_op c [up; dn] n off mp = Ok (J c)) /\ (forall c, J c == SJ c).
  Proof.
    destruct (S_op_ok off mp up dn n lab HL CX) as (x & Ex & Hx), (S_op_ok off mp up dn n lab HL CY) as (y & Ey & Hy), (S_op_ok off mp up dn n lab HL CZ) as (z & Ez & Hz),
      (S_op_ok off mp up dn n lab HL CP) as (p & Ep & Hp), (S_op_ok off mp up dn n lab HL CM) as (m & Em & Hm).
    exists (fun c => match c with CX => x | CY => y | CZ => z | CP => p | CM => m end). split; intros []; assumption.
  Qed.
  Lemma spin_operator_ob x : spin_operator lab [up; dn] n x == obk (spin_y x).
  Proof.
    apply (cf_eqv CS L). intros m. rewrite (cf_spin_y [up; dn] n lab). unfold spin_operator. rewrite cf_osum.
    transitivity (Sm [up; dn] (fun s => Sm (seq 0 n) (fun i => Sm [up; dn] (fun s' => cf (EMul (ECdag (lab s i)) (EC (lab s' i))) m * (x s s' : CS))))).
    - rewrite (Sm_swap CS L). apply Sm_ext. intros i _. rewrite cf_osum. apply Sm_ext. intros s _. rewrite cf_osum. apply Sm_ext. intros s' _. apply cf_times.
    - apply Sm_ext. intros s _. rewrite (Sm_swap CS L). reflexivity.
  Qed.
  Lemma thm_spin : exists J, (forall c, S_op c [up; dn] n off mp = Ok (J c)) /\
    (forall c, same_op (J c) (spin_operator lab [up; dn] n (spin_matrix up dn c))) /\ angular_momentum J /\
    exists S2, S2_op [up; dn] n off mp = Ok S2 /\ same_op S2 (sum_of_squares J) /\ forall c, commute S2 (J c).
  Proof.
    destruct S_ops as (J & EJ & HJ). exists J. split; [exact EJ|]. split; [|split; [apply (angular_m _ _ HJ); apply SJ_ang|]].
    - intros c. change same_op with (eqv CS). rewrite HJ, spin_operator_ob. apply spin_ext. intros. apply tau_matrix; assumption.
    - exists (square (J CZ) (J CP) (J CM)). split; [unfold S2_op; rewrite !EJ; reflexivity|].
      assert (Eq : square (J CZ) (J CP) (J CM) == square (SJ CZ) (SJ CP) (SJ CM)) by (apply square_m; apply HJ). split.
      + change same_op with (eqv CS). rewrite Eq, (sum_squares_m _ _ HJ). apply square_formula; [apply S_x|apply S_y].
      + intros c. apply (commute_m _ _ _ _ Eq (HJ c)). apply square_commutes; [apply S_zp|apply S_zm|apply S_pm|apply S_x|apply S_y].
  Qed.

  (** ---- Slater and Kanamori do not depend on the spin axis ---- *)
  Lemma slater_spin_free U cpx H : accepted cpx U n -> h_int_slater [up; dn] n U off mp cpx = Ok H ->
    forall c X, S_op c [up; dn] n off mp = Ok X -> commute H X.
  Proof.
    intros HA E c X EX. destruct (slater_ok off mp [up; dn] n lab HL U cpx HA) as (H' & E' & EH). rewrite E in E'. injection E' as <-.
    destruct (S_op_ok off mp up dn n lab HL c) as (X' & E' & HX). rewrite EX in E'. injection E' as <-.
    apply commute_sym. apply (commute_m _ _ _ _ HX EH). apply (commute_slater_spin [up; dn] n lab HD2).
  Qed.
  Lemma built_sz H X : built off mp [up; dn] n H -> S_op CZ [up; dn] n off mp = Ok X -> commute H X.
  Proof.
    intros HB EX. destruct (S_op_ok off mp up dn n lab HL CZ) as (X' & E' & HX). rewrite EX in E'. injection E' as <-.
    apply commute_sym. apply (commute_m _ (obk (spin_y (spin_diag (fun s => if String.eqb s up then (half : CS) else - (half : CS))))) _ H); [|reflexivity|apply (built_diag off mp [up; dn] n lab HL); exact HB].
    rewrite HX. apply spin_ext. pose proof (up_dn off mp up dn n lab HL) as Hne.
    assert (String.eqb up dn = false) as E1 by (destruct (String.eqb_spec up dn); [contradiction|reflexivity]).
    assert (String.eqb dn up = false) as E2 by (destruct (String.eqb_spec dn up); [congruence|reflexivity]).
    intros s s' [<-|[<-|[]]] [<-|[<-|[]]]; unfold OpUtil_ham.tau, spin_diag; rewrite ?(si_up up), ?(si_dn off mp up dn n lab HL), ?String.eqb_refl, ?E1, ?E2; cbn [pm pauli]; apply injective_projections; cbn; field.
  Qed.

  (** ---- the documented Kanamori formula ---- *)
  Lemma q4_sym p q r t m : cf (q4k q p t r) m = cf (q4k p q r t) m.
  Proof.
    unfold q4, cd, an. rewrite (cdcd CS L (mk2 q) (mk2 p)), !(mul_assoc CS L), (cc CS L (mk2 r) (mk2 t)).
    rewrite !(mul_muls_r CS L), !(mul_muls_l CS L), ?(mul_muls_r CS L), !(cf_muls CS L), !(mul_assoc CS L). ring.
  Qed.
  Lemma kanamori_formula_quart U Up J : kanamori_formula lab [up; dn] n up dn U Up J ==
    EAdd (EAdd (density_formula lab [up; dn] n U Up) (qk (flip_V J))) (qk (pair_V J)).
  Proof.
    pose proof (up_dn off mp up dn n lab HL) as Hne.
    assert (E1 : String.eqb up dn = false) by (destruct (String.eqb_spec up dn); [contradiction|reflexivity]).
    assert (E2 : String.eqb dn up = false) by (destruct (String.eqb_spec dn up); [congruence|reflexivity]).
    unfold kanamori_formula. apply (cf_eqv CS L). intros m. rewrite !(cf_add CS L). f_equal; [f_equal|].
    - rewrite cf_times, cf_osum, (Sm_filter CS L), (Sm_prod CS L), (flip_sum off mp [up; dn] n lab HL).
      rewrite !(Sm_cons CS), !(Sm_nil CS), !String.eqb_refl, E1, E2. cbn [orb].
      set (T := fun s1 s2 => Sm (seq 0 n) (fun a1 => Sm (seq 0 n) (fun a2 => if (a1 =? a2)%nat then k0 else cf (q4k (s1, a1) (s2, a2) (s1, a2) (s2, a1)) m * (Cmult half J : CS)))).
      assert (ET : T dn up = T up dn).
      { unfold T. rewrite (Sm_swap CS L). apply Sm_ext. intros a1 _. apply Sm_ext. intros a2 _. rewrite (Nat.eqb_sym a2 a1). destruct (Nat.eqb a1 a2); [reflexivity|]. rewrite q4_sym. reflexivity. }
      rewrite !(Sm_zero CS L (seq 0 n) (fun a1 => Sm (seq 0 n) (fun _ => k0))) by (intros; apply (Sm_zero CS L); reflexivity).
      fold (T up dn) (T dn up). rewrite ET. transitivity (T up dn + T up dn); [|ring].
      rewrite <- (Sm_mul_r CS L). unfold T. rewrite <- (Sm_add CS L). apply Sm_ext. intros i Hi. rewrite <- (Sm_mul_r CS L), <- (Sm_add CS L). apply Sm_ext. intros j Hj. cbn [fst snd].
      apply in_seq in Hi, Hj. destruct (Nat.eqb_spec i j) as [|Hij]; cbn [negb]; [ring|]. rewrite cf_times.
      assert (Hd : lab dn i <> lab dn j). { intros El. apply Hij. destruct HL as (_ & _ & HDx). apply (HDx dn i dn j) in El; [tauto|right; left; reflexivity|right; left; reflexivity|lia|lia]. }
      pose proof (flip_term (lab up i) (lab dn i) (lab dn j) (lab up j) k1 m Hd) as P. rewrite !(mul_muls_l CS L), (cf_muls CS L) in P.
      unfold q4, cd, an, OpUtil_base.mk2. cbn [fst snd]. rewrite <- !(mul_assoc CS L).
      match type of P with ?x * _ = ?y * _ => assert (Py : y = - x) by (transitivity (y * k1); [ring|]; rewrite <- P; ring) end. rewrite Py. cplx.
    - rewrite cf_osum, (Sm_filter CS L), (Sm_prod CS L), (pair_sum off mp [up; dn] n lab HL).
      rewrite !(Sm_cons CS), !(Sm_nil CS), !String.eqb_refl, E1, E2. cbn [orb].
      rewrite !(Sm_zero CS L (seq 0 n) (fun a1 => Sm (seq 0 n) (fun _ => k0))) by (intros; apply (Sm_zero CS L); reflexivity).
      set (T := fun s1 s2 => Sm (seq 0 n) (fun a1 => Sm (seq 0 n) (fun a2 => if (a1 =? a2)%nat then k0 else cf (q4k (s1, a1) (s2, a1) (s1, a2) (s2, a2)) m * (Cmult half J : CS)))).
      assert (ET : T dn up = T up dn).
      { unfold T. apply Sm_ext. intros a1 _. apply Sm_ext. intros a2 _. destruct (Nat.eqb a1 a2); [reflexivity|]. rewrite q4_sym. reflexivity. }
      fold (T up dn) (T dn up). rewrite ET. transitivity (T up dn + T up dn); [|ring]. unfold T. rewrite <- (Sm_add CS L). apply Sm_ext. intros i _. rewrite <- (Sm_add CS L). apply Sm_ext. intros j _. cbn [fst snd].
      destruct (Nat.eqb i j); cbn [negb]; [ring|]. rewrite cf_times. unfold q4, cd, an, OpUtil_base.mk2. cbn [fst snd]. rewrite <- !(mul_assoc CS L). cplx.
  Qed.
  Lemma thm_kanamori U Up J : exists H, h_int_kanamori [up; dn] n U Up J off mp = Ok H /\
    same_op H (EAdd (kanamori_formula lab [up; dn] n up dn U Up J) (self_term lab [up; dn] n U)).
  Proof.
    destruct (kanamori_ok off mp [up; dn] n lab HL U Up J) as (H & E & EH). exists H. split; [exact E|]. change same_op with (eqv CS). rewrite EH, kanamori_formula_quart.
    destruct (thm_density off mp [up; dn] n lab HL U Up) as (D & ED & HDn). destruct (density_ok off mp [up; dn] n lab HL U Up) as (D' & ED' & HDq). rewrite ED in ED'. injection ED' as <-.
    change same_op with (eqv CS) in HDn. rewrite <- HDq, HDn. apply (cf_eqv CS L). intros m. rewrite !(cf_add CS L). ring.
  Qed.
End Two.
