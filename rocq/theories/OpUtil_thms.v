(** Proofs: the interaction Hamiltonians and the observables. *)
From Coq Require Import ZArith String List Bool Reals Lia Lra Setoid Morphisms Ring.
From Coquelicot Require Import Complex.
From Verif Require Import Base Indices Scalar Fock OpModel OpExpr Op_proofs RealAtom UMatrix OpUtil OpUtilSpec OpAlg OpBody
  OpUtil_base OpUtil_ham OpUtil_phys OpAng UMatrix_proofs UMatrix_inv OpUtil_L OpUtil_rot OpUtil_inv.
Import ListNotations.

Ltac brk := repeat (cbn [andb negb];
  match goal with |- context [Nat.eqb ?x ?y] => destruct (Nat.eqb_spec x y); subst; try congruence end); cbn [andb negb].
Section Thms.
  Add Ring KringT : (sl_ring CS CS_laws).
  Local Open Scope K_scope.
  Notation L := CS_laws.
  Infix "==" := (eqv CS) (at level 70).
  Notation cf := (cf CS).
  Notation Sm := (Sm CS).
  Local Instance cf_mT : Proper (eqv CS ==> eq ==> eq) (OpAlg.cf CS) := cf_m CS L.

  Context (off : option bool) (mp : option dict) (spins : list string) (n : nat) (lab : string -> nat -> indices).
  Hypothesis HL : labelled off mp spins n lab.
  Notation ks := (ks spins n). Notation mk2 := (mk2 lab).
  Notation cdg := (cd CS mk2). Notation ann := (an CS mk2).
  Notation obk := (ob CS mk2 ks). Notation qk := (quart CS mk2 ks). Notation q4k := (q4 CS mk2).
  Notation ki := (ks_in spins n).
  Lemma HDL : distinct_labels lab spins n. Proof. apply HL. Qed.

  Lemma cf_osum {A} (l : list A) f m : cf (osum l f) m = Sm l (fun x => cf (f x) m).
  Proof. exact (cf_esum CS L l f m). Qed.
  Lemma cf_times x a m : cf (times x a) m = cf a m * (x : CS).
  Proof. apply (cf_muls CS L). Qed.

  (** ---- documented formulas ---- *)
  Lemma slater_formula_quart U : slater_formula lab spins n U == qk (slater_V U).
  Proof.
    apply (cf_eqv CS L). intros m. rewrite (slater_sum off mp spins n lab HL). unfold slater_formula. rewrite cf_osum.
    apply Sm_ext. intros s1 _. rewrite cf_osum. apply Sm_ext. intros s2 _. rewrite cf_osum. apply Sm_ext. intros a1 _. rewrite cf_osum. apply Sm_ext. intros a2 _.
    rewrite cf_osum. apply Sm_ext. intros a3 _. rewrite cf_osum. apply Sm_ext. intros a4 _. rewrite cf_times. unfold q4, cd, an, OpUtil_base.mk2. cbn [fst snd].
    rewrite !(mul_assoc CS L). reflexivity.
  Qed.
  Lemma thm_slater U cpx : accepted cpx U n ->
    exists H, h_int_slater spins n U off mp cpx = Ok H /\ same_op H (slater_formula lab spins n (used cpx U)).
  Proof.
    intros HA. destruct (slater_ok off mp spins n lab HL U cpx HA) as (H & E & EH). exists H. split; [exact E|].
    change same_op with (eqv CS). rewrite EH. symmetry. apply slater_formula_quart.
  Qed.
  Lemma loop_throw {A} (l1 : list A) x l2 body (H : op) : (forall H, body H x = Throw) -> (forall H y, In y l1 -> (exists H', body H y = Ok H') \/ body H y = Throw) ->
    loop (l1 ++ x :: l2) body H = Throw.
  Proof.
    revert H. induction l1 as [|y l1 IH]; intros H Hx Hy; cbn [app loop].
    - rewrite Hx. reflexivity.
    - destruct (Hy H y (or_introl eq_refl)) as [(H' & ->)| ->]; [|reflexivity]. cbn [bind]. apply IH; [exact Hx|]. intros. apply Hy. right. assumption.
  Qed.
  Lemma loop_ok_throw {A} (l : list A) body (H : op) : (forall H y, In y l -> (exists H', body H y = Ok H') \/ body H y = Throw) ->
    (exists H', loop l body H = Ok H') \/ loop l body H = Throw.
  Proof.
    revert H. induction l as [|y l IH]; intros H Hy; cbn [loop]; [left; eauto|].
    destruct (Hy H y (or_introl eq_refl)) as [(H' & ->)| ->]; [|right; reflexivity]. cbn [bind]. apply IH. intros. apply Hy. right. assumption.
  Qed.
  Lemma loop_throw_in {A} (l : list A) x body (H : op) : In x l -> (forall H, body H x = Throw) ->
    (forall H y, In y l -> (exists H', body H y = Ok H') \/ body H y = Throw) -> loop l body H = Throw.
  Proof.
    intros Hin Hx Hy. destruct (in_split x l Hin) as (l1 & l2 & ->). apply loop_throw; [exact Hx|]. intros. apply Hy. apply in_or_app. left. assumption.
  Qed.
  Lemma thm_slater_refused (U : tensor4) a b c d : spins <> [] -> (a < n)%nat -> (b < n)%nat -> (c < n)%nat -> (d < n)%nat ->
    (/ 10 ^ 10 < Rabs (snd (U a b c d)))%R -> h_int_slater spins n U off mp false = Throw.
  Proof.
    intros Hs Ha Hb Hc Hd HU. pose proof HL as HL0. destruct HL0 as ((mk & Emk & Hmk) & _). unfold h_int_slater. rewrite Emk. cbn [bind].
    destruct spins as [|s0 sp] eqn:Es; [contradiction|]. rewrite <- Es in *.
    assert (G : forall H s1 s2 y, In s1 spins -> In s2 spins -> In y (quads n) ->
      (exists H', (let '(a1, a2, a3, a4) := y in
        if (imag_too_large (U a1 a2 a3 a4) && negb false)%bool then Throw
        else do i1 <- mk s1 a1 ; do i2 <- mk s2 a2 ; do i4 <- mk s2 a4 ; do i3 <- mk s1 a3 ;
        Ok (EAdd H (EMul (EMul (EMul (EMulS (ECdag i1) (Cmult half (RtoC (fst (U a1 a2 a3 a4))) : CS)) (ECdag i2)) (EC i4)) (EC i3)))) = Ok H') \/
      (let '(a1, a2, a3, a4) := y in
        if (imag_too_large (U a1 a2 a3 a4) && negb false)%bool then Throw
        else do i1 <- mk s1 a1 ; do i2 <- mk s2 a2 ; do i4 <- mk s2 a4 ; do i3 <- mk s1 a3 ;
        Ok (EAdd H (EMul (EMul (EMul (EMulS (ECdag i1) (Cmult half (RtoC (fst (U a1 a2 a3 a4))) : CS)) (ECdag i2)) (EC i4)) (EC i3)))) = Throw).
    { intros H s1 s2 [[[a1 a2] a3] a4] H1 H2 Hy. unfold quads in Hy. rewrite !in_prod_iff, !in_seq in Hy.
      destruct (imag_too_large (U a1 a2 a3 a4) && negb false)%bool; [right; reflexivity|left]. rewrite !Hmk by (tauto || lia). cbn [bind]. eauto. }
    apply (loop_throw_in _ (s0, s0)).
    - apply in_prod_iff. rewrite Es. split; left; reflexivity.
    - intros H. apply (loop_throw_in _ (a, b, c, d)).
      + unfold quads. rewrite !in_prod_iff, !in_seq. repeat split; lia.
      + intros H'. unfold imag_too_large. destruct (Rlt_dec _ _); [reflexivity|contradiction].
      + intros H' y Hy. apply (G H' s0 s0 y); [rewrite Es; left; reflexivity|rewrite Es; left; reflexivity|exact Hy].
    - intros H [s1 s2] Hy. apply in_prod_iff in Hy. apply loop_ok_throw. intros H' y Hy'. apply (G H' s1 s2 y); tauto.
  Qed.

  (** the filter of the documented sum *)
  Lemma Sm_if {A} (l : list A) (p : A -> bool) (f : A -> CS) : Sm l f = Sm (filter p l) f + Sm (filter (fun x => negb (p x)) l) f.
  Proof.
    induction l as [|x l IH]; [cbn [filter]; rewrite !(Sm_nil CS); ring|]. cbn [filter]. destruct (p x); cbn [negb]; rewrite !(Sm_cons CS), IH; ring.
  Qed.
  Lemma n_idem i : EMul (EN i) (EN i) == EN i.
  Proof.
    rewrite (nn i i), (dl_eq CS), (en_mul CS L). apply (cf_eqv CS L). intros m. rewrite (cf_add CS L), (cf_muls CS L).
    rewrite !(mul_assoc CS L), (cd_same_zero CS L), (cf_zero CS L). ring.
  Qed.
  Lemma density_split U Up m : k0 + Sm ks (fun p => Sm ks (fun q => cf (EMul (EN (mk2 p)) (EN (mk2 q))) m * (Cmult half (Uss U Up p q) : CS))) =
    cf (density_formula lab spins n U Up) m + cf (self_term lab spins n U) m.
  Proof.
    set (t := fun pq : (string * nat) * (string * nat) => cf (EMul (EN (mk2 (fst pq))) (EN (mk2 (snd pq)))) m * (Cmult half (Uss U Up (fst pq) (snd pq)) : CS)).
    transitivity (Sm (list_prod ks ks) t); [rewrite (Sm_prod CS L); unfold t; cbn [fst snd]; ring|].
    rewrite (Sm_if _ (fun pq => negb (peqb (fst pq) (snd pq)))). f_equal.
    - unfold density_formula, osum_if. rewrite cf_osum. unfold OpUtil_base.ks. fold (OpUtil_base.ks spins n).
      transitivity (Sm (filter (fun pq : (string * nat) * (string * nat) => negb (peqb (fst pq) (snd pq))) (list_prod ks ks)) t); [reflexivity|].
      apply Sm_ext. intros [[s i] [s' j]] _. unfold t. cbn [fst snd]. rewrite cf_times. unfold Uss, OpUtil_base.mk2. cbn [fst snd]. reflexivity.
    - rewrite (Sm_filter CS L), (Sm_prod CS L). unfold self_term. rewrite cf_osum, (Sm_ks spins n). apply Sm_ext. intros s Hs. rewrite cf_osum. apply Sm_ext. intros i Hi. apply in_seq in Hi.
      cbn [fst snd]. rewrite cf_times.
      transitivity (Sm ks (fun q => if peqb (s, i) q then t ((s, i), q) else k0)).
      { apply Sm_ext. intros q _. rewrite Bool.negb_involutive. reflexivity. }
      rewrite (Sm_peq off mp spins n lab HL (s, i) (fun q => t ((s, i), q))) by (apply ki; cbn; split; [exact Hs|lia]).
      unfold t, Uss, OpUtil_base.mk2. cbn [fst snd]. rewrite String.eqb_refl, n_idem. reflexivity.
  Qed.
  Lemma thm_density U Up : exists H, h_int_density spins n U Up off mp = Ok H /\
    same_op H (EAdd (density_formula lab spins n U Up) (self_term lab spins n U)).
  Proof.
    pose proof HL as HL0. destruct HL0 as ((mk & Emk & Hmk) & _). unfold h_int_density. rewrite Emk. cbn [bind].
    destruct (density_loop_ok spins n lab mk U Up op_zero Hmk) as (H & E & Hc). exists H. split; [exact E|].
    change same_op with (eqv CS). apply (cf_eqv CS L). intros m. rewrite Hc. unfold op_zero. change (RtoC 0) with (@k0 CS). rewrite (cf_zero CS L), (cf_add CS L).
    apply density_split.
  Qed.

  (** ---- particle number and spin of each kind ---- *)
  Definition spin_diag (w : string -> CS) : string -> string -> CS := fun s s' => if String.eqb s s' then w s else k0.
  Definition keeps (V : string * nat -> string * nat -> string * nat -> string * nat -> CS) : Prop :=
    forall p q r t, (fst p <> fst r \/ fst q <> fst t) -> V p q r t = k0.
  Lemma keeps_slater U : keeps (slater_V U).
  Proof. intros [s1 a1] [s2 a2] [s3 a3] [s4 a4] H. unfold slater_V. cbn [fst snd] in *. destruct (String.eqb_spec s1 s3), (String.eqb_spec s2 s4); cbn [andb]; try reflexivity. tauto. Qed.
  Lemma keeps_dens U Up : keeps (dens_V U Up).
  Proof. intros p q r t H. unfold dens_V. destruct (peqb_spec p r) as [->|]; [|reflexivity]. destruct (peqb_spec q t) as [->|]; [|reflexivity]. tauto. Qed.
  Lemma keeps_flip J : keeps (flip_V J).
  Proof. intros [s1 a1] [s2 a2] [s3 a3] [s4 a4] H. unfold flip_V. cbn [fst snd] in *. destruct (String.eqb_spec s1 s3), (String.eqb_spec s2 s4); cbn [andb]; try reflexivity. tauto. Qed.
  Lemma keeps_pair J : keeps (pair_V J).
  Proof. intros [s1 a1] [s2 a2] [s3 a3] [s4 a4] H. unfold pair_V. cbn [fst snd] in *. destruct (String.eqb_spec s1 s3), (String.eqb_spec s2 s4); cbn [andb]; try reflexivity. tauto. Qed.
  Lemma commute_dens_y w U : commute (obk (spin_y (spin_diag w))) (obk (dens_y U)).
  Proof.
    apply (comm_zero CS L). rewrite (comm_ob_ob CS L mk2 ks (HI spins n lab HDL)).
    transitivity (obk (fun _ _ => k0)).
    - apply (ob_ext CS L). intros p q Hp Hq. rewrite (Sm_sub CS L).
      rewrite (Sm_single CS L ks p _ (NDk spins n lab HDL) Hp), (Sm_single CS L ks q _ (NDk spins n lab HDL) Hq).
      + unfold dens_y, spin_y, spin_diag. destruct (peqb_spec p q) as [->|Hne]; [rewrite Nat.eqb_refl, String.eqb_refl; ring|]. change (RtoC 0) with (@k0 CS). ring.
      + intros r _ Hne. unfold spin_y, spin_diag. destruct (Nat.eqb_spec (snd r) (snd q)), (String.eqb_spec (fst r) (fst q)); try ring. exfalso. apply Hne. apply injective_projections; assumption.
      + intros r _ Hne. unfold spin_y, spin_diag. destruct (Nat.eqb_spec (snd p) (snd r)), (String.eqb_spec (fst p) (fst r)); try ring. exfalso. apply Hne. symmetry. apply injective_projections; assumption.
    - apply (cf_eqv CS L). intros m. rewrite (cf_ob CS L), (cf_zero CS L). apply (Sm_zero CS L). intros. apply (Sm_zero CS L). intros. ring.
  Qed.
  (** the three builders commute with every operator diagonal in spin and blind to orbitals *)
  Definition built (H : op) : Prop :=
    (exists U cpx, accepted cpx U n /\ h_int_slater spins n U off mp cpx = Ok H) \/
    (exists U Up, h_int_density spins n U Up off mp = Ok H) \/
    (exists U Up J, h_int_kanamori spins n U Up J off mp = Ok H).
  Lemma built_diag H w : built H -> commute (obk (spin_y (spin_diag w))) H.
  Proof.
    intros [(U & cpx & HA & E)|[(U & Up & E)|(U & Up & J & E)]].
    - destruct (slater_ok off mp spins n lab HL U cpx HA) as (H' & E' & EH). rewrite E in E'. injection E' as <-.
      apply (commute_m _ _ _ _ (reflexivity _) EH). apply (commute_spin_diag spins n lab HDL). apply keeps_slater.
    - destruct (density_ok off mp spins n lab HL U Up) as (H' & E' & EH). rewrite E in E'. injection E' as <-.
      apply (commute_m _ _ _ _ (reflexivity _) EH). apply commute_add; [|apply commute_dens_y]. apply (commute_spin_diag spins n lab HDL). apply keeps_dens.
    - destruct (kanamori_ok off mp spins n lab HL U Up J) as (H' & E' & EH). rewrite E in E'. injection E' as <-.
      apply (commute_m _ _ _ _ (reflexivity _) EH). repeat apply commute_add; try apply commute_dens_y; apply (commute_spin_diag spins n lab HDL); [apply keeps_dens|apply keeps_flip|apply keeps_pair].
  Qed.
  Lemma thm_conserves_N H N : built H -> N_op spins n off mp = Ok N -> commute H N.
  Proof.
    intros HB EN. destruct (N_op_ok off mp spins n lab HL) as (N' & E' & EN'). rewrite EN in E'. injection E' as <-.
    apply commute_sym. apply (commute_m _ _ _ _ EN' (reflexivity H)). apply (built_diag H (fun _ => k1) HB).
  Qed.
  Lemma thm_number N : N_op spins n off mp = Ok N -> same_op N (number_formula lab spins n).
  Proof.
    intros EN. destruct (N_op_ok off mp spins n lab HL) as (N' & E' & EN'). rewrite EN in E'. injection E' as <-. change same_op with (eqv CS). rewrite EN'.
    apply (cf_eqv CS L). intros m. rewrite (cf_spin_y spins n lab). unfold number_formula. rewrite cf_osum. apply Sm_ext. intros s Hs. rewrite cf_osum.
    rewrite <- (Sm_spin off mp spins n lab HL s (fun _ => Sm (seq 0 n) (fun i => cf (EMul (ECdag (lab s i)) (EC (lab s i))) m)) Hs).
    apply Sm_ext. intros s' _. destruct (String.eqb_spec s s') as [<-|].
    - apply Sm_ext. intros. unfold cd, an, OpUtil_base.mk2. cbn [fst snd]. ring.
    - apply (Sm_zero CS L). intros. ring.
  Qed.

  (** ---- hermiticity ---- *)
  Lemma thm_hermitian_slater U cpx H : accepted cpx U n -> h_int_slater spins n U off mp cpx = Ok H ->
    (forall i j k l, (i < n)%nat -> (j < n)%nat -> (k < n)%nat -> (l < n)%nat -> Cconj (U k l i j) = U i j k l) -> hermitian H.
  Proof.
    intros HA E HU. destruct (slater_ok off mp spins n lab HL U cpx HA) as (H' & E' & EH). rewrite E in E'. injection E' as <-.
    apply (hermitian_m _ _ EH). apply hermitian_slater. intros i j k l Hi Hj Hk Hl. unfold used. rewrite <- (HU i j k l) by assumption. destruct cpx; [reflexivity|].
    unfold Cconj, RtoC. cbn. f_equal. ring.
  Qed.
  Lemma conj_real (x : R) : kconj (Cmult half (RtoC x) : CS) = (Cmult half (RtoC x) : CS).
  Proof. rewrite conj_half. change (Cmult half (Cconj (RtoC x)) = Cmult half (RtoC x)). f_equal. unfold Cconj, RtoC. cbn. f_equal. ring. Qed.
  Lemma conj_zero : kconj (RtoC 0 : CS) = (RtoC 0 : CS).
  Proof. apply (kconj_0 CS L). Qed.
  Lemma hermitian_dens (U Up : nat -> nat -> R) : hermitian (EAdd (qk (dens_V (fun i j => RtoC (U i j)) (fun i j => RtoC (Up i j)))) (obk (dens_y (fun i j => RtoC (U i j))))).
  Proof.
    apply hermitian_add.
    - apply hermitian_quart. intros p q r t _ _ _ _. unfold dens_V. destruct (peqb_spec p r) as [->|Hp]; [rewrite peqb_refl|destruct (peqb_spec r p); [congruence|apply conj_zero]].
      destruct (peqb_spec q t) as [->|Hq]; [rewrite peqb_refl|destruct (peqb_spec t q); [congruence|apply conj_zero]].
      cbn [andb]. unfold Uss. destruct (String.eqb (fst r) (fst t)); apply conj_real.
    - apply hermitian_ob. intros p q _ _. unfold dens_y. destruct (peqb_spec p q) as [->|Hp]; [rewrite peqb_refl; apply conj_real|destruct (peqb_spec q p); [congruence|apply conj_zero]].
  Qed.
  Lemma thm_hermitian_density (U Up : nat -> nat -> R) H :
    h_int_density spins n (fun i j => RtoC (U i j)) (fun i j => RtoC (Up i j)) off mp = Ok H -> hermitian H.
  Proof.
    intros E. destruct (density_ok off mp spins n lab HL (fun i j => RtoC (U i j)) (fun i j => RtoC (Up i j))) as (H' & E' & EH). rewrite E in E'. injection E' as <-.
    apply (hermitian_m _ _ EH). apply hermitian_dens.
  Qed.
  Lemma thm_hermitian_kanamori (U Up : nat -> nat -> R) (J : R) H :
    h_int_kanamori spins n (fun i j => RtoC (U i j)) (fun i j => RtoC (Up i j)) (RtoC J) off mp = Ok H -> hermitian H.
  Proof.
    intros E. destruct (kanamori_ok off mp spins n lab HL (fun i j => RtoC (U i j)) (fun i j => RtoC (Up i j)) (RtoC J)) as (H' & E' & EH). rewrite E in E'. injection E' as <-.
    apply (hermitian_m _ _ EH). apply hermitian_add; [apply hermitian_add; [apply hermitian_dens|]|]; apply hermitian_quart; intros [s1 a1] [s2 a2] [s3 a3] [s4 a4] _ _ _ _.
    - unfold flip_V. cbn [fst snd]. rewrite (String.eqb_sym s3 s1), (String.eqb_sym s4 s2).
      destruct (String.eqb_spec s1 s3) as [<-|]; [|apply conj_zero]. destruct (String.eqb_spec s2 s4) as [<-|]; [|apply conj_zero]. destruct (String.eqb s1 s2); [apply conj_zero|]. cbn [negb andb].
      destruct (Nat.eqb_spec a3 a4), (Nat.eqb_spec a1 a4), (Nat.eqb_spec a2 a3), (Nat.eqb_spec a1 a2), (Nat.eqb_spec a3 a2), (Nat.eqb_spec a4 a1); try (exfalso; congruence); cbn [negb andb]; try apply conj_zero; apply conj_real.
    - unfold pair_V. cbn [fst snd]. rewrite (String.eqb_sym s3 s1), (String.eqb_sym s4 s2).
      destruct (String.eqb_spec s1 s3) as [<-|]; [|apply conj_zero]. destruct (String.eqb_spec s2 s4) as [<-|]; [|apply conj_zero]. destruct (String.eqb s1 s2); [apply conj_zero|]. cbn [negb andb].
      destruct (Nat.eqb_spec a3 a4), (Nat.eqb_spec a1 a2), (Nat.eqb_spec a3 a1), (Nat.eqb_spec a1 a3); try (exfalso; congruence); cbn [negb andb]; try apply conj_zero; apply conj_real.
  Qed.

  (** ---- Kanamori as a four-index interaction ---- *)
  Definition kan_tensor (Up : nat -> nat -> C) (J : C) : tensor4 := fun i j k l =>
    if ((i =? k) && (j =? l))%nat then Up i j else if ((i =? l) && (j =? k))%nat then J else if ((i =? j) && (k =? l))%nat then J else RtoC 0.
  Lemma kanamori_slater U Up J : (forall a, (a < n)%nat -> U a a = RtoC 0) -> (forall a b, (a < n)%nat -> (b < n)%nat -> a <> b -> U a b = Cminus (Up a b) J) ->
    EAdd (EAdd (EAdd (qk (dens_V U Up)) (obk (dens_y U))) (qk (flip_V J))) (qk (pair_V J)) == qk (slater_V (kan_tensor Up J)).
  Proof.
    intros H0 HU.
    transitivity (qk (fun p q r t => (dens_V U Up p q r t : CS) + (flip_V J p q r t : CS) + (pair_V J p q r t : CS))).
    - apply (cf_eqv CS L). intros m. rewrite !(cf_add CS L). rewrite <- !quart_add.
      assert (cf (obk (dens_y U)) m = k0) as ->; [|ring]. rewrite (cf_dens_y off mp spins n lab HL). apply (Sm_zero CS L). intros p Hp. apply ki in Hp.
      rewrite H0 by tauto. change (cf (EMul (cdg p) (ann p)) m * ((half : CS) * k0) = k0). ring.
    - apply quart_asym. intros [s1 a1] [s2 a2] [s3 a3] [s4 a4] H1 H2 H3 H4. apply ki in H1, H2, H3, H4. cbn [fst snd] in *.
      destruct H1 as [_ H1], H2 as [_ H2], H3 as [_ H3], H4 as [_ H4].
      unfold dens_V, flip_V, pair_V, slater_V, kan_tensor, Uss, peqb. cbn [fst snd].
      specialize (H0 a1 H1) as U11. pose proof (HU a1 a2 H1 H2) as U12.
      destruct (String.eqb_spec s1 s2) as [<-|Hs].
      + destruct (String.eqb_spec s1 s3) as [<-|], (String.eqb_spec s1 s4) as [<-|]; cbn [andb negb]; rewrite ?Bool.andb_false_r; cbn [andb]; try ring.
        destruct (Nat.eq_dec a1 a2) as [<-|Hne].
        * clear U12. brk; cplx.
        * rewrite (U12 Hne). brk; cplx.
      + clear U12 U11. destruct (String.eqb_spec s1 s3), (String.eqb_spec s2 s4), (String.eqb_spec s1 s4), (String.eqb_spec s2 s3); cbn [andb negb]; try congruence; rewrite ?Bool.andb_false_r; cbn [andb]; try ring.
        * brk; cplx.
        * brk; cplx.
  Qed.
End Thms.
