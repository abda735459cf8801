(** Proofs: density-density and Kanamori Hamiltonians, and the one-body observables, as
    operators over the labels. *)
From Coq Require Import ZArith String List Bool Reals Lia Setoid Morphisms Ring.
From Coquelicot Require Import Complex.
From Verif Require Import Base Indices Scalar Fock OpModel OpExpr Op_proofs RealAtom UMatrix OpUtil OpUtilSpec OpAlg OpBody OpUtil_base.
Import ListNotations.

Definition peqb (p q : string * nat) : bool := (String.eqb (fst p) (fst q) && (snd p =? snd q)%nat)%bool.
Lemma peqb_spec p q : reflect (p = q) (peqb p q).
Proof.
  destruct p as [s a], q as [s' a']. unfold peqb. cbn [fst snd].
  destruct (String.eqb_spec s s'), (Nat.eqb_spec a a'); cbn; constructor; congruence.
Qed.
Lemma peqb_refl p : peqb p p = true. Proof. destruct (peqb_spec p p); congruence. Qed.

Section Ham.
  Add Ring KringH : (sl_ring CS CS_laws).
  Local Open Scope K_scope.
  Notation L := CS_laws.
  Infix "==" := (eqv CS) (at level 70).
  Notation cf := (cf CS).
  Notation esum := (esum CS).
  Notation Sm := (Sm CS).
  Local Instance cf_mH : Proper (eqv CS ==> eq ==> eq) (OpAlg.cf CS) := cf_m CS L.

  Context (off : option bool) (mp : option dict) (spins : list string) (n : nat) (lab : string -> nat -> indices).
  Hypothesis HL : labelled off mp spins n lab.
  Notation ks := (ks spins n). Notation mk2 := (mk2 lab).
  Notation cdg := (cd CS mk2). Notation ann := (an CS mk2).
  Notation obk := (ob CS mk2 ks). Notation qk := (quart CS mk2 ks). Notation q4k := (q4 CS mk2).
  Let HI : inj_on mk2 ks := ks_inj off mp spins n lab HL.
  Lemma HNs : NoDup spins. Proof. apply HL. Qed.
  Lemma HNk : NoDup ks. Proof. apply HI. Qed.

  (** collapse of a sum over labels *)
  Lemma Sm_peq (p : string * nat) (f : string * nat -> CS) : In p ks -> Sm ks (fun q => if peqb p q then f q else k0) = f p.
  Proof.
    intros Hp. rewrite (Sm_single CS L ks p _ HNk Hp); [rewrite peqb_refl; reflexivity|].
    intros q _ Hne. destruct (peqb_spec p q); [congruence|reflexivity].
  Qed.
  Lemma Sm_seq (a : nat) (f : nat -> CS) : (a < n)%nat -> Sm (seq 0 n) (fun b => if (a =? b)%nat then f b else k0) = f a.
  Proof.
    intros Ha. rewrite (Sm_single CS L (seq 0 n) a _ (seq_NoDup n 0)); [rewrite Nat.eqb_refl; reflexivity|apply in_seq; lia|].
    intros b _ Hne. destruct (Nat.eqb_spec a b); [congruence|reflexivity].
  Qed.
  Lemma Sm_spin (s : string) (f : string -> CS) : In s spins -> Sm spins (fun b => if String.eqb s b then f b else k0) = f s.
  Proof.
    intros Hs. rewrite (Sm_single CS L spins s _ HNs Hs); [rewrite String.eqb_refl; reflexivity|].
    intros b _ Hne. destruct (String.eqb_spec s b); [congruence|reflexivity].
  Qed.

  Lemma nn i j : EMul (EN i) (EN j) == EAdd (EMulS (EMul (ECdag i) (EC j)) (dl CS i j)) (EMul (EMul (EMul (ECdag i) (ECdag j)) (EC j)) (EC i)).
  Proof.
    rewrite !(en_mul CS L), (mul_assoc CS L), <- (mul_assoc CS L (EC i)), (ccd CS L), (mul_sub_l CS L), (mul_scal_l CS L), (mul_sub_r CS L), (mul_muls_r CS L).
    rewrite (mul_assoc CS L (ECdag j)), (cc CS L i j), !(mul_muls_r CS L), !(mul_assoc CS L).
    apply (cf_eqv CS L). intros m. rewrite (cf_sub CS L), (cf_add CS L), !(cf_muls CS L). ring.
  Qed.
  Lemma dl_mk p q : In p ks -> In q ks -> dl CS (mk2 p) (mk2 q) = if peqb p q then k1 else k0.
  Proof.
    intros Hp Hq. destruct (peqb_spec p q) as [->|Hne]; [apply (dl_eq CS)|apply (dl_neq CS)].
    intros E. apply Hne. apply HI; assumption.
  Qed.

  Definition dens_V (U Up : nat -> nat -> C) (p q r t : string * nat) : C :=
    if (peqb p r && peqb q t)%bool then Cmult half (Uss U Up p q) else RtoC 0.
  Definition dens_y (U : nat -> nat -> C) (p q : string * nat) : C :=
    if peqb p q then Cmult half (U (snd p) (snd p)) else RtoC 0.

  Lemma cf_dens_V U Up m : cf (qk (dens_V U Up)) m = Sm ks (fun p => Sm ks (fun q => cf (q4k p q p q) m * (Cmult half (Uss U Up p q) : CS))).
  Proof.
    rewrite (cf_quart CS L). apply Sm_ext. intros p Hp. apply Sm_ext. intros q Hq.
    transitivity (Sm ks (fun r => if peqb p r then cf (q4k p q r q) m * (Cmult half (Uss U Up p q) : CS) else k0)).
    - apply Sm_ext. intros r _. unfold dens_V. destruct (peqb p r); cbn [andb].
      + transitivity (Sm ks (fun t => if peqb q t then cf (q4k p q r t) m * (Cmult half (Uss U Up p q) : CS) else k0)).
        * apply Sm_ext. intros t _. destruct (peqb q t); [reflexivity|]. change (RtoC 0) with (@k0 CS). ring.
        * apply (Sm_peq q (fun t => cf (q4k p q r t) m * (Cmult half (Uss U Up p q) : CS)) Hq).
      + apply (Sm_zero CS L). intros t _. change (RtoC 0) with (@k0 CS). ring.
    - apply (Sm_peq p (fun r => cf (q4k p q r q) m * (Cmult half (Uss U Up p q) : CS)) Hp).
  Qed.
  Lemma cf_dens_y U m : cf (obk (dens_y U)) m = Sm ks (fun p => cf (EMul (cdg p) (ann p)) m * (Cmult half (U (snd p) (snd p)) : CS)).
  Proof.
    rewrite (cf_ob CS L). apply Sm_ext. intros p Hp.
    rewrite <- (Sm_peq p (fun q => cf (EMul (cdg p) (ann q)) m * (Cmult half (U (snd p) (snd p)) : CS)) Hp).
    apply Sm_ext. intros q _. unfold dens_y. destruct (peqb p q); [reflexivity|]. change (RtoC 0) with (@k0 CS). ring.
  Qed.
  Lemma dens_sum U Up m : Sm ks (fun p => Sm ks (fun q => cf (EMul (EN (mk2 p)) (EN (mk2 q))) m * (Cmult half (Uss U Up p q) : CS))) =
    cf (qk (dens_V U Up)) m + cf (obk (dens_y U)) m.
  Proof.
    rewrite cf_dens_V, cf_dens_y, <- (Sm_add CS L). apply Sm_ext. intros p Hp.
    assert (E : cf (EMul (cdg p) (ann p)) m * (Cmult half (U (snd p) (snd p)) : CS) =
      Sm ks (fun q => if peqb p q then cf (EMul (cdg p) (ann q)) m * (Cmult half (Uss U Up p q) : CS) else k0)).
    { rewrite (Sm_peq p (fun q => cf (EMul (cdg p) (ann q)) m * (Cmult half (Uss U Up p q) : CS)) Hp). unfold Uss. rewrite String.eqb_refl. reflexivity. }
    rewrite E, <- (Sm_add CS L). apply Sm_ext. intros q Hq. rewrite nn, (cf_add CS L), (cf_muls CS L), (dl_mk p q Hp Hq).
    change (EMul (EMul (EMul (ECdag (mk2 p)) (ECdag (mk2 q))) (EC (mk2 q))) (EC (mk2 p))) with (q4k p q p q).
    change (EMul (ECdag (mk2 p)) (EC (mk2 q))) with (EMul (cdg p) (ann q)).
    destruct (peqb p q); ring.
  Qed.

  Lemma density_ok U Up : exists H, h_int_density spins n U Up off mp = Ok H /\ H == EAdd (qk (dens_V U Up)) (obk (dens_y U)).
  Proof.
    pose proof HL as HL0. destruct HL0 as ((mk & Emk & Hmk) & _). unfold h_int_density. rewrite Emk. cbn [bind].
    destruct (density_loop_ok spins n lab mk U Up op_zero Hmk) as (H & E & Hc). exists H. split; [exact E|].
    apply (cf_eqv CS L). intros m. rewrite Hc, dens_sum, (cf_add CS L). unfold op_zero. change (RtoC 0) with (@k0 CS). rewrite (cf_zero CS L). ring.
  Qed.

  (** ---- Kanamori ---- *)
  Definition flip_V (J : C) (p q r t : string * nat) : C :=
    if (String.eqb (fst p) (fst r) && String.eqb (fst q) (fst t) && negb (String.eqb (fst p) (fst q)) &&
        negb (snd p =? snd q)%nat && (snd r =? snd q)%nat && (snd t =? snd p)%nat)%bool
    then Cmult half J else RtoC 0.
  Definition pair_V (J : C) (p q r t : string * nat) : C :=
    if (String.eqb (fst p) (fst r) && String.eqb (fst q) (fst t) && negb (String.eqb (fst p) (fst q)) &&
        (snd p =? snd q)%nat && (snd r =? snd t)%nat && negb (snd p =? snd r)%nat)%bool
    then Cmult half J else RtoC 0.
  Notation S22 F := (Sm spins (fun s1 => Sm spins (fun s2 => Sm (seq 0 n) (fun a1 => Sm (seq 0 n) (fun a2 => F s1 s2 a1 a2))))).

  (** two-spin four-label sums with spins (s1, s2, s1, s2) *)
  Lemma spin_sum (V : string -> string -> nat -> nat -> nat -> nat -> CS) (W : string * nat -> string * nat -> string * nat -> string * nat -> CS) m :
    (forall p q r t, W p q r t = if (String.eqb (fst p) (fst r) && String.eqb (fst q) (fst t))%bool then V (fst p) (fst q) (snd p) (snd q) (snd r) (snd t) else k0) ->
    cf (qk W) m = Sm spins (fun s1 => Sm spins (fun s2 => Sm (seq 0 n) (fun a1 => Sm (seq 0 n) (fun a2 => Sm (seq 0 n) (fun a3 => Sm (seq 0 n) (fun a4 =>
      cf (q4k (s1, a1) (s2, a2) (s1, a3) (s2, a4)) m * V s1 s2 a1 a2 a3 a4)))))).
  Proof.
    intros HW. rewrite (cf_quart CS L). rewrite (Sm_ks spins n). apply Sm_ext. intros s1 Hs1.
    symmetry. rewrite (Sm_swap CS L). apply Sm_ext. intros a1 _. symmetry. rewrite (Sm_ks spins n). apply Sm_ext. intros s2 Hs2. apply Sm_ext. intros a2 _.
    rewrite (Sm_ks spins n), (Sm_single CS L spins s1 _ HNs Hs1).
    - apply Sm_ext. intros a3 _. rewrite (Sm_ks spins n), (Sm_single CS L spins s2 _ HNs Hs2).
      + apply Sm_ext. intros a4 _. rewrite HW. cbn [fst snd]. rewrite !String.eqb_refl. reflexivity.
      + intros s4 _ Hne. apply (Sm_zero CS L). intros a4 _. rewrite HW. cbn [fst snd].
        rewrite String.eqb_refl. destruct (String.eqb_spec s2 s4); [congruence|]. cbn [andb]. ring.
    - intros s3 _ Hne. apply (Sm_zero CS L). intros a3 _. rewrite (Sm_ks spins n). apply (Sm_zero CS L). intros s4 _. apply (Sm_zero CS L). intros a4 _.
      rewrite HW. cbn [fst snd]. destruct (String.eqb_spec s1 s3); [congruence|]. cbn [andb]. ring.
  Qed.

  Lemma flip_sum J m : cf (qk (flip_V J)) m = S22 (fun s1 s2 a1 a2 =>
    if (String.eqb s1 s2 || (a1 =? a2)%nat)%bool then k0 else cf (q4k (s1, a1) (s2, a2) (s1, a2) (s2, a1)) m * (Cmult half J : CS)).
  Proof.
    rewrite (spin_sum (fun s1 s2 a1 a2 a3 a4 => if (String.eqb s1 s2 || (a1 =? a2)%nat)%bool then k0 else if (a2 =? a3)%nat then (if (a1 =? a4)%nat then (Cmult half J : CS) else k0) else k0)).
    - apply Sm_ext. intros s1 _. apply Sm_ext. intros s2 _. apply Sm_ext. intros a1 Ha1. apply Sm_ext. intros a2 Ha2. apply in_seq in Ha1, Ha2.
      destruct (String.eqb s1 s2 || (a1 =? a2)%nat)%bool.
      + apply (Sm_zero CS L). intros a3 _. apply (Sm_zero CS L). intros a4 _. ring.
      + rewrite <- (Sm_seq a2 (fun a3 => cf (q4k (s1, a1) (s2, a2) (s1, a3) (s2, a1)) m * (Cmult half J : CS))) by lia.
        apply Sm_ext. intros a3 _. destruct (Nat.eqb a2 a3).
        * rewrite <- (Sm_seq a1 (fun a4 => cf (q4k (s1, a1) (s2, a2) (s1, a3) (s2, a4)) m * (Cmult half J : CS))) by lia.
          apply Sm_ext. intros a4 _. destruct (Nat.eqb a1 a4); [reflexivity|ring].
        * apply (Sm_zero CS L). intros a4 _. ring.
    - intros [s1 a1] [s2 a2] [s3 a3] [s4 a4]. unfold flip_V. cbn [fst snd].
      destruct (String.eqb s1 s3), (String.eqb s2 s4); cbn [andb]; try reflexivity.
      rewrite (Nat.eqb_sym a3 a2), (Nat.eqb_sym a4 a1).
      destruct (String.eqb s1 s2), (Nat.eqb a1 a2), (Nat.eqb a2 a3), (Nat.eqb a1 a4); reflexivity.
  Qed.
  Lemma pair_sum J m : cf (qk (pair_V J)) m = S22 (fun s1 s2 a1 a2 =>
    if (String.eqb s1 s2 || (a1 =? a2)%nat)%bool then k0 else cf (q4k (s1, a1) (s2, a1) (s1, a2) (s2, a2)) m * (Cmult half J : CS)).
  Proof.
    rewrite (spin_sum (fun s1 s2 a1 a2 a3 a4 => if String.eqb s1 s2 then k0 else if (a1 =? a2)%nat then (if (a1 =? a3)%nat then k0 else if (a3 =? a4)%nat then (Cmult half J : CS) else k0) else k0)).
    - apply Sm_ext. intros s1 _. apply Sm_ext. intros s2 _. apply Sm_ext. intros a1 Ha1. apply in_seq in Ha1.
      destruct (String.eqb s1 s2) eqn:Es; cbn [orb].
      + rewrite !(Sm_zero CS L) by (intros; rewrite ?(Sm_zero CS L); intros; rewrite ?(Sm_zero CS L); intros; try reflexivity; ring). reflexivity.
      + transitivity (Sm (seq 0 n) (fun a2 => if (a1 =? a2)%nat then Sm (seq 0 n) (fun a3 => if (a1 =? a3)%nat then k0 else cf (q4k (s1, a1) (s2, a2) (s1, a3) (s2, a3)) m * (Cmult half J : CS)) else k0)).
        * apply Sm_ext. intros a2 _. destruct (Nat.eqb a1 a2).
          -- apply Sm_ext. intros a3 Ha3. apply in_seq in Ha3. destruct (Nat.eqb a1 a3).
             ++ apply (Sm_zero CS L). intros. ring.
             ++ rewrite <- (Sm_seq a3 (fun a4 => cf (q4k (s1, a1) (s2, a2) (s1, a3) (s2, a4)) m * (Cmult half J : CS))) by lia.
                apply Sm_ext. intros a4 _. destruct (Nat.eqb a3 a4); [reflexivity|ring].
          -- apply (Sm_zero CS L). intros. apply (Sm_zero CS L). intros. ring.
        * rewrite (Sm_seq a1 (fun a2 => Sm (seq 0 n) (fun a3 => if (a1 =? a3)%nat then k0 else cf (q4k (s1, a1) (s2, a2) (s1, a3) (s2, a3)) m * (Cmult half J : CS)))) by lia.
          reflexivity.
    - intros [s1 a1] [s2 a2] [s3 a3] [s4 a4]. unfold pair_V. cbn [fst snd].
      destruct (String.eqb s1 s3), (String.eqb s2 s4); cbn [andb]; try reflexivity.
      destruct (String.eqb s1 s2), (Nat.eqb a1 a2), (Nat.eqb a1 a3), (Nat.eqb a3 a4); reflexivity.
  Qed.

  Lemma flip_term i1 i2 i3 i4 (x : CS) m : i2 <> i3 ->
    cf (EMul (EMul (EMul (EMulS (ECdag i1) (- x)) (EC i2)) (ECdag i3)) (EC i4)) m = cf (EMul (EMul (EMul (ECdag i1) (ECdag i3)) (EC i2)) (EC i4)) m * x.
  Proof.
    intros Hne. rewrite !(mul_muls_l CS L), (cf_muls CS L), !(mul_assoc CS L), <- (mul_assoc CS L (EC i2)), (ccd CS L), (dl_neq CS) by exact Hne.
    rewrite (mul_sub_l CS L), (mul_scal_l CS L), (mul_sub_r CS L), (mul_muls_r CS L), (cf_sub CS L), (cf_muls CS L), !(mul_assoc CS L). ring.
  Qed.

  Lemma kanamori_ok U Up J : exists H, h_int_kanamori spins n U Up J off mp = Ok H /\
    H == EAdd (EAdd (EAdd (qk (dens_V U Up)) (obk (dens_y U))) (qk (flip_V J))) (qk (pair_V J)).
  Proof.
    pose proof HL as HL'. destruct HL' as ((mk & Emk & Hmk) & _ & HD). unfold h_int_kanamori. rewrite Emk. cbn [bind].
    destruct (density_loop_ok spins n lab mk U Up op_zero Hmk) as (H1 & E1 & Hc1). rewrite E1. cbn [bind].
    set (g2 := fun (ss : string * string) (H : op) (aa : nat * nat) => if (fst aa =? snd aa)%nat then H else
      EAdd H (EMul (EMul (EMul (EMulS (ECdag (lab (fst ss) (fst aa))) (Cmult (Copp half) J : CS)) (EC (lab (snd ss) (fst aa)))) (ECdag (lab (snd ss) (snd aa)))) (EC (lab (fst ss) (snd aa))))).
    set (g3 := fun (ss : string * string) (H : op) (aa : nat * nat) => if (fst aa =? snd aa)%nat then H else
      EAdd H (EMul (EMul (EMul (EMulS (ECdag (lab (fst ss) (fst aa))) (Cmult half J : CS)) (ECdag (lab (snd ss) (fst aa)))) (EC (lab (snd ss) (snd aa)))) (EC (lab (fst ss) (snd aa))))).
    set (G := fun (g : string * string -> op -> nat * nat -> op) (H : op) (ss : string * string) => if String.eqb (fst ss) (snd ss) then H else fold_left (g ss) (pairs (seq 0 n)) H).
    rewrite (loop_ok (pairs spins) _ (G g2)).
    2: { intros [s1 s2] H Hs. apply in_prod_iff in Hs. unfold G. cbn [fst snd]. destruct (String.eqb s1 s2); [reflexivity|].
      apply loop_ok. intros [a1 a2] H' Ha. apply in_prod_iff in Ha. rewrite !in_seq in Ha. unfold g2. cbn [fst snd].
      destruct (Nat.eqb a1 a2); [reflexivity|]. rewrite !Hmk by (tauto || lia). reflexivity. }
    cbn [bind]. rewrite (loop_ok (pairs spins) _ (G g3)).
    2: { intros [s1 s2] H Hs. apply in_prod_iff in Hs. unfold G. cbn [fst snd]. destruct (String.eqb s1 s2); [reflexivity|].
      apply loop_ok. intros [a1 a2] H' Ha. apply in_prod_iff in Ha. rewrite !in_seq in Ha. unfold g3. cbn [fst snd].
      destruct (Nat.eqb a1 a2); [reflexivity|]. rewrite !Hmk by (tauto || lia). reflexivity. }
    eexists. split; [reflexivity|]. apply (cf_eqv CS L). intros m. rewrite !(cf_add CS L), flip_sum, pair_sum.
    assert (HG : forall g (t : string -> string -> nat -> nat -> CS),
      (forall s1 s2 a1 a2 H, In s1 spins -> In s2 spins -> (a1 < n)%nat -> (a2 < n)%nat -> s1 <> s2 -> cf (g (s1, s2) H (a1, a2)) m = cf H m + if (a1 =? a2)%nat then k0 else t s1 s2 a1 a2) ->
      forall H, cf (fold_left (G g) (pairs spins) H) m = cf H m + S22 (fun s1 s2 a1 a2 => if (String.eqb s1 s2 || (a1 =? a2)%nat)%bool then k0 else t s1 s2 a1 a2)).
    { intros g t Hg H. rewrite (cf_fold_gen _ _ (fun ss => Sm (seq 0 n) (fun a1 => Sm (seq 0 n) (fun a2 => if (String.eqb (fst ss) (snd ss) || (a1 =? a2)%nat)%bool then k0 else t (fst ss) (snd ss) a1 a2)))).
      - unfold pairs. rewrite (Sm_prod CS L). reflexivity.
      - intros [s1 s2] H' Hs. apply in_prod_iff in Hs. unfold G. cbn [fst snd]. destruct (String.eqb_spec s1 s2) as [|Hne]; cbn [orb].
        + rewrite (Sm_zero CS L); [ring|]. intros. apply (Sm_zero CS L). reflexivity.
        + rewrite (cf_fold_gen _ _ (fun aa => if (fst aa =? snd aa)%nat then k0 else t s1 s2 (fst aa) (snd aa))).
          * unfold pairs. rewrite (Sm_prod CS L). reflexivity.
          * intros [a1 a2] H'' Ha. apply in_prod_iff in Ha. rewrite !in_seq in Ha. apply Hg; tauto || lia || exact Hne. }
    rewrite (HG g3 (fun s1 s2 a1 a2 => cf (q4k (s1, a1) (s2, a1) (s1, a2) (s2, a2)) m * (Cmult half J : CS))).
    - rewrite (HG g2 (fun s1 s2 a1 a2 => cf (q4k (s1, a1) (s2, a2) (s1, a2) (s2, a1)) m * (Cmult half J : CS))).
      + rewrite Hc1, dens_sum. unfold op_zero. change (RtoC 0) with (@k0 CS). rewrite (cf_zero CS L). ring.
      + intros s1 s2 a1 a2 H Hs1 Hs2 Ha1 Ha2 Hne. unfold g2. cbn [fst snd]. destruct (Nat.eqb_spec a1 a2) as [|Hna]; [ring|].
        rewrite (cf_add CS L). f_equal.
        replace (Cmult (Copp half) J : CS) with (- (Cmult half J : CS)).
        2: { change (Copp (Cmult half J) = Cmult (Copp half) J). ring. }
        rewrite flip_term; [reflexivity|]. intros E. apply Hna. apply (HD s2 a1 s2 a2) in E; tauto.
    - intros s1 s2 a1 a2 H Hs1 Hs2 Ha1 Ha2 Hne. unfold g3. cbn [fst snd]. destruct (Nat.eqb_spec a1 a2) as [|Hna]; [ring|].
      rewrite (cf_add CS L). f_equal. rewrite !(mul_muls_l CS L), (cf_muls CS L). reflexivity.
  Qed.

  (** ---- observables ---- *)
  Definition spin_y (x : string -> string -> CS) (p q : string * nat) : CS := if (snd p =? snd q)%nat then x (fst p) (fst q) else k0.
  Definition orb_y (M : nat -> nat -> C) (p q : string * nat) : CS := if String.eqb (fst p) (fst q) then (M (snd p) (snd q) : CS) else k0.
  Lemma cf_spin_y x m : cf (obk (spin_y x)) m = Sm spins (fun s => Sm spins (fun s' => Sm (seq 0 n) (fun o => cf (EMul (cdg (s, o)) (ann (s', o))) m * x s s'))).
  Proof.
    rewrite (cf_ob CS L), (Sm_ks spins n). apply Sm_ext. intros s _. symmetry. rewrite (Sm_swap CS L). apply Sm_ext. intros o Ho. apply in_seq in Ho.
    symmetry. rewrite (Sm_ks spins n). apply Sm_ext. intros s' _.
    rewrite <- (Sm_seq o (fun o' => cf (EMul (cdg (s, o)) (ann (s', o'))) m * x s s')) by lia.
    apply Sm_ext. intros o' _. unfold spin_y. cbn [fst snd]. destruct (Nat.eqb o o'); [reflexivity|ring].
  Qed.
  Lemma cf_orb_y M m : cf (obk (orb_y M)) m = Sm spins (fun s => Sm (seq 0 n) (fun o => Sm (seq 0 n) (fun o' => cf (EMul (cdg (s, o)) (ann (s, o'))) m * (M o o' : CS)))).
  Proof.
    rewrite (cf_ob CS L), (Sm_ks spins n). apply Sm_ext. intros s Hs. apply Sm_ext. intros o _. rewrite (Sm_ks spins n).
    rewrite <- (Sm_spin s (fun s' => Sm (seq 0 n) (fun o' => cf (EMul (cdg (s, o)) (ann (s', o'))) m * (M o o' : CS))) Hs).
    apply Sm_ext. intros s' _. unfold orb_y. cbn [fst snd]. destruct (String.eqb s s'); [reflexivity|]. apply (Sm_zero CS L). intros. ring.
  Qed.

  Lemma N_op_ok : exists X, N_op spins n off mp = Ok X /\ X == obk (spin_y (fun s s' => if String.eqb s s' then k1 else k0)).
  Proof.
    pose proof HL as HL0. destruct HL0 as ((mk & Emk & Hmk) & _). unfold N_op. rewrite Emk. cbn [bind].
    rewrite (loop_ok _ _ (fun N so => EAdd N (EN (lab (fst so) (snd so))))).
    2: { intros [s a] H Hs. apply in_prod_iff in Hs. rewrite in_seq in Hs. cbn [fst snd]. rewrite Hmk by (tauto || lia). reflexivity. }
    eexists. split; [reflexivity|]. apply (cf_eqv CS L). intros m. rewrite cf_fold, cf_spin_y. unfold op_zero. change (RtoC 0) with (@k0 CS). rewrite (cf_zero CS L).
    rewrite (Sm_prod CS L). transitivity (Sm spins (fun s => Sm (seq 0 n) (fun a => cf (EN (lab s a)) m))); [cbn [fst snd]; ring|].
    apply Sm_ext. intros s Hs.
    transitivity (Sm spins (fun s' => if String.eqb s s' then Sm (seq 0 n) (fun o => cf (EMul (cdg (s, o)) (ann (s', o))) m) else k0)).
    - rewrite (Sm_spin s (fun s' => Sm (seq 0 n) (fun o => cf (EMul (cdg (s, o)) (ann (s', o))) m)) Hs). apply Sm_ext. intros o _. rewrite (en_mul CS L). reflexivity.
    - apply Sm_ext. intros s' _. destruct (String.eqb s s').
      + apply Sm_ext. intros. ring.
      + symmetry. apply (Sm_zero CS L). intros. ring.
  Qed.

  Lemma L_op_ok c b T T' : L_basis n b T = Ok T' ->
    exists X, L_op c spins n off mp b T = Ok X /\ X == obk (orb_y (rotate_opt n T' (L_matrix n c))).
  Proof.
    intros EB. pose proof HL as HL0. destruct HL0 as ((mk & Emk & Hmk) & _). unfold L_op. rewrite EB. cbn [bind]. rewrite Emk. cbn [bind].
    set (M := rotate_opt n T' (L_matrix n c)).
    rewrite (loop_ok spins _ (fun X sn => fold_left (fun X oo => EAdd X (EMul (EMulS (ECdag (lab sn (fst oo))) (M (fst oo) (snd oo) : CS)) (EC (lab sn (snd oo))))) (pairs (seq 0 n)) X)).
    2: { intros s H Hs. apply loop_ok. intros [o1 o2] H' Ho. apply in_prod_iff in Ho. rewrite !in_seq in Ho. rewrite !Hmk by (tauto || lia). reflexivity. }
    eexists. split; [reflexivity|]. apply (cf_eqv CS L). intros m. rewrite cf_orb_y.
    rewrite (cf_fold_gen _ _ (fun s => Sm (seq 0 n) (fun o => Sm (seq 0 n) (fun o' => cf (EMul (cdg (s, o)) (ann (s, o'))) m * (M o o' : CS))))).
    - unfold op_zero. change (RtoC 0) with (@k0 CS). rewrite (cf_zero CS L). ring.
    - intros s H _. rewrite cf_fold. f_equal. unfold pairs. rewrite (Sm_prod CS L). apply Sm_ext. intros o _. apply Sm_ext. intros o' _.
      rewrite (mul_muls_l CS L), (cf_muls CS L). reflexivity.
  Qed.
End Ham.

Section Spin.
  Add Ring KringS2 : (sl_ring CS CS_laws).
  Local Open Scope K_scope.
  Notation L := CS_laws.
  Infix "==" := (eqv CS) (at level 70).
  Notation cf := (cf CS).
  Notation Sm := (Sm CS).
  Local Instance cf_mS : Proper (eqv CS ==> eq ==> eq) (OpAlg.cf CS) := cf_m CS L.
  Context (off : option bool) (mp : option dict) (up dn : string) (n : nat) (lab : string -> nat -> indices).
  Hypothesis HL : labelled off mp [up; dn] n lab.
  (** spin matrix of a component: half the Pauli matrix *)
  Definition pm (c : component) (i j : nat) : C := match pauli c i j with Ok x => x | _ => RtoC 0 end.
  Definition si (s : string) : nat := if String.eqb s up then 0%nat else 1%nat.
  Definition tau (c : component) (s s' : string) : CS := Cmult half (pm c (si s) (si s')).

  Lemma up_dn : up <> dn.
  Proof. destruct HL as (_ & HN & _). inversion_clear HN as [|? ? H _]. intros ->. apply H. left. reflexivity. Qed.
  Lemma si_up : si up = 0%nat. Proof. unfold si. rewrite String.eqb_refl. reflexivity. Qed.
  Lemma si_dn : si dn = 1%nat. Proof. unfold si. destruct (String.eqb_spec dn up) as [E|]; [exfalso; apply up_dn; congruence|reflexivity]. Qed.

  Lemma S_op_ok c : exists X, S_op c [up; dn] n off mp = Ok X /\ X == ob CS (mk2 lab) (ks [up; dn] n) (spin_y (tau c)).
  Proof.
    pose proof HL as HL'. destruct HL' as ((mk & Emk & Hmk) & _). unfold S_op. rewrite Emk. cbn [bind].
    rewrite (loop_ok (pairs (seq 0 (length [up; dn]))) _ (fun X nn => fold_left (fun X o =>
      EAdd X (EMul (EMulS (EMulS (ECdag (lab (nth (fst nn) [up; dn] EmptyString) o)) (half : CS)) (pm c (fst nn) (snd nn) : CS)) (EC (lab (nth (snd nn) [up; dn] EmptyString) o)))) (seq 0 n) X)).
    2: { intros [n1 n2] H Hn. apply in_prod_iff in Hn. rewrite !in_seq in Hn. cbn [fst snd length] in *.
      apply loop_ok. intros o H' Ho. apply in_seq in Ho.
      rewrite !Hmk by (try lia; destruct n1 as [|[|?]], n2 as [|[|?]]; cbn; try tauto; lia). cbn [bind].
      assert (pauli c n1 n2 = Ok (pm c n1 n2)) as ->. { unfold pm. destruct n1 as [|[|?]], n2 as [|[|?]]; try lia; reflexivity. }
      reflexivity. }
    eexists. split; [reflexivity|]. apply (cf_eqv CS L). intros m. rewrite (cf_spin_y [up; dn] n lab).
    rewrite (cf_fold_gen _ _ (fun nn => Sm (seq 0 n) (fun o => cf (EMul (cd CS (mk2 lab) (nth (fst nn) [up; dn] EmptyString, o)) (an CS (mk2 lab) (nth (snd nn) [up; dn] EmptyString, o))) m * (Cmult half (pm c (fst nn) (snd nn)) : CS)))).
    - unfold op_zero. change (RtoC 0) with (@k0 CS). rewrite (cf_zero CS L). unfold pairs. cbn [length seq list_prod map app].
      rewrite !(Sm_cons CS), !(Sm_nil CS). unfold tau. rewrite si_up, si_dn. cbn [nth fst snd]. ring.
    - intros nn H _. rewrite cf_fold. f_equal. apply Sm_ext. intros o _. rewrite !(mul_muls_l CS L), !(cf_muls CS L). unfold cd, an, mk2. cbn [fst snd].
      change (Cmult half (pm c (fst nn) (snd nn)) : CS) with (kmul (half : CS) (pm c (fst nn) (snd nn) : CS)). ring.
  Qed.
End Spin.
