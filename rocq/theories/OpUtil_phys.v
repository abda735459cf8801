(** Proofs: conservation laws and hermiticity of one-body and two-body operators over
    spins and orbitals. *)
From Coq Require Import ZArith String List Bool Reals Lia Lra Setoid Morphisms Ring.
From Coquelicot Require Import Complex.
From Verif Require Import Base Indices Scalar Fock OpModel OpExpr Op_proofs RealAtom UMatrix OpUtil OpUtilSpec OpAlg OpBody OpUtil_base OpUtil_ham.
Import ListNotations.

(** ---- sums of operators commute, hermitian combinations ---- *)
Section Comb.
  Add Ring KringCo : (sl_ring CS CS_laws).
  Notation L := CS_laws.
  Infix "==" := (eqv CS) (at level 70).
  Lemma commute_mul a b c : commute a b -> commute a c -> commute a (EMul b c).
  Proof.
    unfold commute. change same_op with (eqv CS). intros H1 H2.
    rewrite <- (mul_assoc CS L), H1, (mul_assoc CS L), H2, (mul_assoc CS L). reflexivity.
  Qed.
  Lemma commute_add a b c : commute a b -> commute a c -> commute a (EAdd b c).
  Proof.
    unfold commute. change same_op with (eqv CS). intros H1 H2. rewrite (mul_add_r CS L), (mul_add_l CS L), H1, H2. reflexivity.
  Qed.
  Lemma commute_muls a b x : commute a b -> commute a (EMulS b x).
  Proof.
    unfold commute. change same_op with (eqv CS). intros H1. rewrite (mul_muls_r CS L), (mul_muls_l CS L), H1. reflexivity.
  Qed.
  Lemma commute_sym a b : commute a b -> commute b a. Proof. intros H. symmetry. exact H. Qed.
  Lemma commute_m a a' b b' : a == a' -> b == b' -> commute a' b' -> commute a b.
  Proof. intros Ha Hb H. unfold commute. change same_op with (eqv CS). rewrite Ha, Hb. exact H. Qed.
  Lemma commute_zero a : commute a (EScal (RtoC 0 : CS)).
  Proof. unfold commute. change same_op with (eqv CS). rewrite (mul_scal_l CS L), (mul_scal_r CS L). reflexivity. Qed.
  Lemma hermitian_m a b : a == b -> hermitian b -> hermitian a.
  Proof. intros E H. unfold hermitian in *. change same_op with (eqv CS) in *. rewrite E. exact H. Qed.
  Lemma hermitian_add a b : hermitian a -> hermitian b -> hermitian (EAdd a b).
  Proof. unfold hermitian. change same_op with (eqv CS). intros Ha Hb. rewrite (dag_add CS L), Ha, Hb. reflexivity. Qed.
  Lemma bracket_zero a b : bracket_op a b == EScal (RtoC 0 : CS) <-> commute a b.
  Proof. apply (comm_zero CS L). Qed.
End Comb.

Section Phys.
  Add Ring KringP : (sl_ring CS CS_laws).
  Local Open Scope K_scope.
  Notation L := CS_laws.
  Infix "==" := (eqv CS) (at level 70).
  Notation cf := (cf CS).
  Notation Sm := (Sm CS).
  Local Instance cf_mP : Proper (eqv CS ==> eq ==> eq) (OpAlg.cf CS) := cf_m CS L.

  Context (spins : list string) (n : nat) (lab : string -> nat -> indices).
  Hypothesis HD : distinct_labels lab spins n.
  Notation ks := (ks spins n). Notation mk2 := (mk2 lab).
  Notation cdg := (cd CS mk2). Notation ann := (an CS mk2).
  Notation obk := (ob CS mk2 ks). Notation qk := (quart CS mk2 ks). Notation q4k := (q4 CS mk2).
  Notation ki := (ks_in spins n).

  (** the labels as if they came from the code *)
  Lemma HI : inj_on mk2 ks.
  Proof.
    destruct HD as (HN & H). split.
    - apply NoDup_list_prod; [exact HN|apply seq_NoDup].
    - intros [s a] [s' a'] Hp Hq E. apply ki in Hp, Hq. cbn in *. destruct (H s a s' a') as [-> ->]; tauto.
  Qed.
  Lemma NDk : NoDup ks. Proof. apply HI. Qed.
  Lemma NDs : NoDup spins. Proof. apply HD. Qed.
  Lemma Sm_seq' (a : nat) (f : nat -> CS) : (a < n)%nat -> Sm (seq 0 n) (fun b => if (a =? b)%nat then f b else k0) = f a.
  Proof.
    intros Ha. rewrite (Sm_single CS L (seq 0 n) a _ (seq_NoDup n 0)); [rewrite Nat.eqb_refl; reflexivity|apply in_seq; lia|].
    intros b _ Hne. destruct (Nat.eqb_spec a b); [congruence|reflexivity].
  Qed.
  Lemma Sm_spin' (s : string) (f : string -> CS) : In s spins -> Sm spins (fun b => if String.eqb s b then f b else k0) = f s.
  Proof.
    intros Hs. rewrite (Sm_single CS L spins s _ NDs Hs); [rewrite String.eqb_refl; reflexivity|].
    intros b _ Hne. destruct (String.eqb_spec s b); [congruence|reflexivity].
  Qed.

  (** ---- commutators of one-body operators ---- *)
  Lemma comm_spin_spin x x' : comm CS (obk (spin_y x)) (obk (spin_y x')) ==
    obk (spin_y (fun s s' => Sm spins (fun u => x s u * x' u s' - x' s u * x u s'))).
  Proof.
    rewrite (comm_ob_ob CS L mk2 ks HI). apply (ob_ext CS L). intros [s a] [s' a'] Hp Hq. apply ki in Hp, Hq. cbn in Hp, Hq.
    unfold spin_y. cbn [fst snd]. rewrite (Sm_ks spins n). destruct (Nat.eqb_spec a a') as [<-|Hne].
    - apply Sm_ext. intros u _. rewrite <- (Sm_seq' a (fun _ => x s u * x' u s' - x' s u * x u s')) by tauto.
      apply Sm_ext. intros b _. cbn [fst snd]. rewrite (Nat.eqb_sym b a). destruct (Nat.eqb a b); ring.
    - apply (Sm_zero CS L). intros u _. apply (Sm_zero CS L). intros b _. cbn [fst snd].
      destruct (Nat.eqb_spec a b) as [E1|]; [|ring]. destruct (Nat.eqb_spec b a') as [E2|]; [congruence|ring].
  Qed.
  Lemma comm_orb_orb (M M' : nat -> nat -> C) : comm CS (obk (orb_y M)) (obk (orb_y M')) ==
    obk (orb_y (fun o o' => Sm (seq 0 n) (fun b => (M o b : CS) * (M' b o' : CS) - (M' o b : CS) * (M b o' : CS)))).
  Proof.
    rewrite (comm_ob_ob CS L mk2 ks HI). apply (ob_ext CS L). intros [s a] [s' a'] Hp Hq. apply ki in Hp, Hq. cbn in Hp, Hq.
    unfold orb_y. cbn [fst snd]. rewrite (Sm_ks spins n). destruct (String.eqb_spec s s') as [<-|Hne].
    - rewrite <- (Sm_spin' s (fun _ => Sm (seq 0 n) (fun b => (M a b : CS) * (M' b a' : CS) - (M' a b : CS) * (M b a' : CS)))) by tauto.
      apply Sm_ext. intros u _. cbn [fst snd]. rewrite (String.eqb_sym u s). destruct (String.eqb s u); [reflexivity|].
      apply (Sm_zero CS L). intros. ring.
    - apply (Sm_zero CS L). intros u _. apply (Sm_zero CS L). intros b _. cbn [fst snd].
      destruct (String.eqb_spec s u) as [E1|]; [|ring]. destruct (String.eqb_spec u s') as [E2|]; [congruence|ring].
  Qed.
  Lemma commute_spin_orb x (M : nat -> nat -> C) : commute (obk (spin_y x)) (obk (orb_y M)).
  Proof.
    apply (comm_zero CS L). rewrite (comm_ob_ob CS L mk2 ks HI).
    transitivity (obk (fun _ _ => k0)).
    - apply (ob_ext CS L). intros [s a] [s' a'] Hp Hq. apply ki in Hp, Hq. cbn in Hp, Hq.
      rewrite (Sm_sub CS L).
      rewrite (Sm_single CS L ks (s', a) _ NDk), (Sm_single CS L ks (s, a') _ NDk).
      + unfold spin_y, orb_y. cbn [fst snd]. rewrite !String.eqb_refl, !Nat.eqb_refl. ring.
      + apply ki. cbn. tauto.
      + intros [u b] _ Hne. unfold spin_y, orb_y. cbn [fst snd].
        destruct (String.eqb_spec s u) as [<-|]; [|ring]. destruct (Nat.eqb_spec b a') as [->|]; [congruence|ring].
      + apply ki. cbn. tauto.
      + intros [u b] _ Hne. unfold spin_y, orb_y. cbn [fst snd].
        destruct (Nat.eqb_spec a b) as [<-|]; [|ring]. destruct (String.eqb_spec u s') as [->|]; [congruence|ring].
    - apply (cf_eqv CS L). intros m. rewrite (cf_ob CS L), (cf_zero CS L). apply (Sm_zero CS L). intros. apply (Sm_zero CS L). intros. ring.
  Qed.

  (** ---- two-body operators ---- *)
  Lemma commute_turn y V : (forall p q r t, In p ks -> In q ks -> In r ks -> In t ks -> turn CS ks y V p q r t = k0) -> commute (obk y) (qk V).
  Proof. intros H. apply (comm_zero CS L). rewrite (comm_ob_quart CS L mk2 ks HI). apply (quart_zero CS L). exact H. Qed.

  (** interactions that do not look at spin commute with every spin operator *)
  Lemma commute_slater_spin x U : commute (obk (spin_y x)) (qk (slater_V U)).
  Proof.
    apply commute_turn. intros [s1 a1] [s2 a2] [s3 a3] [s4 a4] H1 H2 H3 H4. apply ki in H1, H2, H3, H4. cbn in H1, H2, H3, H4.
    unfold turn.
    rewrite (Sm_single CS L ks (s3, a1) _ NDk).
    - rewrite (Sm_single CS L ks (s4, a2) _ NDk).
      + rewrite (Sm_single CS L ks (s1, a3) _ NDk).
        * rewrite (Sm_single CS L ks (s2, a4) _ NDk).
          -- unfold spin_y, slater_V. cbn [fst snd]. rewrite !String.eqb_refl, !Nat.eqb_refl. cbn [andb]. rewrite ?Bool.andb_true_r.
             destruct (String.eqb s1 s3), (String.eqb s2 s4); change (RtoC 0) with (@k0 CS); ring.
          -- apply ki. cbn. tauto.
          -- intros [u b] _ Hne. unfold spin_y, slater_V. cbn [fst snd]. destruct (Nat.eqb_spec b a4) as [->|]; [|ring].
             destruct (String.eqb_spec s2 u) as [<-|]; [congruence|]. rewrite Bool.andb_false_r. change (RtoC 0) with (@k0 CS). ring.
        * apply ki. cbn. tauto.
        * intros [u b] _ Hne. unfold spin_y, slater_V. cbn [fst snd]. destruct (Nat.eqb_spec b a3) as [->|]; [|ring].
          destruct (String.eqb_spec s1 u) as [<-|]; [congruence|]. cbn [andb]. change (RtoC 0) with (@k0 CS). ring.
      + apply ki. cbn. tauto.
      + intros [u b] _ Hne. unfold spin_y, slater_V. cbn [fst snd]. destruct (Nat.eqb_spec a2 b) as [<-|]; [|ring].
        destruct (String.eqb_spec u s4) as [->|]; [congruence|]. rewrite Bool.andb_false_r. change (RtoC 0) with (@k0 CS). ring.
    - apply ki. cbn. tauto.
    - intros [u b] _ Hne. unfold spin_y, slater_V. cbn [fst snd]. destruct (Nat.eqb_spec a1 b) as [<-|]; [|ring].
      destruct (String.eqb_spec u s3) as [->|]; [congruence|]. cbn [andb]. change (RtoC 0) with (@k0 CS). ring.
  Qed.

  (** an operator diagonal in spin commutes with every two-body operator that keeps the spins *)
  Lemma commute_spin_diag (w : string -> CS) V :
    (forall p q r t, (fst p <> fst r \/ fst q <> fst t) -> V p q r t = k0) ->
    commute (obk (spin_y (fun s s' => if String.eqb s s' then w s else k0))) (qk V).
  Proof.
    intros HV. apply commute_turn. intros [s1 a1] [s2 a2] [s3 a3] [s4 a4] H1 H2 H3 H4. unfold turn.
    assert (E : forall (s s' : string) (a a' : nat), (s, a) <> (s', a') -> spin_y (fun s s' => if String.eqb s s' then w s else k0) (s, a) (s', a') = k0).
    { intros s s' a a' Hne. unfold spin_y. cbn [fst snd]. destruct (Nat.eqb_spec a a') as [<-|]; [|reflexivity]. destruct (String.eqb_spec s s'); [congruence|reflexivity]. }
    assert (E1 : forall (s : string) (a : nat), spin_y (fun s s' => if String.eqb s s' then w s else k0) (s, a) (s, a) = w s).
    { intros. unfold spin_y. cbn [fst snd]. rewrite Nat.eqb_refl, String.eqb_refl. reflexivity. }
    rewrite (Sm_single CS L ks (s1, a1) _ NDk H1) by (intros [u b] _ Hne; rewrite E by congruence; ring).
    rewrite (Sm_single CS L ks (s2, a2) _ NDk H2) by (intros [u b] _ Hne; rewrite E by congruence; ring).
    rewrite (Sm_single CS L ks (s3, a3) _ NDk H3) by (intros [u b] _ Hne; rewrite E by congruence; ring).
    rewrite (Sm_single CS L ks (s4, a4) _ NDk H4) by (intros [u b] _ Hne; rewrite E by congruence; ring).
    rewrite !E1.
    destruct (String.eqb_spec s1 s3) as [<-|]; [destruct (String.eqb_spec s2 s4) as [<-|]; [ring|]|]; rewrite HV by (cbn; auto); ring.
  Qed.

  (** an orbital operator commutes with an interaction left invariant by it *)
  Definition invariant_under (M : nat -> nat -> C) (U : tensor4) : Prop := forall i j k l, (i < n)%nat -> (j < n)%nat -> (k < n)%nat -> (l < n)%nat ->
    Sm (seq 0 n) (fun b => (M i b : CS) * (U b j k l : CS)) + Sm (seq 0 n) (fun b => (M j b : CS) * (U i b k l : CS)) =
    Sm (seq 0 n) (fun b => (U i j b l : CS) * (M b k : CS)) + Sm (seq 0 n) (fun b => (U i j k b : CS) * (M b l : CS)).
  Lemma commute_slater_orb M U : invariant_under M U -> commute (obk (orb_y M)) (qk (slater_V U)).
  Proof.
    intros HU. apply commute_turn. intros [s1 a1] [s2 a2] [s3 a3] [s4 a4] H1 H2 H3 H4. apply ki in H1, H2, H3, H4. cbn in H1, H2, H3, H4.
    unfold turn. rewrite !(Sm_ks spins n).
    rewrite (Sm_single CS L spins s1 _ NDs (proj1 H1)).
    2: { intros u _ Hne. apply (Sm_zero CS L). intros b _. unfold orb_y. cbn [fst snd]. destruct (String.eqb_spec s1 u); [congruence|ring]. }
    rewrite (Sm_single CS L spins s2 _ NDs (proj1 H2)).
    2: { intros u _ Hne. apply (Sm_zero CS L). intros b _. unfold orb_y. cbn [fst snd]. destruct (String.eqb_spec s2 u); [congruence|ring]. }
    rewrite (Sm_single CS L spins s3 _ NDs (proj1 H3)).
    2: { intros u _ Hne. apply (Sm_zero CS L). intros b _. unfold orb_y. cbn [fst snd]. destruct (String.eqb_spec u s3); [congruence|ring]. }
    rewrite (Sm_single CS L spins s4 _ NDs (proj1 H4)).
    2: { intros u _ Hne. apply (Sm_zero CS L). intros b _. unfold orb_y. cbn [fst snd]. destruct (String.eqb_spec u s4); [congruence|ring]. }
    unfold orb_y, slater_V. cbn [fst snd]. rewrite !String.eqb_refl.
    destruct (String.eqb s1 s3 && String.eqb s2 s4)%bool.
    - specialize (HU a1 a2 a3 a4 (proj2 H1) (proj2 H2) (proj2 H3) (proj2 H4)).
      transitivity ((half : CS) * (Sm (seq 0 n) (fun b => (M a1 b : CS) * (U b a2 a3 a4 : CS)) + Sm (seq 0 n) (fun b => (M a2 b : CS) * (U a1 b a3 a4 : CS))
        - (Sm (seq 0 n) (fun b => (U a1 a2 b a4 : CS) * (M b a3 : CS)) + Sm (seq 0 n) (fun b => (U a1 a2 a3 b : CS) * (M b a4 : CS))))).
      2: { rewrite HU. ring. }
      assert (Em : forall (f g : nat -> CS), (forall b, f b = (half : CS) * g b) -> Sm (seq 0 n) f = (half : CS) * Sm (seq 0 n) g).
      { intros f g Hfg. rewrite <- (Sm_mul_l CS L). apply Sm_ext. intros b _. apply Hfg. }
      assert (Eq : forall x y z u x' y' z' u' : CS, x = (half : CS) * x' -> y = (half : CS) * y' -> z = (half : CS) * z' -> u = (half : CS) * u' ->
                   x + y - z - u = (half : CS) * (x' + y' - (z' + u'))) by (intros x y z u x' y' z' u' -> -> -> ->; ring).
      apply Eq; apply Em; intros b; match goal with |- context [Cmult half ?u] => change (Cmult half u) with (kmul (half : CS) (u : CS)) end; ring.
    - rewrite !(Sm_zero CS L) by (intros; change (RtoC 0) with (@k0 CS); ring). ring.
  Qed.

  (** ---- antisymmetry ---- *)
  Lemma q4_swap p q r t m : cf (q4k p q t r) m = - cf (q4k p q r t) m.
  Proof.
    unfold q4. rewrite !(mul_assoc CS L). unfold an. rewrite (cc CS L (mk2 r) (mk2 t)), !(mul_muls_r CS L), (cf_muls CS L). ring.
  Qed.
  Lemma quart_swap V m : cf (qk (fun p q r t => V p q t r)) m = - cf (qk V) m.
  Proof.
    rewrite !(cf_quart CS L), <- (Sm_opp CS L). apply Sm_ext. intros p _. rewrite <- (Sm_opp CS L). apply Sm_ext. intros q _.
    rewrite (Sm_swap CS L), <- (Sm_opp CS L). apply Sm_ext. intros r _. rewrite <- (Sm_opp CS L). apply Sm_ext. intros t _. rewrite q4_swap. ring.
  Qed.
  Lemma two_nz (x : CS) : x + x = k0 -> x = k0.
  Proof.
    destruct x as [a b]. intros E. change (Cplus (a, b) (a, b) = RtoC 0) in E. unfold Cplus, RtoC in E. cbn in E. injection E as E1 E2.
    change ((a, b) = RtoC 0). unfold RtoC. f_equal; lra.
  Qed.
  Lemma quart_asym V W : (forall p q r t, In p ks -> In q ks -> In r ks -> In t ks -> V p q r t - V p q t r = W p q r t - W p q t r) -> qk V == qk W.
  Proof.
    intros H. apply (cf_eqv CS L). intros m.
    assert (E : forall V, cf (qk (fun p q r t => V p q r t - V p q t r)) m = cf (qk V) m + cf (qk V) m).
    { intros X. transitivity (cf (qk X) m - cf (qk (fun p q r t => X p q t r)) m); [|rewrite quart_swap; ring].
      rewrite !(cf_quart CS L), <- (Sm_sub CS L). apply Sm_ext. intros p _. rewrite <- (Sm_sub CS L). apply Sm_ext. intros q _.
      rewrite <- (Sm_sub CS L). apply Sm_ext. intros r _. rewrite <- (Sm_sub CS L). apply Sm_ext. intros t _. ring. }
    assert (E2 : cf (qk V) m + cf (qk V) m = cf (qk W) m + cf (qk W) m).
    { rewrite <- !E. apply cf_mP; [|reflexivity]. apply (quart_ext CS L). exact H. }
    assert (E3 : cf (qk V) m - cf (qk W) m = k0).
    { apply two_nz. transitivity (cf (qk V) m + cf (qk V) m - (cf (qk W) m + cf (qk W) m)); [ring|]. rewrite E2. ring. }
    transitivity (cf (qk V) m - cf (qk W) m + cf (qk W) m); [ring|]. rewrite E3. ring.
  Qed.
  Lemma quart_add V W m : cf (qk V) m + cf (qk W) m = cf (qk (fun p q r t => V p q r t + W p q r t)) m.
  Proof.
    rewrite !(cf_quart CS L), <- (Sm_add CS L). apply Sm_ext. intros p _. rewrite <- (Sm_add CS L). apply Sm_ext. intros q _.
    rewrite <- (Sm_add CS L). apply Sm_ext. intros r _. rewrite <- (Sm_add CS L). apply Sm_ext. intros t _. ring.
  Qed.

  (** ---- hermiticity ---- *)
  Lemma hermitian_ob y : (forall p q, In p ks -> In q ks -> kconj (y q p) = y p q) -> hermitian (obk y).
  Proof. intros H. unfold hermitian. change same_op with (eqv CS). rewrite (dag_ob CS L). apply (ob_ext CS L). exact H. Qed.
  Lemma hermitian_quart V : (forall p q r t, In p ks -> In q ks -> In r ks -> In t ks -> kconj (V r t p q) = V p q r t) -> hermitian (qk V).
  Proof. intros H. unfold hermitian. change same_op with (eqv CS). rewrite (dag_quart CS L). apply (quart_ext CS L). exact H. Qed.
  Lemma conj_half (z : C) : kconj (Cmult half z : CS) = (Cmult half (Cconj z) : CS).
  Proof. change (Cconj (Cmult half z) = Cmult half (Cconj z)). unfold half, Cconj, Cmult, RtoC. destruct z; cbn. f_equal; ring. Qed.
  Lemma hermitian_slater U : (forall i j k l, (i < n)%nat -> (j < n)%nat -> (k < n)%nat -> (l < n)%nat -> Cconj (U k l i j) = U i j k l) -> hermitian (qk (slater_V U)).
  Proof.
    intros HU. apply hermitian_quart. intros [s1 a1] [s2 a2] [s3 a3] [s4 a4] H1 H2 H3 H4. apply ki in H1, H2, H3, H4. cbn in H1, H2, H3, H4.
    unfold slater_V. cbn [fst snd]. rewrite (String.eqb_sym s3 s1), (String.eqb_sym s4 s2).
    destruct (String.eqb s1 s3 && String.eqb s2 s4)%bool.
    - rewrite conj_half, HU by tauto. reflexivity.
    - apply (kconj_0 CS L).
  Qed.
End Phys.
