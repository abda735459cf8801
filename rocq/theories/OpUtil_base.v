(** Proofs: the builders of hamiltonians.py and observables.py as one-body and two-body
    operators over the labels. *)
From Coq Require Import ZArith String List Bool Reals Lia Setoid Morphisms Ring.
From Coquelicot Require Import Complex.
From Verif Require Import Base Indices Scalar Fock OpModel OpExpr Op_proofs RealAtom UMatrix OpUtil OpUtilSpec OpAlg OpBody.
Import ListNotations.

Lemma NoDup_list_prod {A B} (l : list A) (m : list B) : NoDup l -> NoDup m -> NoDup (list_prod l m).
Proof.
  intros Hl Hm. induction l as [|x l IH]; [constructor|]. inversion_clear Hl as [|? ? Hx Hl']. cbn [list_prod].
  assert (G : NoDup (map (fun y : B => (x, y)) m)).
  { apply FinFun.Injective_map_NoDup; [intros y y' E; congruence|assumption]. }
  revert G. generalize (IH Hl'). intros H1 H2.
  assert (D : forall p, In p (map (fun y : B => (x, y)) m) -> ~ In p (list_prod l m)).
  { intros [a b] Hp Hq. apply in_map_iff in Hp. destruct Hp as (y & E & _). injection E as <- <-. apply in_prod_iff in Hq. tauto. }
  induction (map (fun y : B => (x, y)) m) as [|p k IHk]; [exact H1|]. cbn [app]. inversion_clear H2 as [|? ? Hp Hk].
  constructor.
  - intros Hin. apply in_app_or in Hin. destruct Hin as [?|Hin]; [contradiction|]. apply (D p); [left; reflexivity|exact Hin].
  - apply IHk; [exact Hk|]. intros q Hq. apply D. right. exact Hq.
Qed.

Lemma loop_ok {A} (l : list A) (body : op -> A -> res op) (g : op -> A -> op) H :
  (forall x H, In x l -> body H x = Ok (g H x)) -> loop l body H = Ok (fold_left g l H).
Proof.
  revert H. induction l as [|x l IH]; intros H Hb; [reflexivity|]. cbn [loop fold_left].
  rewrite (Hb x H (or_introl eq_refl)). cbn. apply IH. intros. apply Hb. right. assumption.
Qed.

Section Base.
  Add Ring KringC : (sl_ring CS CS_laws).
  Local Open Scope K_scope.
  Notation L := CS_laws.
  Infix "==" := (eqv CS) (at level 70).
  Notation cf := (cf CS).
  Notation esum := (esum CS).
  Notation Sm := (Sm CS).
  Local Instance cf_mU : Proper (eqv CS ==> eq ==> eq) (OpAlg.cf CS) := cf_m CS L.

  Context (off : option bool) (mp : option dict) (spins : list string) (n : nat) (lab : string -> nat -> indices).
  Hypothesis HL : labelled off mp spins n lab.
  Definition ks : list (string * nat) := list_prod spins (seq 0 n).
  Definition mk2 (p : string * nat) : indices := lab (fst p) (snd p).
  Lemma ks_in p : In p ks <-> In (fst p) spins /\ (snd p < n)%nat.
  Proof. destruct p as [s a]. unfold ks. rewrite in_prod_iff, in_seq. cbn. intuition lia. Qed.
  Lemma ks_inj : inj_on mk2 ks.
  Proof.
    destruct HL as (_ & HN & HD). split.
    - apply NoDup_list_prod; [exact HN|apply seq_NoDup].
    - intros [s a] [s' a'] Hp Hq E. apply ks_in in Hp, Hq. cbn in *. destruct (HD s a s' a') as [-> ->]; tauto.
  Qed.
  Notation cdg := (cd CS mk2). Notation ann := (an CS mk2).
  Notation obk := (ob CS mk2 ks). Notation qk := (quart CS mk2 ks). Notation q4k := (q4 CS mk2).

  Lemma Sm_ks (f : string * nat -> CS) : Sm ks f = Sm spins (fun s => Sm (seq 0 n) (fun a => f (s, a))).
  Proof. apply (Sm_prod CS L). Qed.
  Lemma cf_fold {A} (l : list A) (f : A -> op) H m : cf (fold_left (fun H x => EAdd H (f x)) l H) m = cf H m + Sm l (fun x => cf (f x) m).
  Proof. rewrite (fold_add CS L), (cf_add CS L), (cf_esum CS L). reflexivity. Qed.
  (** an accumulation whose steps add given coefficients *)
  Lemma cf_fold_gen {A} (l : list A) (g : op -> A -> op) (t : A -> CS) m H :
    (forall x H, In x l -> cf (g H x) m = cf H m + t x) -> cf (fold_left g l H) m = cf H m + Sm l t.
  Proof.
    revert H. induction l as [|x l IH]; intros H Hg; cbn [fold_left].
    - rewrite (Sm_nil CS). ring.
    - rewrite IH by (intros; apply Hg; right; assumption). rewrite Hg by (left; reflexivity). rewrite (Sm_cons CS). ring.
  Qed.

  (** loops over (s1, s2) and (a1, a2) of [density_loop] *)
  Definition Uss (U Uprime : nat -> nat -> C) (p q : string * nat) : C :=
    if String.eqb (fst p) (fst q) then U (snd p) (snd q) else Uprime (snd p) (snd q).
  Lemma density_loop_ok mk (U Up : nat -> nat -> C) H0 :
    (forall s a, In s spins -> (a < n)%nat -> mk s a = Ok (lab s a)) ->
    exists H, density_loop mk spins n U Up H0 = Ok H /\
      forall m, cf H m = cf H0 m + Sm ks (fun p => Sm ks (fun q => cf (EMul (EN (mk2 p)) (EN (mk2 q))) m * (Cmult half (Uss U Up p q) : CS))).
  Proof.
    intros Hmk. eexists. split.
    - unfold density_loop. apply (loop_ok (pairs spins) _ (fun H ss => fold_left (fun H aa =>
        EAdd H (EMul (EMulS (EN (lab (fst ss) (fst aa))) (Cmult half (Uss U Up (fst ss, fst aa) (snd ss, snd aa)) : CS)) (EN (lab (snd ss) (snd aa))))) (pairs (seq 0 n)) H)).
      intros [s1 s2] H Hs. apply in_prod_iff in Hs.
      apply (loop_ok (pairs (seq 0 n)) _ (fun H aa =>
        EAdd H (EMul (EMulS (EN (lab s1 (fst aa))) (Cmult half (Uss U Up (s1, fst aa) (s2, snd aa)) : CS)) (EN (lab s2 (snd aa)))))).
      intros [a1 a2] H' Ha. apply in_prod_iff in Ha. rewrite !in_seq in Ha. rewrite !Hmk by (tauto || lia). reflexivity.
    - intros m.
      rewrite (cf_fold_gen _ _ (fun ss => Sm (pairs (seq 0 n)) (fun aa =>
        cf (EMul (EN (lab (fst ss) (fst aa))) (EN (lab (snd ss) (snd aa)))) m * (Cmult half (Uss U Up (fst ss, fst aa) (snd ss, snd aa)) : CS)))).
      + f_equal. unfold pairs. rewrite (Sm_prod CS L), Sm_ks. apply Sm_ext. intros s1 _.
        transitivity (Sm spins (fun s2 => Sm (seq 0 n) (fun a1 => Sm (seq 0 n) (fun a2 => cf (EMul (EN (lab s1 a1)) (EN (lab s2 a2))) m * (Cmult half (Uss U Up (s1, a1) (s2, a2)) : CS))))).
        { apply Sm_ext. intros s2 _. rewrite (Sm_prod CS L). reflexivity. }
        rewrite (Sm_swap CS L). apply Sm_ext. intros a1 _. rewrite Sm_ks. reflexivity.
      + intros ss H _. rewrite cf_fold. f_equal. apply Sm_ext. intros aa _. rewrite (mul_muls_l CS L), (cf_muls CS L). reflexivity.
  Qed.

  (** ---- h_int_slater ---- *)
  Definition slater_V (U : tensor4) (p q r t : string * nat) : C :=
    if (String.eqb (fst p) (fst r) && String.eqb (fst q) (fst t))%bool then Cmult half (U (snd p) (snd q) (snd r) (snd t)) else RtoC 0.

  Lemma slater_sum (U : tensor4) m :
    cf (qk (slater_V U)) m = Sm spins (fun s1 => Sm spins (fun s2 => Sm (seq 0 n) (fun a1 => Sm (seq 0 n) (fun a2 => Sm (seq 0 n) (fun a3 => Sm (seq 0 n) (fun a4 =>
      cf (q4k (s1, a1) (s2, a2) (s1, a3) (s2, a4)) m * (Cmult half (U a1 a2 a3 a4) : CS))))))).
  Proof.
    destruct HL as (_ & HN & _). rewrite (cf_quart CS L). rewrite Sm_ks. apply Sm_ext. intros s1 Hs1.
    symmetry. rewrite (Sm_swap CS L). apply Sm_ext. intros a1 _. symmetry. rewrite Sm_ks. apply Sm_ext. intros s2 Hs2. apply Sm_ext. intros a2 _.
    rewrite Sm_ks, (Sm_single CS L spins s1 _ HN Hs1).
    - apply Sm_ext. intros a3 _. rewrite Sm_ks, (Sm_single CS L spins s2 _ HN Hs2).
      + apply Sm_ext. intros a4 _. unfold slater_V. cbn [fst snd]. rewrite !String.eqb_refl. reflexivity.
      + intros s4 _ Hne. apply (Sm_zero CS L). intros a4 _. unfold slater_V. cbn [fst snd].
        rewrite String.eqb_refl. destruct (String.eqb_spec s2 s4); [congruence|]. cbn [andb]. change (RtoC 0) with (@k0 CS). ring.
    - intros s3 _ Hne. apply (Sm_zero CS L). intros a3 _. rewrite Sm_ks. apply (Sm_zero CS L). intros s4 _. apply (Sm_zero CS L). intros a4 _.
      unfold slater_V. cbn [fst snd]. destruct (String.eqb_spec s1 s3); [congruence|]. cbn [andb]. change (RtoC 0) with (@k0 CS). ring.
  Qed.

  Notation Uval := used.
  Lemma slater_ok (U : tensor4) cpx :
    (cpx = true \/ forall a b c d, (a < n)%nat -> (b < n)%nat -> (c < n)%nat -> (d < n)%nat -> (Rabs (snd (U a b c d)) <= / 10 ^ 10)%R) ->
    exists H, h_int_slater spins n U off mp cpx = Ok H /\ H == qk (slater_V (Uval cpx U)).
  Proof.
    intros Hc. destruct HL as ((mk & Emk & Hmk) & HN & HD). unfold h_int_slater. rewrite Emk. cbn [bind].
    eexists. split.
    - apply (loop_ok (pairs spins) _ (fun H ss => fold_left (fun H (aaaa : nat * nat * nat * nat) => let '(a1, a2, a3, a4) := aaaa in
        EAdd H (EMul (EMul (EMul (EMulS (ECdag (lab (fst ss) a1)) (Cmult half (Uval cpx U a1 a2 a3 a4) : CS)) (ECdag (lab (snd ss) a2))) (EC (lab (snd ss) a4))) (EC (lab (fst ss) a3)))) (quads n) H)).
      intros [s1 s2] H Hs. apply in_prod_iff in Hs.
      apply (loop_ok (quads n) _ (fun H (aaaa : nat * nat * nat * nat) => let '(a1, a2, a3, a4) := aaaa in
        EAdd H (EMul (EMul (EMul (EMulS (ECdag (lab s1 a1)) (Cmult half (Uval cpx U a1 a2 a3 a4) : CS)) (ECdag (lab s2 a2))) (EC (lab s2 a4))) (EC (lab s1 a3))))).
      intros [[[a1 a2] a3] a4] H' Ha. unfold quads in Ha. rewrite !in_prod_iff, !in_seq in Ha.
      assert (imag_too_large (U a1 a2 a3 a4) && negb cpx = false)%bool as ->.
      { destruct Hc as [-> | Hc]; [apply Bool.andb_false_r|]. unfold imag_too_large. specialize (Hc a1 a2 a3 a4 ltac:(lia) ltac:(lia) ltac:(lia) ltac:(lia)).
        destruct (Rlt_dec (/ 10 ^ 10) (Rabs (snd (U a1 a2 a3 a4)))) as [Hlt|]; [|reflexivity]. exfalso. apply (Rlt_not_le _ _ Hlt). exact Hc. }
      rewrite !Hmk by (tauto || lia). reflexivity.
    - apply (cf_eqv CS L). intros m. rewrite slater_sum.
      rewrite (cf_fold_gen _ _ (fun ss => Sm (seq 0 n) (fun a1 => Sm (seq 0 n) (fun a2 => Sm (seq 0 n) (fun a3 => Sm (seq 0 n) (fun a4 =>
        cf (q4k (fst ss, a1) (snd ss, a2) (fst ss, a3) (snd ss, a4)) m * (Cmult half (Uval cpx U a1 a2 a3 a4) : CS))))))).
      + unfold pairs. rewrite (Sm_prod CS L). unfold op_zero. change (RtoC 0) with (@k0 CS). rewrite (cf_zero CS L). cbn [fst snd].
        match goal with |- k0 + ?X = ?X => ring end.
      + intros [s1 s2] H _. cbn [fst snd].
        rewrite (cf_fold_gen _ _ (fun aaaa => let '(a1, a2, a3, a4) := aaaa in cf (q4k (s1, a1) (s2, a2) (s1, a3) (s2, a4)) m * (Cmult half (Uval cpx U a1 a2 a3 a4) : CS))).
        * f_equal. unfold quads. rewrite !(Sm_prod CS L). reflexivity.
        * intros [[[a1 a2] a3] a4] H' _. rewrite (cf_add CS L). f_equal. rewrite !(mul_muls_l CS L), (cf_muls CS L). reflexivity.
  Qed.
End Base.
