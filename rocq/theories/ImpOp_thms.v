(** imperative_operator on operators built by expressions; the orbital-18 counterexample. *)
From Coq Require Import ZArith NArith List Bool Lia.
From Verif Require Import Base Indices Scalar Fock FockFacts OpModel OpExpr OpNormal Op_proofs Hilbert Hilbert_proofs
  State StateSpec State_proofs ImpOp ImpOp_proofs ImpOp_run ScalarInst.
Import ListNotations.

Section Thms.
  Context (S : scalar_ops) (L : scalar_laws S).
  Local Open Scope K_scope.

  Lemma eval_op_ok (l : fops) (e : expr S) a : (forall i, uses e i -> In i l) -> eval e = Some a -> op_ok S l a.
  Proof.
    intros Hu He. destruct (eval_wf S L e) as (a' & E & Hwf & Hon). rewrite He in E. injection E as <-.
    apply Forall_forall. intros mc Hin. split.
    - destruct Hwf as [_ Hwf]. rewrite Forall_forall in Hwf. apply (Hwf mc Hin).
    - unfold op_on in Hon. rewrite Forall_forall in Hon. specialize (Hon mc Hin). unfold mono_on in *.
      eapply Forall_impl; [|exact Hon]. simpl. intros o Ho. apply Hu. exact Ho.
  Qed.
  Lemma expr_run (l : fops) (e : expr S) a v g : (forall i, uses e i -> In i l) -> eval e = Some a ->
    amp (apply (mode l) a v) g = amp (meaning (mode l) e v) g.
  Proof.
    intros Hu He. destruct (thm_expr S L e (mode l)) as (a' & E & _ & H).
    - intros i j Hi Hj. apply mode_inj; auto.
    - rewrite He in E. injection E as <-. apply H.
  Qed.

  Lemma thm_full_space (l : fops) (e : expr S) (st : state S) d :
    length l <= 17 -> (forall i, uses e i -> In i l) -> hs_dim (length l) = Ok d -> st_ok st -> st_sp st = Full d ->
    exists op r, eval e = Some op /\ imp_run l op st = Ok r /\ st_ok r /\ st_sp r = Full d /\
      forall g, amplitude r g = amp (meaning (mode l) e (st_vec st)) g.
  Proof.
    intros Hl Hu Hd Hst Hsp. destruct (eval_wf S L e) as (a & E & _). exists a.
    assert (Hop := eval_op_ok l e a Hu E). destruct (full_maps_into S l a d Hl Hop Hd) as [H1 H2].
    rewrite <- Hsp in H1, H2. assert (Hl64 : length l <= 64) by lia.
    destruct (thm_imp_run S L l a st Hl64 Hop Hst H1 H2) as (r & Er & Hr & Hr' & Ha).
    exists r. rewrite Hr', Hsp. repeat split; try assumption; try apply Hr. intros g. rewrite Ha. apply expr_run; assumption.
  Qed.

  Lemma thm_subspace (l : fops) (e : expr S) (st : state S) op :
    length l <= 17 -> (forall i, uses e i -> In i l) -> eval e = Some op -> st_ok st ->
    (forall f, In f (basis (st_sp st)) -> (f < 2 ^ 64)%N) ->
    maps_into S l op (st_sp st) (st_sp st) ->
    exists r, imp_run l op st = Ok r /\ st_ok r /\ st_sp r = st_sp st /\
      forall g, amplitude r g = amp (meaning (mode l) e (st_vec st)) g.
  Proof.
    intros Hl Hu E Hst Hb Hm. assert (Hop := eval_op_ok l e op Hu E). assert (Hl64 : length l <= 64) by lia.
    destruct (thm_imp_run S L l op st Hl64 Hop Hst) as (r & Er & Hr & Hr' & Ha); [auto|exact Hm|].
    exists r. repeat split; try assumption; try apply Hr. intros g. rewrite Ha. apply expr_run; assumption.
  Qed.

  Lemma thm_mapped (l : fops) (e : expr S) op hmap subs s s' n (st : state S) :
    length l <= 17 -> (forall i, uses e i -> In i l) -> eval e = Some op -> st_ok st -> st_sp st = Sub s ->
    (0 <= sub_index s)%Z -> nth_error hmap (Z.to_nat (sub_index s)) = Some (Z.of_nat n) -> nth_error subs n = Some s' ->
    space_ok (Sub s') -> (forall f, In f (basis (Sub s)) -> (f < 2 ^ 64)%N) -> maps_into S l op (Sub s) (Sub s') ->
    exists r, imp_run_map l op hmap subs st = Ok r /\ st_ok r /\ st_sp r = Sub s' /\
      forall g, amplitude r g = amp (meaning (mode l) e (st_vec st)) g.
  Proof.
    intros Hl Hu E Hst Hsp Hi Hm Hs Hok Hb Hmap. assert (Hop := eval_op_ok l e op Hu E). assert (Hl64 : length l <= 64) by lia.
    destruct (thm_imp_run_map S L l op hmap subs s s' n st Hl64 Hop Hst Hsp Hi Hm Hs Hok) as (r & Er & Hr & Hr' & Ha); [auto|exact Hmap|].
    exists r. repeat split; try assumption; try apply Hr. intros g. rewrite Ha. apply expr_run; assumption.
  Qed.

  Lemma thm_missing (l : fops) (e : expr S) op (st : state S) m c i d :
    length l <= 64 -> eval e = Some op -> In (m, c) op -> In (mkCop d i) m -> ~ In i l -> imp_run l op st = Throw.
  Proof.
    intros Hl E Hin Hm Hi. destruct (eval_wf S L e) as (a & E' & Hwf & _). rewrite E in E'. injection E' as <-.
    eapply thm_imp_missing; eauto. intros m' c' H. destruct Hwf as [_ Hwf]. rewrite Forall_forall in Hwf. apply (Hwf _ H).
  Qed.
End Thms.

(** ---- 18 orbitals and more ---- *)
Definition orb (k : nat) : indices := [LInt (Z.of_nat k)].
Definition orbs (n : nat) : fops := map orb (seq 0 n).
Definition sub18 : sub_hs := sub_adds (sub_new 0) [196608; 65536]%N.

Lemma orbs_NoDup n : NoDup (orbs n).
Proof.
  apply FinFun.Injective_map_NoDup; [|apply seq_NoDup]. intros a b E. injection E as E. lia.
Qed.
Lemma orbs_find n k : k < n -> find_pos (orbs n) (orb k) = Some k.
Proof.
  unfold orbs. intros H. assert (G : forall m a, a <= k < a + m -> find_pos (map orb (seq a m)) (orb k) = Some (k - a)).
  { induction m as [|m IH]; intros a Ha; [lia|]. cbn [seq map find_pos]. destruct (Nat.eq_dec a k) as [->|Hne].
    - destruct (ieqb (orb k) (orb k)) eqn:E; [f_equal; lia|]. exfalso. assert (ieqb (orb k) (orb k) = true) by (apply ieqb_eq; reflexivity). congruence.
    - destruct (ieqb (orb a) (orb k)) eqn:E.
      + exfalso. apply ieqb_eq in E. injection E as E. lia.
      + rewrite IH by lia. cbn [option_map]. f_equal. lia. }
  rewrite G by lia. f_equal. lia.
Qed.

Lemma cex_18 n : 18 <= n ->
  exists (l : fops) (e : expr ZS) (op : omap ZS) (st r : state ZS) (g : N),
    length l = n /\ NoDup l /\ (forall i, uses e i -> In i l) /\ eval e = Some op /\ st_ok st /\
    (forall f, In f (basis (st_sp st)) -> (f < 2 ^ 18)%N) /\ maps_into ZS l op (st_sp st) (st_sp st) /\
    imp_run l op st = Ok r /\ amplitude r g = 1%Z /\ amp (meaning (mode l) e (st_vec st)) g = (-1)%Z.
Proof.
  intros Hn. assert (E17 := orbs_find n 17 ltac:(lia)).
  exists (orbs n), (EC (orb 17)), (op_c ZS (orb 17)), (mkState (Sub sub18) (AMap [(0, 1%Z : ZS)])),
    (mkState (Sub sub18) (AMap [(1, 1%Z : ZS)])), 65536%N.
  split; [unfold orbs; rewrite map_length; apply seq_length|]. split; [apply orbs_NoDup|].
  split; [intros i <-; apply in_map; apply in_seq; lia|]. split; [reflexivity|]. split.
  { split; [exists 0%Z, [196608; 65536]%N; split; [repeat constructor; simpl; intuition discriminate|reflexivity]|].
    split; repeat constructor; simpl; auto. }
  split; [intros f [<-|[<-|[]]]; reflexivity|].
  assert (Em : mode (orbs n) (orb 17) = 17) by (unfold mode; rewrite E17; reflexivity).
  assert (Ea : forall f, act (mode (orbs n)) [mkCop false (orb 17)] f = act (fun _ => 17) [mkCop false (orb 17)] f).
  { intros f. unfold act, act_cop. cbn [ind dag]. rewrite Em. reflexivity. }
  split.
  { intros m c f b g [E|[]] Hin Ha. injection E as <- <-. rewrite Ea in Ha.
    destruct Hin as [<-|[<-|[]]]; vm_compute in Ha; [|discriminate].
    injection Ha as <- <-. right. left. reflexivity. }
  split; [|split].
  - change (op_c ZS (orb 17)) with [([mkCop false (orb 17)], 1%Z : ZS)]. unfold imp_run. cbn [imp_terms].
    assert (ET : imp_term (orbs n) [mkCop false (orb 17)] (1%Z : ZS) = imp_term (orbs 18) [mkCop false (orb 17)] (1%Z : ZS)).
    { unfold imp_term. cbn [forallb ind]. unfold fops_has. rewrite E17, (orbs_find 18 17) by lia. cbn [andb negb].
      change (fsort (fun i => match find_pos (orbs n) i with Some p => p | None => 0 end) [mkCop false (orb 17)])
        with (Some ([mkCop false (orb 17)], false)).
      change (fsort (fun i => match find_pos (orbs 18) i with Some p => p | None => 0 end) [mkCop false (orb 17)])
        with (Some ([mkCop false (orb 17)], false)).
      cbv beta iota zeta. cbn [forallb ind]. unfold positions, mask_of. cbn [filter map dag ind Bool.eqb fold_left].
      rewrite E17, (orbs_find 18 17) by lia. reflexivity. }
    rewrite ET. vm_compute. reflexivity.
  - vm_compute. reflexivity.
  - unfold meaning, den, act1, apply_mono. cbn [st_vec]. unfold st_vec. cbn [st_sp]. 
    assert (Hfm : forall (v : list (ZS * N)) (F G : ZS * N -> list (ZS * N)), (forall x, F x = G x) -> flat_map F v = flat_map G v).
    { intros v F G H. induction v as [|x v IH]; [reflexivity|]. cbn [flat_map]. rewrite H, IH. reflexivity. }
    rewrite (Hfm _ _ (fun af : ZS * N => match act (fun _ => 17) [mkCop false (orb 17)] (snd af) with
      | Some (s, f') => [(kmul (kmul k1 (sgn s)) (fst af), f')] | None => [] end)).
    + vm_compute. reflexivity.
    + intros x. rewrite Ea. reflexivity.
Qed.
(** the constructor accepts monomials that are not normal ordered, and gives them the
    wrong meaning *)
Lemma cex_raw_order :
  exists (l : fops) (m : monomial) (st r : state ZS) (g : N), length l = 1 /\ st_ok st /\
    imp_run l (op_raw (S := ZS) 1%Z m) st = Ok r /\
    amplitude r g <> amp (apply (mode l) (op_raw (S := ZS) 1%Z m) (st_vec st)) g.
Proof.
  exists [orb 0], [mkCop false (orb 0); mkCop true (orb 0)], (mkState (Full 2) (AVec ([1; 0]%Z : list ZS))),
    (mkState (Full 2) (AVec ([0; 0]%Z : list ZS))), 0%N.
  split; [reflexivity|]. split; [split; [exists 1; split; [lia|reflexivity]|reflexivity]|].
  split; [vm_compute; reflexivity|vm_compute; discriminate].
Qed.
