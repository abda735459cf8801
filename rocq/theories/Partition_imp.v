(** space_partition applied to imperative operators on the full Hilbert space. *)
From Coq Require Import ZArith NArith List Bool Lia Relations.
From Verif Require Import Base Indices Scalar Fock FockFacts OpModel OpExpr OpNormal Op_proofs Hilbert Hilbert_proofs
  State StateSpec State_proofs ImpOp ImpOp_proofs ImpOp_run ImpOp_thms Partition PartitionSpec.
Import ListNotations.

Section Imp.
  Context (S : scalar_ops) (L : scalar_laws S).
  Local Open Scope K_scope.

  (** space_partition.hpp:73-76, 88, 94 and 125-130 : tmp_state(i) = 1; op(tmp_state); the pairs
      visited by foreach.  The state is map-based, as in atom_diag/impl/worker.cpp:57. *)
  Definition imp_cols (l : fops) (op : omap S) (d : Z) : cols S :=
    fun i => match st_basis S true (Full d) i with
             | Ok st => match imp_run l op st with Ok r => st_entries r | _ => [] end
             | _ => []
             end.

  (** matrix element <g| e |f> *)
  Definition element (l : fops) (e : expr S) (f g : nat) : S :=
    amp (meaning (mode l) e [(k1, N.of_nat f)]) (N.of_nat g).

  Variable l : fops.
  Variable d : Z.
  Hypothesis Hl : (length l <= 17)%nat.
  Hypothesis Hd : hs_dim (length l) = Ok d.
  Notation size := (Z.to_nat d).

  Lemma basis_len : length (basis (Full d)) = size.
  Proof. unfold basis. rewrite map_length. apply seq_length. Qed.
  Lemma full_ok : space_ok (Full d).
  Proof. exists (length l). split; [lia|exact Hd]. Qed.

  Lemma run_basis (e : expr S) op i : (forall j, uses e j -> In j l) -> eval e = Some op -> (i < size)%nat ->
    exists r, imp_cols l op d i = st_entries r /\ st_ok r /\ st_sp r = Full d /\ (exists m, st_amps r = AMap m) /\
      forall g, (g < size)%nat -> st_coef r g = element l e i g.
  Proof.
    intros Hu He Hi. destruct (st_zero_ok S L true (Full d) full_ok) as [Z1 Z2].
    unfold imp_cols, st_basis.
    destruct (st_update_spec S i (fun _ => k1) (st_zero S true (Full d)) Z1) as (st & -> & Ok1 & Sp1 & Kd & Co).
    { cbn [st_sp st_zero]. rewrite basis_len. exact Hi. }
    assert (Hop := eval_op_ok S L l e op Hu He). destruct (full_maps_into S l op d Hl Hop Hd) as [H1 H2].
    assert (Sp : st_sp st = Full d) by exact Sp1.
    assert (Hl64 : (length l <= 64)%nat) by lia.
    destruct (imp_apply_terms S L l op (Full d) (Full d) Hl64 Hop full_ok full_ok H1 H2) as (ts & Ets & H).
    destruct (st_zero_ok S L (is_map st) (Full d) full_ok) as [Hz1 Hz2].
    destruct (H st (st_zero S (is_map st) (Full d)) Ok1 Sp Hz1) as (r & E & Hok & Hsp & Hkd & Ha).
    { reflexivity. }
    exists r. unfold imp_run. rewrite Ets. cbn [bind]. unfold imp_apply. rewrite Sp in E |- *. rewrite E.
    split; [reflexivity|]. split; [exact Hok|]. split; [exact Hsp|]. split.
    { assert (Km : is_map st = true) by (rewrite kind_is_map; exact Kd).
      unfold kind_of in Hkd. rewrite Km in Hkd. cbn in Hkd. destruct (st_amps r) as [m|v]; [exists m; reflexivity|discriminate]. }
    intros g Hg.
    assert (Hn : nth_error (basis (Full d)) g = Some (N.of_nat g)) by (apply basis_full; auto).
    rewrite <- (amplitude_at S L r g (N.of_nat g)) by (rewrite Hsp; auto using full_ok).
    rewrite Ha, Hz2. rewrite (amp_apply (mode l) S L). unfold st_vec.
    rewrite Sp. unfold element.
    assert (Q : vsum S (fun f => mel (mode l) op f (N.of_nat g)) (combine (map (st_coef st) (seq 0 (length (basis (Full d))))) (basis (Full d)))
                = k1 * mel (mode l) op (N.of_nat i) (N.of_nat g)).
    { rewrite <- (vsum_combine_delta S L (fun f => mel (mode l) op f (N.of_nat g)) i k1 (basis (Full d)) 0 (N.of_nat i)).
      2:{ apply basis_full; auto. }
      apply vsum_combine_ext. intros k Hk. cbn [st_sp st_zero] in Co. rewrite Co by lia. cbn [Nat.add].
      destruct (i =? k)%nat; reflexivity. }
    rewrite Q. rewrite (meaning_mel S L e (mode l) op).
    - destruct L as [R _ _ _ _ _ _]. rewrite (Radd_0_l R). apply (Rmul_1_l R).
    - intros a b Ha' Hb'. apply mode_inj; auto.
    - exact He.
  Qed.

  Lemma cols_spec (e : expr S) op : (forall j, uses e j -> In j l) -> eval e = Some op ->
    in_space S size (imp_cols l op d) /\ once S size (imp_cols l op d) /\
    forall i f a, (i < size)%nat ->
      (In (f, a) (imp_cols l op d i) <-> (f < size)%nat /\ a = element l e i f /\ a <> k0).
  Proof.
    intros Hu He.
    assert (P : forall i f a, (i < size)%nat ->
      (In (f, a) (imp_cols l op d i) <-> (f < size)%nat /\ a = element l e i f /\ a <> k0)).
    { intros i f a Hi. destruct (run_basis e op i Hu He Hi) as (r & -> & Hok & Hsp & (m & Hm) & Hc).
      pose proof (entries_keys S r Hok) as ND. pose proof (entries_bound S r Hok) as FB. rewrite Forall_forall in FB.
      rewrite Hsp, basis_len in FB.
      assert (FI : forall b, In (f, b) (st_entries r) <-> a_find f (st_entries r) = Some b).
      { intros b. clear -ND. induction (st_entries r) as [|[j c] es IH]; cbn; [split; [tauto|discriminate]|].
        cbn in ND. inversion ND; subst. destruct (Nat.eqb_spec j f) as [->|Hne].
        - split.
          + intros [E|E]; [injection E as ->; reflexivity|]. exfalso. apply H1. apply in_map_iff. exists (f, b); auto.
          + intros E. injection E as ->. auto.
        - rewrite <- IH by assumption. split; [intros [E|E]; [congruence|exact E]|auto]. }
      split.
      - intros H. pose proof (FB _ H) as Bf. cbn in Bf. split; [exact Bf|].
        assert (NZ : a <> k0).
        { unfold st_entries in H. rewrite Hm in H. unfold prune in H. apply filter_In in H. destruct H as [_ H]. cbn in H.
          intros ->. assert (kisz (k0 : S) = true) by (apply (sl_isz S L); reflexivity). rewrite H0 in H. discriminate. }
        split; [|exact NZ]. rewrite <- (Hc f Bf). rewrite <- (entries_coef S L r f Hok) by (rewrite Hsp, basis_len; exact Bf).
        unfold mcoef. apply FI in H. rewrite H. reflexivity.
      - intros (Bf & Ea & NZ). apply FI.
        rewrite <- (Hc f Bf) in Ea. rewrite <- (entries_coef S L r f Hok) in Ea by (rewrite Hsp, basis_len; exact Bf).
        unfold mcoef in Ea. destruct (a_find f (st_entries r)); congruence. }
    split; [|split; [|exact P]].
    - intros i f a Hi H. apply P in H; tauto.
    - intros i Hi. destruct (run_basis e op i Hu He Hi) as (r & -> & Hok & _). apply entries_keys; exact Hok.
  Qed.

  (** nonzero matrix elements, in the sense of the partition code and of the operator *)
  Lemma cols_nonzero (e : expr S) op : (forall j, uses e j -> In j l) -> eval e = Some op ->
    forall i f, (i < size)%nat -> (nonzero S kisz (imp_cols l op d) i f <-> (f < size)%nat /\ element l e i f <> k0).
  Proof.
    intros Hu He i f Hi. destruct (cols_spec e op Hu He) as (_ & _ & P). unfold nonzero. split.
    - intros (a & Ha & _). apply P in Ha; [|exact Hi]. destruct Ha as (H1 & -> & H2). auto.
    - intros [H1 H2]. exists (element l e i f). split; [apply P; auto|].
      destruct (kisz (element l e i f)) eqn:E; [|reflexivity]. apply (sl_isz S L) in E. tauto.
  Qed.

  (** c+ and c of one orbital are conjugate *)
  Lemma cdag_c_conjugate j : In j l ->
    conjugate S kisz size (imp_cols l (op_c_dag S j) d) (imp_cols l (op_c S j) d).
  Proof.
    intros Hj i f Hi Hf.
    rewrite (cols_nonzero (ECdag j) (op_c_dag S j)); [|cbn; intros; subst; exact Hj|reflexivity|exact Hi].
    rewrite (cols_nonzero (EC j) (op_c S j)); [|cbn; intros; subst; exact Hj|reflexivity|exact Hf].
    assert (Q : element l (ECdag j) i f = element l (EC j) f i).
    { unfold element, meaning. cbn [den negb]. unfold act1. rewrite !(amp_apply_mono (mode l) S L). cbn [vsum].
      rewrite <- (mel_mono_adjoint (mode l) S [mkCop true j]). reflexivity. }
    rewrite Q. tauto.
  Qed.
End Imp.
