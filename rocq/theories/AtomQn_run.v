(** Acting on single Fock states, and the quantum numbers the constructor computes. *)
From Coq Require Import ZArith NArith List Arith Bool Lia Sorted.
From Verif Require Import Base Indices Scalar Fock FockFacts OpModel OpExpr OpNormal Op_proofs Hilbert Hilbert_proofs
  State StateSpec State_proofs ImpOp ImpOp_proofs ImpOp_run ImpOp_thms Partition Partition_imp Partition_thms
  AtomDiag AtomDiagSpec AtomDiag_lists AtomDiag_terms AtomDiag_mats AtomDiag_complete AtomQn AtomQnSpec.
Import ListNotations.
Local Open Scope nat_scope.

Section Run.
  Context (S : scalar_ops) (L : scalar_laws S) (E : energy_ops S).
  Local Open Scope K_scope.
  Add Ring KringQ : (sl_ring S L).
  Variable q_real : S -> E.
  Variable q_complex : S -> bool.
  Variable q_lt : E -> E -> bool.
  Variable l : fops.
  Variable d : Z.
  Hypothesis Hl : (length l <= 17)%nat.
  Hypothesis Hd : hs_dim (length l) = Ok d.
  Notation pos := (mode l).
  Notation size := (Z.to_nat d).
  Notation fock := (fock l).

  Lemma ksum_delta (B : list N) f (F : N -> S) : NoDup B -> In f B -> (forall g, g <> f -> F g = k0) -> ksum (map F B) = F f.
  Proof.
    intros HN Hin Hz. induction HN as [|x B Hx HN IH]; [destruct Hin|]. cbn [map ksum]. destruct Hin as [->|Hin].
    - assert (Q : ksum (map F B) = k0).
      { clear IH HN. induction B as [|y B IH]; [reflexivity|]. cbn [map ksum]. rewrite Hz, IH; [ring|intros H; apply Hx; right; exact H|intros ->; apply Hx; left; reflexivity]. }
      rewrite Q. ring.
    - rewrite IH by exact Hin. rewrite Hz; [ring|intros ->; contradiction].
  Qed.
  Lemma full_basis_nodup : NoDup (basis (Full d)).
  Proof. cbn. apply FinFun.Injective_map_NoDup; [intros x y H; apply Nat2N.inj, H|apply seq_NoDup]. Qed.

  (** st is c |f>, or zero when c is *)
  Definition pure (st : state S) (f : N) (c : S) : Prop :=
    st_ok st /\ st_sp st = Full d /\ kind_of S st = false /\ forall g, amplitude st g = if N.eqb g f then c else k0.

  Lemma basis_pure r : (r < size)%nat -> exists st, st_basis S false (Full d) r = Ok st /\ pure st (N.of_nat r) k1.
  Proof.
    intros Hr. assert (Hh : space_ok (Full d)) by (exists (length l); split; [lia|exact Hd]).
    destruct (st_zero_ok S L false (Full d) Hh) as [Z1 Z2].
    assert (Lb : length (basis (Full d)) = size) by (cbn; rewrite map_length; apply seq_length).
    destruct (st_update_spec S r (fun _ => k1) (st_zero S false (Full d)) Z1) as (st & Est & Ok1 & Sp1 & Kd & Co).
    { cbn [st_sp st_zero]. rewrite Lb. exact Hr. }
    exists st. split; [exact Est|]. split; [exact Ok1|]. split; [exact Sp1|]. split; [rewrite Kd; reflexivity|].
    intros g. cbn [st_sp st_zero] in Sp1, Co.
    destruct (in_dec N.eq_dec g (basis (Full d))) as [Hg|Hg].
    - apply In_nth_error in Hg. destruct Hg as [i Hi]. rewrite <- Sp1 in Hi. rewrite (amplitude_at S L st i g); [|rewrite Sp1; exact Hh|exact Hi].
      rewrite Sp1 in Hi. assert (Hi' := Hi). cbn in Hi. rewrite nth_error_map in Hi.
      destruct (nth_error (seq 0 size) i) as [j|] eqn:Ej; [|discriminate]. injection Hi as <-.
      pose proof (nth_error_Some_lt _ _ _ Hi') as Hlt. rewrite Co by exact Hlt. rewrite Lb in Hlt.
      apply nth_error_nth with (d := O) in Ej. rewrite seq_nth in Ej by exact Hlt. cbn in Ej. subst j.
      assert (Zi : st_coef (st_zero S false (Full d)) i = k0) by (unfold st_coef, st_zero; cbn [st_amps]; apply nth_repeat).
      rewrite Zi. destruct (Nat.eqb_spec r i) as [->|Hne]; [rewrite N.eqb_refl; reflexivity|].
      destruct (N.eqb_spec (N.of_nat i) (N.of_nat r)) as [e|]; [apply Nat2N.inj in e; congruence|reflexivity].
    - rewrite (amplitude_out S L) by (rewrite Sp1; exact Hg). destruct (N.eqb_spec g (N.of_nat r)) as [->|]; [|reflexivity].
      exfalso. apply Hg. apply in_map_iff. exists r. split; [reflexivity|]. apply in_seq. lia.
  Qed.

  Lemma vsum_pure st f c F : pure st f c -> fock f -> vsum S F (st_vec st) = c * F f.
  Proof.
    intros (Hok & Hsp & _ & Ha) Hf. rewrite vsum_amp_basis.
    assert (Hh : space_ok (st_sp st)) by apply Hok.
    set (B := basis (st_sp st)).
    transitivity (ksum (map (fun g => amplitude st g * F g) B)).
    - assert (Q : map (fun i => nth i B 0%N) (seq 0 (length B)) = B).
      { apply nth_ext with (d := 0%N) (d' := 0%N); [rewrite map_length; apply seq_length|]. intros n Hn. rewrite map_length, seq_length in Hn.
        apply nth_of_error. rewrite nth_error_map. destruct (nth_error_lt (seq 0 (length B)) n) as [j Hj]; [rewrite seq_length; exact Hn|].
        rewrite Hj. cbn [option_map]. apply nth_error_nth with (d := O) in Hj. rewrite seq_nth in Hj by exact Hn. subst j. reflexivity. }
      transitivity (ksum (map (fun g => amplitude st g * F g) (map (fun i => nth i B 0%N) (seq 0 (length B))))); [|rewrite Q; reflexivity].
      rewrite map_map. f_equal. apply map_ext_in. intros i Hi. apply in_seq in Hi. f_equal. symmetry. apply (amplitude_at S L); [exact Hh|].
      destruct (nth_error_lt B i) as [g Hg]; [lia|]. fold B. rewrite Hg. f_equal. symmetry. apply nth_of_error, Hg.
    - unfold B. rewrite Hsp. rewrite (ksum_delta _ f); [rewrite Ha, N.eqb_refl; reflexivity|apply full_basis_nodup| |].
      + apply (full_bound l d Hl Hd). exact Hf.
      + intros g Hg. rewrite Ha. destruct (N.eqb_spec g f); [contradiction|ring].
  Qed.

  Lemma run_pure st f c e op : (forall j, uses e j -> In j l) -> eval e = Some op -> pure st f c -> fock f ->
    exists r, imp_run l op st = Ok r /\ st_ok r /\ st_sp r = Full d /\ kind_of S r = false /\ forall g, amplitude r g = c * bracket S l e g f.
  Proof.
    intros Hu He Hp Hf. assert (Hp' := Hp). destruct Hp' as (Hok & Hsp & Hk & _).
    pose proof (eval_op_ok S L l e op Hu He) as Hop. destruct (full_maps_into S l op d Hl Hop Hd) as [F1 F2].
    assert (Hl64 : (length l <= 64)%nat) by lia.
    assert (Hh : space_ok (Full d)) by (exists (length l); split; [lia|exact Hd]).
    destruct (imp_apply_terms S L l op (Full d) (Full d) Hl64 Hop Hh Hh F1 F2) as (ts & Ets & H).
    destruct (st_zero_ok S L (is_map st) (Full d) Hh) as [Z1 Z2].
    destruct (H st (st_zero S (is_map st) (Full d)) Hok Hsp Z1 eq_refl) as (r & Er & Rok & Rsp & Rk & Ra).
    exists r. unfold imp_run. rewrite Ets. cbn [bind]. unfold imp_apply. rewrite Hsp in Er |- *. rewrite Er. split; [reflexivity|].
    split; [exact Rok|]. split; [exact Rsp|]. split.
    - rewrite Rk. unfold kind_of, st_zero. cbn [st_amps]. unfold kind_of in Hk. unfold is_map. destruct (st_amps st); [discriminate|reflexivity].
    - intros g. rewrite Ra, Z2, (amp_apply pos S L), (vsum_pure st f c _ Hp Hf), (bracket_mel S L l e op f g Hu He). ring.
  Qed.

  Lemma dot_pure st r f c : pure st f c -> fock f -> st_ok r -> st_sp r = Full d -> kind_of S r = false ->
    st_dot st r = Ok (kconj c * amplitude r f).
  Proof.
    intros (Hok & Hsp & Hk & Ha) Hf Rok Rsp Rk. rewrite (thm_st_dot S L st r Hok Rok); [|congruence|].
    - f_equal. rewrite Hsp. rewrite (ksum_delta _ f); [rewrite Ha, N.eqb_refl; reflexivity|apply full_basis_nodup|apply (full_bound l d Hl Hd); exact Hf|].
      intros g Hg. rewrite Ha. destruct (N.eqb_spec g f); [contradiction|]. rewrite (kconj_0 S L). ring.
    - unfold same_kind. unfold kind_of in Hk, Rk. destruct (st_amps st); [discriminate|]. destruct (st_amps r); [discriminate|exact I].
  Qed.

  Variable qs : list (expr S).
  Variable qns : list (omap S).
  Hypothesis Hqs : Forall2 (fun q op => (forall j, uses q j -> In j l) /\ eval q = Some op) qs qns.
  Hypothesis QL : qn_laws S E q_complex q_lt.
  Notation qnum := (qnum S E q_real l qs).

  (** c has absolute value one *)
  Lemma get_qn_pure st f c : pure st f c -> fock f -> kconj c * c = k1 ->
    (forall q, In q qs -> q_complex (bracket S l q f f) = false) -> get_qn S E q_real q_complex l qns st = Ok (qnum f).
  Proof.
    intros Hp Hf Hc. unfold get_qn, qnum. induction Hqs as [|q op qs' qns' [Hu He] H IH]; intros Hr; [reflexivity|].
    cbn [mapM map]. unfold qn_one at 1. destruct (run_pure st f c q op Hu He Hp Hf) as (r & Er & R1 & R2 & R3 & R4). rewrite Er. cbn [bind].
    rewrite (dot_pure st r f c Hp Hf R1 R2 R3). cbn [bind].
    assert (Q : kconj c * amplitude r f = bracket S l q f f). { rewrite R4. transitivity (kconj c * c * bracket S l q f f); [ring|]. rewrite Hc. ring. }
    rewrite Q, (Hr q (or_introl eq_refl)). cbn [bind]. rewrite IH; first [reflexivity|exact H|intros q' Hq'; apply Hr; right; exact Hq'].
  Qed.
  Lemma get_qn_complex st f c : pure st f c -> fock f -> kconj c * c = k1 ->
    (exists q, In q qs /\ q_complex (bracket S l q f f) = true) -> get_qn S E q_real q_complex l qns st = Throw.
  Proof.
    intros Hp Hf Hc. unfold get_qn. induction Hqs as [|q op qs' qns' [Hu He] H IH]; intros (q' & Hin & Hq'); [destruct Hin|].
    cbn [mapM]. unfold qn_one at 1. destruct (run_pure st f c q op Hu He Hp Hf) as (r & Er & R1 & R2 & R3 & R4). rewrite Er. cbn [bind].
    rewrite (dot_pure st r f c Hp Hf R1 R2 R3). cbn [bind].
    assert (Q : kconj c * amplitude r f = bracket S l q f f). { rewrite R4. transitivity (kconj c * c * bracket S l q f f); [ring|]. rewrite Hc. ring. }
    rewrite Q. destruct (q_complex (bracket S l q f f)) eqn:Ec; [reflexivity|]. cbn [bind]. rewrite IH; first [reflexivity|exact H|destruct Hin as [->|Hin]; [congruence|eauto]].
  Qed.
  Lemma get_qn_zero st f : pure st f k0 -> fock f -> exists q, get_qn S E q_real q_complex l qns st = Ok q.
  Proof.
    intros Hp Hf. unfold get_qn. induction Hqs as [|q op qs' qns' [Hu He] H IH]; [eexists; reflexivity|].
    cbn [mapM]. unfold qn_one at 1. destruct (run_pure st f k0 q op Hu He Hp Hf) as (r & Er & R1 & R2 & R3 & R4). rewrite Er. cbn [bind].
    rewrite (dot_pure st r f k0 Hp Hf R1 R2 R3). cbn [bind]. rewrite (kconj_0 S L).
    replace (k0 * amplitude r f) with (k0 : S) by ring. rewrite (ql_zero S E q_complex q_lt QL). cbn [bind]. destruct IH as [q' ->]; first [eexists; reflexivity|exact H].
  Qed.

  (** c+ or c of orbital o on a Fock state *)
  Definition opc (x : bool) (o : indices) : omap S := if x then op_c_dag S o else op_c S o.
  Definition ex (x : bool) (o : indices) : expr S := if x then ECdag o else EC o.
  Lemma ex_uses x o j : In o l -> uses (ex x o) j -> In j l.
  Proof. intros Ho. destruct x; cbn; intros <-; exact Ho. Qed.
  Lemma ex_eval x o : eval (ex x o) = Some (opc x o).
  Proof. destruct x; reflexivity. Qed.
  Lemma ex_mel x o f g : In o l -> bracket S l (ex x o) g f = @mel_mono pos S [mkCop x o] f g.
  Proof.
    intros Ho. rewrite (bracket_mel S L l (ex x o) (opc x o) f g); [|intros j; apply ex_uses; exact Ho|apply ex_eval].
    destruct x; [change (opc true o) with [([mkCop true o], k1 : S)]|change (opc false o) with [([mkCop false o], k1 : S)]]; cbn [mel]; ring.
  Qed.
  Lemma sgn_one b : kconj (sgn b : S) * sgn b = k1.
  Proof. rewrite (sgn_conj S L). destruct b; unfold sgn; ring. Qed.
  Lemma ex_fock x o f b g : In o l -> fock f -> act pos [mkCop x o] f = Some (b, g) -> fock g.
  Proof.
    intros Ho Hf Ha. unfold AtomQnSpec.fock in *. apply bits_low. intros k Hk. pose proof (high_bits _ _ k Hf Hk) as Hb. pose proof (mode_lt l o Ho) as Hm.
    cbn [act] in Ha. unfold act_cop in Ha. cbn [dag ind] in Ha. cbv zeta in Ha. destruct x, (N.testbit f (N.of_nat (pos o))); try discriminate; injection Ha as _ <-.
    - rewrite setbit_nat, Hb. destruct (Nat.eqb_spec (pos o) k); [lia|reflexivity].
    - rewrite clearbit_nat, Hb. apply andb_false_r.
  Qed.
  Lemma opc_pure x o st f : In o l -> pure st f k1 -> fock f ->
    exists t, imp_run l (opc x o) st = Ok t /\
    ((exists g b, pure t g (sgn b) /\ fock g /\ bracket S l (ex x o) g f <> k0 /\ forall g', bracket S l (ex x o) g' f <> k0 -> g' = g) \/
     (pure t f k0 /\ forall g', bracket S l (ex x o) g' f = k0)).
  Proof.
    intros Ho Hp Hf. destruct (run_pure st f k1 (ex x o) (opc x o)) as (t & Et & T1 & T2 & T3 & T4); [intros j; apply ex_uses; exact Ho|apply ex_eval|exact Hp|exact Hf|].
    exists t. split; [exact Et|].
    destruct (act pos [mkCop x o] f) as [[b g]|] eqn:Ea.
    - left. exists g, b. assert (Q : forall g', bracket S l (ex x o) g' f = if N.eqb g' g then sgn b else k0).
      { intros g'. rewrite ex_mel by exact Ho. unfold mel_mono. rewrite Ea, N.eqb_sym. reflexivity. }
      split; [|split; [eapply ex_fock; eassumption|split]].
      + split; [exact T1|]. split; [exact T2|]. split; [exact T3|]. intros g'. rewrite T4, Q. destruct (N.eqb g' g); ring.
      + rewrite Q, N.eqb_refl. apply (sgn_nz S L).
      + intros g'. rewrite Q. destruct (N.eqb_spec g' g); [auto|congruence].
    - right. assert (Q : forall g', bracket S l (ex x o) g' f = k0).
      { intros g'. rewrite ex_mel by exact Ho. unfold mel_mono. rewrite Ea. reflexivity. }
      split; [|exact Q]. split; [exact T1|]. split; [exact T2|]. split; [exact T3|]. intros g'. rewrite T4, Q. destruct (N.eqb g' f); ring.
  Qed.
End Run.
