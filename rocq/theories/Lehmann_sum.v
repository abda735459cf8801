(** The terms of the Lehmann representation in the eigenbasis. *)
From Coq Require Import ZArith NArith String List Arith Bool Lia Sorted Permutation Reals Lra.
From Coquelicot Require Import Coquelicot.
From Verif Require Import Base Indices Scalar Fock FockFacts OpModel OpExpr Op_proofs Hilbert Hilbert_proofs AtomDiag AtomDiagSpec AtomDiag_lists
  AtomDiagOps AtomDiagOpsSpec AtomDiagOps_loop AtomDiagOps_sums AtomDiagOps_proofs AtomDiagOps_trace FockSpec AtomDiag_resolve RealAtom Thermal ThermalSpec Csum Thermal_proofs
  Lehmann LehmannSpec Lehmann_fill.
Import ListNotations.
Local Open Scope nat_scope.

Section Sum.
  Context (S : scalar_ops) (L : scalar_laws S) (inj : R -> S) (val : S -> C) (V : complex_view S inj val).
  Notation E := (RE S inj).
  Variable l : fops.
  Notation n := (length l).
  Variable d : Z.
  Hypothesis Hl : n <= 17.
  Hypothesis Hnd : NoDup l.
  Variable keep : N -> bool.
  Variable a : atom S E.
  Hypothesis F : atom_facts S E l d keep a.
  Notation nb := (n_blocks S E a).
  Notation size := (size_of S E a).
  Notation st := (states_of S E a).
  Notation vec := (vectors_of S E a).
  Notation el := (elem S E l a).
  Notation lev := (lev S inj a).
  Hypothesis HCd : operator_represented S E l a (a_cdconn S E a) (a_cdmats S E a) ECdag.
  Hypothesis HC : operator_represented S E l a (a_cconn S E a) (a_cmats S E a) EC.
  Local Open Scope C_scope.

  Add Ring Kring : (sl_ring S L).
  Lemma kmul_0_l (x : S) : kmul k0 x = k0. Proof. ring. Qed.
  Lemma kmul_0_r (x : S) : kmul x k0 = k0. Proof. ring. Qed.
  Lemma z_eq beta : fold_left (fun z row => fold_left Rplus row z) (boltzmann S inj a beta) 0%R = partition_function S inj a beta.
  Proof.
    unfold boltzmann, partition_function. assert (G : forall row z, fold_left Rplus row z = (z + rsum row)%R).
    { unfold rsum. induction row as [|x row IH]; intros z; cbn [fold_left]; [ring|]. rewrite (IH (z + x)%R), (IH (0 + x)%R). ring. }
    generalize (a_eigs S E a) as es. generalize 0%R. intros z es. revert z. induction es as [|e es IH]; intros z; [reflexivity|]. cbn [map fold_left]. rewrite G. apply IH.
  Qed.
  Definition wt (beta : R) (b i : nat) : R := (exp (- beta * lev b i) / partition_function S inj a beta)%R.
  Lemma weights_at beta b : b < nb -> exists w, nth_error (weights S inj a beta) b = Some w /\ forall i, i < size b -> nth i w 0%R = wt beta b i.
  Proof.
    intros Hb. unfold weights. rewrite z_eq. unfold boltzmann. rewrite map_map, nth_error_map. unfold n_blocks in Hb. destruct (nth_error_lt _ _ Hb) as [x Hx]. rewrite Hx. cbn [option_map]. eexists. split; [reflexivity|].
    intros i Hi. rewrite map_map. rewrite (nth_indep _ 0%R ((fun x0 : R => exp (- beta * x0) / partition_function S inj a beta)%R 0%R)) by (rewrite map_length; pose proof (ev_length S inj l d keep a F b x Hx) as Q; cbn in Q |- *; rewrite Q; exact Hi).
    rewrite (map_nth (fun x0 : R => exp (- beta * x0) / partition_function S inj a beta)%R). unfold wt, Thermal_proofs.lev. rewrite Hx. reflexivity.
  Qed.

  Lemma el_zero (e : expr S) b' j b i : (forall f f', In f (st b) -> In f' (st b') -> bracket S l e f' f = k0) -> el e b' j b i = k0.
  Proof.
    intros H. unfold elem, element. apply (ms_zero S L). intros k Hk. rewrite (ms_zero S L); [exact (kmul_0_l _)|]. intros q Hq. rewrite H; [exact (kmul_0_r _)| |]; apply nth_In; assumption.
  Qed.
  Lemma blk b : b < nb -> exists ev, block S E a b (st b) ev (vec b).
  Proof. intros Hb. eexists. exact (block_get S E l d keep a F b Hb). Qed.
  Lemma blk_lt b B ev u : block S E a b B ev u -> b < nb /\ B = st b /\ u = vec b.
  Proof. intros HB. destruct (block_states S E a b B ev u HB) as (Q1 & Q2 & _). destruct HB as (sp & es & H1 & H2 & _). split; [unfold n_blocks; eapply nth_error_Some_lt; exact H2|auto]. Qed.

  (** the matrices and connections of the code, for an operator with single targets *)
  Lemma conn_cases conn mats op n0 o b : operator_represented S E l a conn mats op -> nth_error l n0 = Some o -> single_target S E l a (op o) -> b < nb ->
    exists c, at_conn conn n0 b = Ok c /\
    ((c = (-1)%Z /\ forall b' j i, b' < nb -> el (op o) b' j b i = k0) \/
     (exists b0 M, c = Z.of_nat b0 /\ b0 < nb /\ at_mat S mats n0 b = Ok M /\ (forall j i, j < size b0 -> i < size b -> m_at M j i = el (op o) b0 j b i) /\
       forall b' j i, b' < nb -> b' <> b0 -> el (op o) b' j b i = k0)).
  Proof.
    intros HO Hn HS Hb. destruct (blk b Hb) as [ev HB]. destruct (HO n0 o b _ _ _ Hn HB) as (c & Hc & Hcase). exists c. split.
    { unfold connection in Hc. unfold at_conn. destruct (nth_error conn n0); [|discriminate]. rewrite Hc. reflexivity. }
    destruct Hcase as [(-> & _ & Hz)|(b0 & B' & ev' & u' & M & -> & HB' & HM & (f & f' & Hf & Hf' & Hne) & R1 & R2 & R3)].
    - left. split; [reflexivity|]. intros b' j i Hb'. apply el_zero. intros g g' Hg Hg'. destruct (blk b' Hb') as [ev'' HB'']. exact (Hz b' _ _ _ g g' HB'' Hg Hg').
    - right. destruct (blk_lt _ _ _ _ HB') as (Hb0 & -> & ->). exists b0, M. split; [reflexivity|]. split; [exact Hb0|]. split.
      { unfold op_mat in HM. unfold at_mat. destruct (nth_error mats n0); [|discriminate]. destruct (nth_error l0 b) as [[m|]|]; try discriminate. injection HM as ->. reflexivity. }
      split; [intros j i Hj Hi; apply R3; assumption|].
      intros b' j i Hb' Hne'. apply el_zero. intros g g' Hg Hg'. destruct (kisz (bracket S l (op o) g' g)) eqn:Q; [apply (sl_isz S L); exact Q|]. exfalso. apply Hne'.
      destruct (blk b' Hb') as [ev'' HB'']. refine (HS b b' b0 _ _ _ _ _ _ _ _ _ g f g' f' HB HB'' HB' Hg Hf Hg' Hf' _ Hne). intros H. apply (sl_isz S L) in H. congruence.
  Qed.

  Lemma lev_nth b x i : nth_error (a_eigs S E a) b = Some x -> nth i (evals S E x) 0%R = lev b i.
  Proof. intros H. unfold Thermal_proofs.lev. rewrite H. reflexivity. Qed.

  Context (beta : R) (excluded : list (nat * nat)).
  Definition resd (A B : expr S) (b i b' j : nat) : S := kmul (kmul (inj (wt beta b i + wt beta b' j)) (el A b i b' j)) (el B b' j b i).
  Definition contrib (A B : expr S) (phi : R -> C) (b i b' j : nat) : C :=
    if is_excluded excluded b i || is_excluded excluded b' j then RtoC 0 else
    if negligible S val (resd A B b i b' j) then RtoC 0 else val (resd A B b i b' j) * phi (lev b' j - lev b i)%R.
  Definition total (ts : list (term S)) (phi : R -> C) : C := csum ts (fun t => val (t_res S t) * phi (t_pole S t)).
  Lemma eps_pos : (0 < eps)%R.
  Proof. unfold eps. apply Rinv_0_lt_compat. apply pow_lt. lra. Qed.
  Lemma negligible0 r : r = k0 -> negligible S val r = true.
  Proof. intros ->. unfold negligible. rewrite (cv_0 _ _ _ V), Cmod_0. destruct (Rlt_dec 0 eps) as [H|H]; [reflexivity|]. exfalso. apply H. exact eps_pos. Qed.
  Lemma contrib0 A B phi b i b' j : resd A B b i b' j = k0 -> contrib A B phi b i b' j = RtoC 0.
  Proof. intros H. unfold contrib. rewrite (negligible0 _ H). destruct (_ || _); reflexivity. Qed.
  Lemma contrib_l A B phi b i b' j : el A b i b' j = k0 -> contrib A B phi b i b' j = RtoC 0.
  Proof. intros H. apply contrib0. unfold resd. rewrite H, kmul_0_r, kmul_0_l. reflexivity. Qed.
  Lemma contrib_r A B phi b i b' j : el B b' j b i = k0 -> contrib A B phi b i b' j = RtoC 0.
  Proof. intros H. apply contrib0. unfold resd. rewrite H. exact (kmul_0_r _). Qed.

  Lemma total_flat {A} (h : A -> list (term S)) xs phi : total (flat_map h xs) phi = csum xs (fun x => total (h x) phi).
  Proof. unfold total. apply csum_flat. Qed.

  Lemma block_sum bl i1 i2 n1 n2 o1 o2 b : nth_error l n1 = Some o1 -> nth_error l n2 = Some o2 -> single_target S E l a (EC o1) -> single_target S E l a (ECdag o2) -> b < nb ->
    exists ts, block_terms S inj val a beta excluded bl i1 i2 n1 n2 b = Ok ts /\
      forall phi, total ts phi = csum (seq 0 (size b)) (fun i => csum (seq 0 nb) (fun b' => csum (seq 0 (size b')) (fun j => contrib (EC o1) (ECdag o2) phi b i b' j))).
  Proof.
    intros H1 H2 S1 S2 Hb. unfold block_terms.
    destruct (conn_cases _ _ ECdag n2 o2 b HCd H2 S2 Hb) as (c & -> & [(-> & Hz)|(b0 & Md & -> & Hb0 & HMd & Hd1 & Hd2)]); cbn [bind].
    - exists []. split; [reflexivity|]. intros phi. symmetry. apply csum_zero. intros i _. apply csum_zero. intros b' Hb'. apply in_seq in Hb'. apply csum_zero. intros j _. apply contrib_r. apply Hz. lia.
    - destruct (Z.eqb_spec (Z.of_nat b0) (-1)) as [Hx|_]; [lia|]. destruct (Z.ltb_spec (Z.of_nat b0) 0) as [Hx|_]; [lia|]. rewrite Nat2Z.id.
      destruct (conn_cases _ _ EC n1 o1 b0 HC H1 S1 Hb0) as (c & -> & Hcase); cbn [bind].
      assert (Out : forall phi i b' j, b' < nb -> b' <> b0 -> contrib (EC o1) (ECdag o2) phi b i b' j = RtoC 0) by (intros; apply contrib_r; apply Hd2; assumption).
      assert (None : (forall i j, el (EC o1) b i b0 j = k0) -> forall phi, total [] phi = csum (seq 0 (size b)) (fun i => csum (seq 0 nb) (fun b' => csum (seq 0 (size b')) (fun j => contrib (EC o1) (ECdag o2) phi b i b' j)))).
      { intros Hz phi. symmetry. apply csum_zero. intros i _. apply csum_zero. intros b' Hb'. apply in_seq in Hb'. apply csum_zero. intros j _.
        destruct (Nat.eq_dec b' b0) as [->|Hne]; [apply contrib_l; apply Hz|apply Out; [lia|exact Hne]]. }
      destruct Hcase as [(-> & Hz)|(b1 & Mc & -> & Hb1 & HMc & Hc1 & Hc2)].
      + destruct (Z.eqb_spec (-1) (Z.of_nat b)) as [Hx|_]; [lia|]. cbn [negb]. exists []. split; [reflexivity|]. apply None. intros i j. apply Hz. exact Hb.
      + destruct (Z.eqb_spec (Z.of_nat b1) (Z.of_nat b)) as [Hx|Hx]; cbn [negb].
        2: { exists []. split; [reflexivity|]. apply None. intros i j. apply Hc2; [exact Hb|]. intros ->. apply Hx. reflexivity. }
        apply Nat2Z.inj in Hx. subst b1.
        destruct (weights_at beta b Hb) as (wa & Wa & Wa'). destruct (weights_at beta b0 Hb0) as (wb & Wb & Wb').
        unfold n_blocks in Hb, Hb0. destruct (nth_error_lt _ _ Hb) as [ea Ea]. destruct (nth_error_lt _ _ Hb0) as [eb Eb].
        unfold at_list. rewrite Wa, Wb, Ea, Eb. cbn [bind]. rewrite HMc, HMd. cbn [bind]. eexists. split; [reflexivity|]. intros phi.
        rewrite total_flat. rewrite (ev_length S inj l d keep a F b ea Ea), (ev_length S inj l d keep a F b0 eb Eb). apply csum_ext. intros i Hi. apply in_seq in Hi.
        rewrite (csum_single _ _ b0); [|exact Hb0|intros b' Hb' Hne; apply csum_zero; intros; apply Out; assumption].
        destruct (is_excluded excluded b i) eqn:X1.
        { unfold total. symmetry. apply csum_zero. intros j _. unfold contrib. rewrite X1. reflexivity. }
        rewrite total_flat. apply csum_ext. intros j Hj. apply in_seq in Hj. unfold contrib. rewrite X1. cbn [orb]. destruct (is_excluded excluded b0 j); [reflexivity|].
        unfold pair_term. rewrite Wa', Wb', (Hc1 i j), (Hd1 j i) by lia. fold (resd (EC o1) (ECdag o2) b i b0 j). destruct (negligible S val _); [reflexivity|].
        unfold total, csum. cbn [fold_right t_res t_pole]. rewrite Cplus_0_r. apply (f_equal (fun x => val _ * phi x)). exact (f_equal2 Rminus (lev_nth b0 eb j Eb) (lev_nth b ea i Ea)).
  Qed.

  Lemma entry_sum bl name i1 i2 : In (orbital name i1) l -> In (orbital name i2) l -> single_target S E l a (EC (orbital name i1)) -> single_target S E l a (ECdag (orbital name i2)) ->
    exists ts, entry_terms S inj val a beta excluded bl name i1 i2 = Ok ts /\
      forall phi, total ts phi = csum (seq 0 nb) (fun b => csum (seq 0 (size b)) (fun i => csum (seq 0 nb) (fun b' => csum (seq 0 (size b')) (fun j => contrib (EC (orbital name i1)) (ECdag (orbital name i2)) phi b i b' j)))).
  Proof.
    intros I1 I2 S1 S2. unfold entry_terms. rewrite (af_fops _ _ _ _ _ _ F). fold (orbital name i1). fold (orbital name i2).
    destruct (find_pos_In _ _ I1) as [n1 N1]. destruct (find_pos_In _ _ I2) as [n2 N2]. unfold fops_at. rewrite N1, N2. cbn [bind]. apply find_pos_nth in N1, N2.
    pose proof (fun b Hb => block_sum bl i1 i2 n1 n2 _ _ b N1 N2 S1 S2 Hb) as B.
    destruct (concatM_total (block_terms S inj val a beta excluded bl i1 i2 n1 n2) (seq 0 nb)) as [ts Hts].
    { intros b Hb. apply in_seq in Hb. destruct (B b ltac:(lia)) as (r & Hr & _). exists r. exact Hr. }
    exists ts. split; [exact Hts|]. intros phi.
    rewrite (concatM_app_sum S _ (fun ts => total ts phi) _ _ Hts); [|reflexivity|intros u v; apply csum_app].
    apply csum_ext. intros b Hb. apply in_seq in Hb. destruct (B b ltac:(lia)) as (r & -> & Hr). apply Hr.
  Qed.
End Sum.
