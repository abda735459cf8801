(** Traces of exponentials in the eigenbasis, the spectral sum rule, positivity. *)
From Coq Require Import ZArith NArith String List Arith Bool Lia Sorted Permutation Reals Lra.
From Coquelicot Require Import Coquelicot.
From Verif Require Import Base Indices Scalar Fock FockFacts ImpOp_run OpModel OpExpr Op_proofs Hilbert Hilbert_proofs AtomDiag AtomDiagSpec AtomDiag_lists
  AtomDiagOps AtomDiagOpsSpec AtomDiagOps_loop AtomDiagOps_sums AtomDiagOps_proofs AtomDiagOps_trace FockSpec AtomDiag_resolve RealAtom Thermal ThermalSpec Csum Thermal_proofs
  Lehmann LehmannSpec Lehmann_fill Lehmann_sum.
Import ListNotations.
Local Open Scope nat_scope.

Lemma csum_mod {A} (f : A -> C) xs (b : R) : (forall x, In x xs -> (Cmod (f x) <= b)%R) -> (Cmod (csum xs f) <= INR (length xs) * b)%R.
Proof.
  induction xs as [|x xs IH]; intros H; [cbn [length INR]; unfold csum; cbn [fold_right]; rewrite Cmod_0; lra|].
  rewrite csum_cons. cbn [length]. rewrite S_INR. eapply Rle_trans; [apply Cmod_triangle|]. pose proof (H x (or_introl eq_refl)). pose proof (IH (fun y Hy => H y (or_intror Hy))). lra.
Qed.
Lemma csum_sub {A} (f g : A -> C) xs : (csum xs f - csum xs g = csum xs (fun x => f x - g x))%C.
Proof. induction xs as [|x xs IH]; [unfold csum; cbn [fold_right]; ring|]. rewrite !csum_cons, <- IH. ring. Qed.

Section Green.
  Context (S : scalar_ops) (L : scalar_laws S) (inj : R -> S) (val : S -> C) (V : complex_view S inj val).
  Notation E := (RE S inj).
  Variable l : fops.
  Notation n := (length l).
  Variable d : Z.
  Hypothesis Hl : n <= 17.
  Hypothesis Hnd : NoDup l.
  Variable keep : N -> bool.
  Variable a : atom S E.
  Hypothesis F : atom_facts S E l d keep a.
  Notation nb := (n_blocks S E a).
  Notation size := (size_of S E a).
  Notation st := (states_of S E a).
  Notation vec := (vectors_of S E a).
  Notation el := (elem S E l a).
  Notation lev := (lev S inj a).
  Notation kept := (kept_list n keep).
  Hypothesis HU : forall b, b < nb -> unitary S (size b) (m_at (vec b)).
  Variable h : expr S.
  Hypothesis Hu : forall x, uses h x -> In x l.
  Hypothesis Hstay : stays S l keep h.
  Hypothesis HR : hamiltonian_represented S E l h a.
  Variable g0 : R.
  Hypothesis Hg : a_gs S E a = Some g0.
  Notation H0 := (ESubS h (inj g0)).
  Local Open Scope C_scope.
  Notation expo := (exponential S val l keep H0).
  Notation ats := (fun b k => nth k (st b) 0%N).

  Definition cel (m : N -> N -> C) (b' j b i : nat) : C :=
    csum (seq 0 (size b)) (fun k => csum (seq 0 (size b')) (fun q => Cconj (val (m_at (vec b') q j)) * m (ats b' q) (ats b k)) * val (m_at (vec b) k i)).
  Lemma val_elem o b' j b i : val (el o b' j b i) = cel (fun g f => val (bracket S l o g f)) b' j b i.
  Proof.
    unfold elem, element, cel. rewrite (val_msum S inj val V). apply csum_ext. intros q _. rewrite (cv_mul _ _ _ V). f_equal. rewrite (val_msum S inj val V). apply csum_ext. intros k _. rewrite (cv_mul _ _ _ V), (cv_conj _ _ _ V). reflexivity.
  Qed.
  Lemma exp_at t X : expo t X -> forall b' q b k, b' < nb -> b < nb -> q < size b' -> k < size b -> X (ats b' q) (ats b k) = if (b' =? b) then gibbs S inj val a t b q k else RtoC 0.
  Proof. intros HX. exact (exponential_at S L inj val V l d Hl keep a F HU h Hu Hstay HR g0 Hg t X HX). Qed.
  Lemma kept_sum (phi : N -> C) : csum kept phi = csum (seq 0 nb) (fun b => csum (seq 0 (size b)) (fun k => phi (ats b k))).
  Proof. exact (csum_kept S inj l d Hl keep a F phi). Qed.

  Lemma trace_gibbs_m t X (m : N -> N -> C) : expo t X ->
    csum kept (fun f => csum kept (fun g => X f g * m g f)) = csum (seq 0 nb) (fun b => csum (seq 0 (size b)) (fun i => RtoC (exp (t * lev b i)) * cel m b i b i)).
  Proof.
    intros HX. rewrite kept_sum. apply csum_ext. intros b Hb. apply in_seq in Hb.
    transitivity (csum (seq 0 (size b)) (fun q => csum (seq 0 (size b)) (fun k => gibbs S inj val a t b q k * m (ats b k) (ats b q)))).
    { apply csum_ext. intros q Hq. apply in_seq in Hq. rewrite kept_sum. rewrite (csum_single _ _ b); [|lia|].
      - apply csum_ext. intros k Hk. apply in_seq in Hk. rewrite (exp_at t X HX b q b k) by lia. rewrite Nat.eqb_refl. reflexivity.
      - intros b' Hb' Hne. apply csum_zero. intros k Hk. apply in_seq in Hk. rewrite (exp_at t X HX b q b' k) by lia. destruct (Nat.eqb_spec b b'); [congruence|]. ring. }
    unfold gibbs.
    transitivity (csum (seq 0 (size b)) (fun q => csum (seq 0 (size b)) (fun i => RtoC (exp (t * lev b i)) * (csum (seq 0 (size b)) (fun k => Cconj (val (m_at (vec b) k i)) * m (ats b k) (ats b q)) * val (m_at (vec b) q i))))).
    { apply csum_ext. intros q _.
      transitivity (csum (seq 0 (size b)) (fun k => csum (seq 0 (size b)) (fun i => RtoC (exp (t * lev b i)) * (Cconj (val (m_at (vec b) k i)) * m (ats b k) (ats b q) * val (m_at (vec b) q i))))).
      - apply csum_ext. intros k _. rewrite <- csum_r. apply csum_ext. intros i _. ring.
      - rewrite csum_swap. apply csum_ext. intros i _. rewrite csum_l. f_equal. rewrite <- csum_r. reflexivity. }
    rewrite csum_swap. apply csum_ext. intros i _. rewrite csum_l. f_equal.
  Qed.

  Lemma mid t X (A B : N -> N -> C) b i : expo t X -> b < nb ->
    cel (fun g f => csum kept (fun g' => csum kept (fun h' => A g g' * (X g' h' * B h' f)))) b i b i =
    csum (seq 0 nb) (fun b' => csum (seq 0 (size b')) (fun j => RtoC (exp (t * lev b' j)) * (cel A b i b' j * cel B b' j b i))).
  Proof.
    intros HX Hb. unfold cel at 1.
    transitivity (csum (seq 0 (size b)) (fun k => csum (seq 0 (size b)) (fun q => Cconj (val (m_at (vec b) q i)) *
       csum (seq 0 nb) (fun b' => csum (seq 0 (size b')) (fun j => RtoC (exp (t * lev b' j)) *
         (csum (seq 0 (size b')) (fun p => A (ats b q) (ats b' p) * val (m_at (vec b') p j)) * csum (seq 0 (size b')) (fun r => Cconj (val (m_at (vec b') r j)) * B (ats b' r) (ats b k)))))) * val (m_at (vec b) k i))).
    { apply csum_ext. intros k Hk. f_equal. apply csum_ext. intros q Hq. f_equal. rewrite kept_sum. apply csum_ext. intros b' Hb'. apply in_seq in Hb'.
      transitivity (csum (seq 0 (size b')) (fun p => csum (seq 0 (size b')) (fun r => csum (seq 0 (size b')) (fun j => RtoC (exp (t * lev b' j)) * (A (ats b q) (ats b' p) * val (m_at (vec b') p j) * (Cconj (val (m_at (vec b') r j)) * B (ats b' r) (ats b k))))))).
      { apply csum_ext. intros p Hp. apply in_seq in Hp. rewrite kept_sum. rewrite (csum_single _ _ b'); [|lia|].
        - apply csum_ext. intros r Hr. apply in_seq in Hr. rewrite (exp_at t X HX b' p b' r) by lia. rewrite Nat.eqb_refl. unfold gibbs. rewrite <- csum_r, <- csum_l. apply csum_ext. intros j _. ring.
        - intros b1 Hb1 Hne. apply csum_zero. intros r Hr. apply in_seq in Hr. rewrite (exp_at t X HX b' p b1 r) by lia. destruct (Nat.eqb_spec b' b1); [congruence|]. ring. }
      transitivity (csum (seq 0 (size b')) (fun j => csum (seq 0 (size b')) (fun p => csum (seq 0 (size b')) (fun r => RtoC (exp (t * lev b' j)) * (A (ats b q) (ats b' p) * val (m_at (vec b') p j) * (Cconj (val (m_at (vec b') r j)) * B (ats b' r) (ats b k))))))).
      { transitivity (csum (seq 0 (size b')) (fun p => csum (seq 0 (size b')) (fun j => csum (seq 0 (size b')) (fun r => RtoC (exp (t * lev b' j)) * (A (ats b q) (ats b' p) * val (m_at (vec b') p j) * (Cconj (val (m_at (vec b') r j)) * B (ats b' r) (ats b k))))))).
        - apply csum_ext. intros p _. apply csum_swap.
        - apply csum_swap. }
      apply csum_ext. intros j _. rewrite <- csum_r, <- csum_l. apply csum_ext. intros p _. rewrite <- csum_l, <- csum_l. reflexivity. }
    transitivity (csum (seq 0 (size b)) (fun k => csum (seq 0 nb) (fun b' => csum (seq 0 (size b')) (fun j => RtoC (exp (t * lev b' j)) * (cel A b i b' j * (csum (seq 0 (size b')) (fun r => Cconj (val (m_at (vec b') r j)) * B (ats b' r) (ats b k)) * val (m_at (vec b) k i))))))).
    { apply csum_ext. intros k _.
      transitivity (csum (seq 0 (size b)) (fun q => csum (seq 0 nb) (fun b' => csum (seq 0 (size b')) (fun j => RtoC (exp (t * lev b' j)) *
         (Cconj (val (m_at (vec b) q i)) * csum (seq 0 (size b')) (fun p => A (ats b q) (ats b' p) * val (m_at (vec b') p j)) * (csum (seq 0 (size b')) (fun r => Cconj (val (m_at (vec b') r j)) * B (ats b' r) (ats b k)) * val (m_at (vec b) k i))))))).
      { rewrite <- csum_r. apply csum_ext. intros q _. rewrite <- csum_l, <- csum_r. apply csum_ext. intros b' _. rewrite <- csum_l, <- csum_r. apply csum_ext. intros j _. ring. }
      rewrite csum_swap. apply csum_ext. intros b' _. rewrite csum_swap. apply csum_ext. intros j _. rewrite csum_l. f_equal. rewrite csum_r. f_equal. unfold cel.
      transitivity (csum (seq 0 (size b)) (fun q => csum (seq 0 (size b')) (fun p => Cconj (val (m_at (vec b) q i)) * A (ats b q) (ats b' p) * val (m_at (vec b') p j)))).
      - apply csum_ext. intros q _. rewrite <- csum_l. apply csum_ext. intros p _. ring.
      - rewrite csum_swap. apply csum_ext. intros p _. apply csum_r. }
    rewrite csum_swap. apply csum_ext. intros b' _. rewrite csum_swap. apply csum_ext. intros j _. rewrite csum_l, csum_l. reflexivity.
  Qed.

  Lemma trace4_eigen t1 t2 Y X A B : expo t1 Y -> expo t2 X ->
    trace4 S val l keep Y A X B = csum (seq 0 nb) (fun b => csum (seq 0 (size b)) (fun i => csum (seq 0 nb) (fun b' => csum (seq 0 (size b')) (fun j =>
      RtoC (exp (t1 * lev b i)) * (RtoC (exp (t2 * lev b' j)) * (val (el A b i b' j) * val (el B b' j b i))))))).
  Proof.
    intros HY HX. unfold trace4.
    transitivity (csum kept (fun f => csum kept (fun f' => Y f f' * csum kept (fun g' => csum kept (fun g => val (bracket S l A f' g') * (X g' g * val (bracket S l B g f))))))).
    { apply csum_ext. intros f _. apply csum_ext. intros f' _. rewrite <- csum_l. apply csum_ext. intros g' _. rewrite <- csum_l. apply csum_ext. intros g _. ring. }
    rewrite (trace_gibbs_m t1 Y (fun f' f => csum kept (fun g' => csum kept (fun g => val (bracket S l A f' g') * (X g' g * val (bracket S l B g f))))) HY).
    apply csum_ext. intros b Hb. apply in_seq in Hb. apply csum_ext. intros i _. rewrite (mid t2 X (fun g f => val (bracket S l A g f)) (fun g f => val (bracket S l B g f)) b i HX) by lia.
    rewrite <- csum_l. apply csum_ext. intros b' _. rewrite <- csum_l. apply csum_ext. intros j _. rewrite !val_elem. reflexivity.
  Qed.

  (** ---- all the pairs of eigenstates ---- *)
  Definition eigs : list (nat * nat) := flat_map (fun b => map (pair b) (seq 0 (size b))) (seq 0 nb).
  Lemma eigs_length : length eigs = length kept.
  Proof.
    rewrite (Permutation_length (blocks_perm S E l d Hl keep a F)). unfold eigs. generalize (seq 0 nb). intros xs. induction xs as [|b xs IH]; [reflexivity|].
    cbn [flat_map]. rewrite !app_length, IH, map_length, seq_length. reflexivity.
  Qed.
  Lemma csum_eigs (f : nat -> nat -> C) : csum (seq 0 nb) (fun b => csum (seq 0 (size b)) (f b)) = csum eigs (fun p => f (fst p) (snd p)).
  Proof. unfold eigs. rewrite csum_flat. apply csum_ext. intros b _. rewrite csum_map. reflexivity. Qed.
  Definition sum4 (f : nat -> nat -> nat -> nat -> C) : C :=
    csum (seq 0 nb) (fun b => csum (seq 0 (size b)) (fun i => csum (seq 0 nb) (fun b' => csum (seq 0 (size b')) (fun j => f b i b' j)))).
  Lemma sum4_ext f g : (forall b i b' j, b < nb -> i < size b -> b' < nb -> j < size b' -> f b i b' j = g b i b' j) -> sum4 f = sum4 g.
  Proof.
    intros H. unfold sum4. apply csum_ext. intros b Hb. apply csum_ext. intros i Hi. apply csum_ext. intros b' Hb'. apply csum_ext. intros j Hj. apply in_seq in Hb, Hi, Hb', Hj. apply H; lia.
  Qed.
  Lemma sum4_l c f : sum4 (fun b i b' j => c * f b i b' j) = c * sum4 f.
  Proof. unfold sum4. rewrite <- csum_l. apply csum_ext. intros b _. rewrite <- csum_l. apply csum_ext. intros i _. rewrite <- csum_l. apply csum_ext. intros b' _. rewrite <- csum_l. reflexivity. Qed.
  Lemma sum4_add f g : sum4 (fun b i b' j => f b i b' j + g b i b' j) = sum4 f + sum4 g.
  Proof.
    unfold sum4. rewrite <- csum_add. apply csum_ext. intros b _. rewrite <- csum_add. apply csum_ext. intros i _. rewrite <- csum_add. apply csum_ext. intros b' _. rewrite <- csum_add. reflexivity.
  Qed.
  Lemma sum4_bound f (K : R) : (forall b i b' j, b < nb -> i < size b -> b' < nb -> j < size b' -> (Cmod (f b i b' j) <= K)%R) -> (Cmod (sum4 f) <= INR (length kept) * (INR (length kept) * K))%R.
  Proof.
    intros H. unfold sum4. rewrite csum_eigs, <- eigs_length. apply csum_mod. intros [b i] Hp. unfold eigs in Hp. apply in_flat_map in Hp. destruct Hp as (b0 & Hb & Hp). apply in_map_iff in Hp. destruct Hp as (i0 & Q & Hi).
    injection Q as -> ->. cbn [fst snd]. rewrite csum_eigs. apply csum_mod. intros [b' j] Hp. unfold eigs in Hp. apply in_flat_map in Hp. destruct Hp as (b1 & Hb' & Hp). apply in_map_iff in Hp. destruct Hp as (j0 & Q & Hj).
    injection Q as -> ->. apply in_seq in Hb, Hi, Hb', Hj. cbn [fst snd]. apply H; lia.
  Qed.

  Context (beta : R).
  Notation resd := (resd S inj l a beta).
  Notation Zf := (partition_function S inj a beta).
  (** dropping the negligible residues changes a sum by at most eps for each pair of states *)
  Lemma dropped A B (phi : R -> C) (K : R) : (0 <= K)%R -> (forall p, (Cmod (phi p) <= K)%R) ->
    (Cmod (sum4 (contrib S inj val l a beta [] A B phi) - sum4 (fun b i b' j => val (resd A B b i b' j) * phi (lev b' j - lev b i)%R))%C <= INR (length kept) * (INR (length kept) * (eps * K)))%R.
  Proof.
    intros HK Hphi.
    replace (sum4 (contrib S inj val l a beta [] A B phi) - sum4 (fun b i b' j => val (resd A B b i b' j) * phi (lev b' j - lev b i)%R))
      with (sum4 (fun b i b' j => contrib S inj val l a beta [] A B phi b i b' j + - (RtoC 1) * (val (resd A B b i b' j) * phi (lev b' j - lev b i)%R))) by (rewrite sum4_add, sum4_l; ring).
    apply sum4_bound. intros b i b' j _ _ _ _. unfold contrib. cbn [is_excluded existsb orb]. unfold negligible. pose proof eps_pos as Pe. destruct (Rlt_dec _ _) as [Hs|Hs].
    - replace (RtoC 0 + - (RtoC 1) * (val (resd A B b i b' j) * phi (lev b' j - lev b i)%R)) with (- (val (resd A B b i b' j) * phi (lev b' j - lev b i)%R)) by ring.
      rewrite Cmod_opp, Cmod_mult. apply Rmult_le_compat; [apply Cmod_ge_0|apply Cmod_ge_0|lra|apply Hphi].
    - replace (_ + _) with (RtoC 0) by ring. rewrite Cmod_0. apply Rmult_le_pos; lra.
  Qed.

  (** ---- the time-ordered correlation function ---- *)
  Hypothesis Hnb : 0 < nb.
  Lemma Zpos : (0 < Zf)%R.
  Proof. exact (partition_pos S inj l d Hl keep a F beta Hnb). Qed.
  Lemma green_pair tau A B b i b' j :
    val (resd A B b i b' j) * RtoC (- (exp (- tau * (lev b' j - lev b i)) / (1 + exp (- beta * (lev b' j - lev b i)))))%R =
    - (/ RtoC Zf) * (RtoC (exp (- (beta - tau) * lev b i)) * (RtoC (exp (- tau * lev b' j)) * (val (el A b i b' j) * val (el B b' j b i)))).
  Proof.
    pose proof Zpos as Pz. unfold Lehmann_sum.resd. rewrite !(cv_mul _ _ _ V), (cv_inj _ _ _ V). unfold wt.
    set (x := lev b i). set (y := lev b' j).
    assert (Q : ((exp (- beta * x) / Zf + exp (- beta * y) / Zf) * (- (exp (- tau * (y - x)) / (1 + exp (- beta * (y - x))))) = - (/ Zf) * (exp (- (beta - tau) * x) * exp (- tau * y)))%R).
    { pose proof (exp_pos (- beta * (y - x))) as P1.
      replace (exp (- beta * y)) with (exp (- beta * x) * exp (- beta * (y - x)))%R by (rewrite <- exp_plus; f_equal; ring).
      replace (exp (- tau * (y - x))) with (exp (- tau * y) * exp (tau * x))%R by (rewrite <- exp_plus; f_equal; ring).
      replace (exp (- (beta - tau) * x)) with (exp (- beta * x) * exp (tau * x))%R by (rewrite <- exp_plus; f_equal; ring).
      field. split; lra. }
    transitivity (RtoC ((exp (- beta * x) / Zf + exp (- beta * y) / Zf) * (- (exp (- tau * (y - x)) / (1 + exp (- beta * (y - x)))))) * (val (el A b i b' j) * val (el B b' j b i))).
    - rewrite RtoC_mult. ring.
    - rewrite Q. rewrite !RtoC_mult, RtoC_opp, RtoC_inv by lra. ring.
  Qed.
  Lemma green_sum tau Y X A B : expo (- (beta - tau)) Y -> expo (- tau) X ->
    sum4 (fun b i b' j => val (resd A B b i b' j) * RtoC (- (exp (- tau * (lev b' j - lev b i)) / (1 + exp (- beta * (lev b' j - lev b i)))))%R) = - (trace4 S val l keep Y A X B / RtoC Zf).
  Proof.
    intros HY HX. rewrite (trace4_eigen _ _ Y X A B HY HX). fold (sum4 (fun b i b' j => RtoC (exp (- (beta - tau) * lev b i)) * (RtoC (exp (- tau * lev b' j)) * (val (el A b i b' j) * val (el B b' j b i))))).
    transitivity (- (/ RtoC Zf) * sum4 (fun b i b' j => RtoC (exp (- (beta - tau) * lev b i)) * (RtoC (exp (- tau * lev b' j)) * (val (el A b i b' j) * val (el B b' j b i))))); [|unfold Cdiv; ring].
    rewrite <- sum4_l. apply sum4_ext. intros. apply green_pair.
  Qed.

  (** ---- the spectral sum rule ---- *)
  Lemma wt_sum : csum (seq 0 nb) (fun b => csum (seq 0 (size b)) (fun i => RtoC (wt S inj a beta b i))) = RtoC 1.
  Proof.
    pose proof Zpos as Pz. transitivity (RtoC Zf * / RtoC Zf); [|field; intros H; apply RtoC_inj in H; lra].
    rewrite (partition_sum S inj l d Hl keep a F beta) at 1. rewrite <- csum_r. apply csum_ext. intros b _. rewrite <- csum_r. apply csum_ext. intros i _. unfold wt. rewrite RtoC_div by lra. reflexivity.
  Qed.
  Lemma val_el_mul e1 e2 b' j b i : (forall x, uses e1 x -> In x l) -> (forall x, uses e2 x -> In x l) -> stays S l keep e2 -> b < nb ->
    csum (seq 0 nb) (fun c => csum (seq 0 (size c)) (fun k => val (el e1 b' j c k) * val (el e2 c k b i))) = val (el (EMul e1 e2) b' j b i).
  Proof.
    intros H1 H2 Hs Hb. rewrite (elem_mul S L E l d Hl keep a F HU e1 e2 b' j b i H1 H2 Hs Hb), (val_msum S inj val V). apply csum_ext. intros c _. rewrite (val_msum S inj val V). apply csum_ext. intros k _. symmetry. apply (cv_mul _ _ _ V).
  Qed.
  Lemma sum_rule A B (x : S) : (forall y, uses A y -> In y l) -> (forall y, uses B y -> In y l) -> stays S l keep A -> stays S l keep B ->
    (forall g f, bracket S l (EAdd (EMul A B) (EMul B A)) g f = bracket S l (EScal x) g f) ->
    sum4 (fun b i b' j => val (resd A B b i b' j)) = val x.
  Proof.
    intros HA HB SA SB Hx.
    transitivity (sum4 (fun b i b' j => RtoC (wt S inj a beta b i) * (val (el A b i b' j) * val (el B b' j b i)) + RtoC (wt S inj a beta b' j) * (val (el B b' j b i) * val (el A b i b' j)))).
    { apply sum4_ext. intros. unfold Lehmann_sum.resd. rewrite !(cv_mul _ _ _ V), (cv_inj _ _ _ V), RtoC_plus. ring. }
    rewrite sum4_add.
    assert (T1 : sum4 (fun b i b' j => RtoC (wt S inj a beta b i) * (val (el A b i b' j) * val (el B b' j b i))) = csum (seq 0 nb) (fun b => csum (seq 0 (size b)) (fun i => RtoC (wt S inj a beta b i) * val (el (EMul A B) b i b i)))).
    { unfold sum4. apply csum_ext. intros b Hb. apply in_seq in Hb. apply csum_ext. intros i _. rewrite <- (val_el_mul A B b i b i HA HB SB) by lia. rewrite <- csum_l. apply csum_ext. intros b' _. rewrite <- csum_l. reflexivity. }
    assert (T2 : sum4 (fun b i b' j => RtoC (wt S inj a beta b' j) * (val (el B b' j b i) * val (el A b i b' j))) = csum (seq 0 nb) (fun b => csum (seq 0 (size b)) (fun i => RtoC (wt S inj a beta b i) * val (el (EMul B A) b i b i)))).
    { unfold sum4. rewrite csum_eigs. rewrite (csum_ext _ (fun p => csum eigs (fun q => RtoC (wt S inj a beta (fst q) (snd q)) * (val (el B (fst q) (snd q) (fst p) (snd p)) * val (el A (fst p) (snd p) (fst q) (snd q)))))) by (intros p _; apply csum_eigs).
      rewrite csum_swap.
      rewrite <- (csum_eigs (fun b' j => csum eigs (fun x0 => RtoC (wt S inj a beta b' j) * (val (el B b' j (fst x0) (snd x0)) * val (el A (fst x0) (snd x0) b' j))))).
      apply csum_ext. intros b Hb. apply in_seq in Hb. apply csum_ext. intros i _. rewrite <- (val_el_mul B A b i b i HB HA SA) by lia. rewrite csum_l, csum_eigs. reflexivity. }
    rewrite T1, T2, <- csum_add.
    transitivity (csum (seq 0 nb) (fun b => csum (seq 0 (size b)) (fun i => RtoC (wt S inj a beta b i))) * val x); [|rewrite wt_sum; ring].
    rewrite <- csum_r. apply csum_ext. intros b Hb. apply in_seq in Hb. rewrite <- csum_add, <- csum_r. apply csum_ext. intros i Hi. apply in_seq in Hi.
    assert (Q : val (el (EMul A B) b i b i) + val (el (EMul B A) b i b i) = val x).
    { rewrite <- (cv_add _ _ _ V), <- (elem_add S L E l a). rewrite (elem_ext S E l d Hl keep a F _ (EScal x) b i b i); [|lia|lia|intros g f _ _; apply Hx].
      rewrite (elem_scal S L E l d keep a F HU x b i b i), !Nat.eqb_refl by lia. reflexivity. }
    rewrite <- Q. ring.
  Qed.

  (** c and c^dagger *)
  Lemma bracket_c_conj o g f : bracket S l (EC o) g f = kconj (bracket S l (ECdag o) f g).
  Proof.
    unfold bracket, meaning. cbn [den negb]. unfold act1. rewrite !(amp_apply_mono _ S L). unfold vsum. cbn [map ksum fst snd]. 
    rewrite !(sl_conj_mul S L), (sl_conj_add S L), (sl_conj_mul S L), (mel_mono_conj _ S L), !(kconj_1 S L), (kconj_0 S L). do 3 f_equal. rewrite <- (mel_mono_adjoint (mode l) S). reflexivity.
  Qed.
  Lemma el_c_conj o b i b' j : el (EC o) b i b' j = kconj (el (ECdag o) b' j b i).
  Proof.
    unfold elem, element. rewrite (ms_conj S L). symmetry.
    transitivity (msum S (size b) (fun k => msum S (size b') (fun q => kmul (kmul (kconj (m_at (vec b) k i)) (bracket S l (EC o) (ats b k) (ats b' q))) (m_at (vec b') q j)))).
    - apply (ms_ext S). intros k _. rewrite (sl_conj_mul S L), (ms_conj S L), <- (ms_r S L). apply (ms_ext S). intros q _. rewrite (sl_conj_mul S L), (sl_conj_conj S L), bracket_c_conj.
      rewrite !(Rmul_comm (sl_ring S L) _ (kconj (m_at (vec b) k i))), !(Rmul_assoc (sl_ring S L)). rewrite <- !(Rmul_assoc (sl_ring S L)). f_equal. apply (Rmul_comm (sl_ring S L)).
    - rewrite (ms_swap S L). apply (ms_ext S). intros q _. apply (ms_r S L).
  Qed.
  Lemma resd_diag o b i b' j : exists r, (0 <= r)%R /\ val (resd (EC o) (ECdag o) b i b' j) = RtoC r.
  Proof.
    exists ((wt S inj a beta b i + wt S inj a beta b' j) * (Cmod (val (el (ECdag o) b' j b i)) * Cmod (val (el (ECdag o) b' j b i))))%R. pose proof Zpos as Pz. split.
    - apply Rmult_le_pos; [|apply Rmult_le_pos; apply Cmod_ge_0]. apply Rplus_le_le_0_compat; apply Rlt_le, Rdiv_lt_0_compat; try exact Pz; apply exp_pos.
    - unfold Lehmann_sum.resd. rewrite el_c_conj, !(cv_mul _ _ _ V), (cv_inj _ _ _ V), (cv_conj _ _ _ V). set (z := val (el (ECdag o) b' j b i)).
      rewrite RtoC_mult. rewrite <- Cmult_assoc. f_equal. destruct z as [x y]. unfold Cmod. cbn [fst snd]. rewrite sqrt_sqrt by (pose proof (pow2_ge_0 x); pose proof (pow2_ge_0 y); lra).
      unfold Cconj, Cmult, RtoC. cbn [fst snd]. f_equal; ring.
  Qed.
End Green.
