(** The exponential of the Hamiltonian in the eigenbasis, and thermal averages. *)
From Coq Require Import ZArith NArith List Arith Bool Lia Sorted Permutation Reals Lra.
From Coquelicot Require Import Coquelicot.
From Verif Require Import Base Indices Scalar Fock OpModel OpExpr Hilbert AtomDiag AtomDiagSpec AtomDiag_lists
  AtomDiagOps AtomDiagOpsSpec AtomDiagOps_loop AtomDiagOps_sums AtomDiagOps_proofs AtomDiagOps_trace FockSpec AtomDiag_resolve RealAtom Thermal ThermalSpec Csum.
Import ListNotations.
Local Open Scope nat_scope.

Section Thermal.
  Context (S : scalar_ops) (L : scalar_laws S) (inj : R -> S) (val : S -> C) (V : complex_view S inj val).
  Notation E := (RE S inj).
  Variable l : fops.
  Notation n := (length l).
  Variable d : Z.
  Hypothesis Hl : n <= 17.
  Variable keep : N -> bool.
  Variable a : atom S E.
  Hypothesis F : atom_facts S E l d keep a.
  Notation nb := (n_blocks S E a).
  Notation size := (size_of S E a).
  Notation st := (states_of S E a).
  Notation vec := (vectors_of S E a).
  Notation kept := (kept_list n keep).
  Hypothesis HU : forall b, b < nb -> unitary S (size b) (m_at (vec b)).
  Variable h : expr S.
  Hypothesis Hu : forall x, uses h x -> In x l.
  Hypothesis Hstay : stays S l keep h.
  Hypothesis HR : hamiltonian_represented S E l h a.
  Variable g0 : R.
  Hypothesis Hg : a_gs S E a = Some g0.
  Notation H0 := (ESubS h (inj g0)).
  Local Open Scope C_scope.

  Lemma val_ksum {A} (f : A -> S) xs : val (ksum (map f xs)) = csum xs (fun x => val (f x)).
  Proof. induction xs as [|x xs IH]; [apply (cv_0 _ _ _ V)|]. cbn [map ksum]. rewrite (cv_add _ _ _ V), IH. reflexivity. Qed.
  Lemma val_msum m f : val (msum S m f) = csum (seq 0 m) (fun i => val (f i)).
  Proof. apply val_ksum. Qed.

  (** the energies *)
  Definition lev (b i : nat) : R := match nth_error (a_eigs S E a) b with Some x => nth i (evals S E x) 0%R | None => 0%R end.
  Lemma ev_length b x : nth_error (a_eigs S E a) b = Some x -> length (evals S E x) = size b.
  Proof.
    intros Hx. assert (Hb : (b < nb)%nat) by (unfold n_blocks; eapply nth_error_Some_lt; exact Hx).
    pose proof (block_get S E l d keep a F b Hb) as HB. rewrite Hx in HB. exact (proj1 (af_shape _ _ _ _ _ _ F _ _ _ _ HB)).
  Qed.
  Lemma level_lev b i : (b < nb)%nat -> (i < size b)%nat -> level S E a b i = inj (lev b i).
  Proof.
    intros Hb Hi. unfold level, lev. unfold n_blocks in Hb. destruct (nth_error_lt _ _ Hb) as [x Hx]. rewrite Hx. unfold energy.
    rewrite (nth_error_nth' (evals S E x) (0%R : E)); [reflexivity|]. rewrite (ev_length b x Hx). exact Hi.
  Qed.
  Lemma kpow_inj b i m : (b < nb)%nat -> (i < size b)%nat -> val (kpow S (level S E a b i) m) = RtoC (lev b i ^ m).
  Proof.
    intros Hb Hi. induction m as [|m IH]; cbn [kpow pow]; [apply (cv_1 _ _ _ V)|]. rewrite (cv_mul _ _ _ V), IH, level_lev, (cv_inj _ _ _ V) by assumption. symmetry. apply RtoC_mult.
  Qed.

  (** exp(t(H - gs)) between states q and k of block b *)
  Definition gibbs (t : R) (b q k : nat) : C :=
    csum (seq 0 (size b)) (fun c => RtoC (exp (t * lev b c)) * (val (m_at (vec b) q c) * Cconj (val (m_at (vec b) k c)))).
  Lemma exp_entry t b' q b k : (b' < nb)%nat -> (b < nb)%nat -> (q < size b')%nat -> (k < size b)%nat ->
    sums_to (fun m => RtoC (t ^ m / INR (fact m)) * val (bracket S l (epow H0 m) (nth q (st b') 0%N) (nth k (st b) 0%N)))
            (if (b' =? b)%nat then gibbs t b q k else RtoC 0).
  Proof.
    intros Hb' Hb Hq Hk.
    pose proof (fun m => proj2 (pow_bracket S L E l d Hl keep a F HU h Hu Hstay HR g0 Hg m) b' q b k Hb' Hb Hq Hk) as P.
    change (@e_emb S E g0) with (inj g0) in P.
    destruct (Nat.eqb_spec b' b) as [->|Hne].
    - unfold gibbs. eapply sums_ext; [|apply (sums_csum (fun c m => RtoC ((t * lev b c) ^ m / INR (fact m)) * (val (m_at (vec b) q c) * Cconj (val (m_at (vec b) k c))))); intros c _; apply sums_exp].
      intros m. cbv beta. rewrite P, val_msum, <- csum_l. apply csum_ext. intros c Hc. apply in_seq in Hc. rewrite !(cv_mul _ _ _ V), (cv_conj _ _ _ V), kpow_inj by lia.
      rewrite Rpow_mult_distr. unfold Rdiv. rewrite !RtoC_mult. ring.
    - eapply sums_ext; [|apply sums_zero]. intros m. cbv beta. rewrite P, (cv_0 _ _ _ V). ring.
  Qed.

  Lemma kept_at f : In f kept -> exists b k, (b < nb)%nat /\ (k < size b)%nat /\ nth k (st b) 0%N = f.
  Proof. intros H. apply in_kept in H. destruct H. apply (kept_pos S E l d Hl keep a F); assumption. Qed.
  Lemma at_kept b k : (b < nb)%nat -> (k < size b)%nat -> In (nth k (st b) 0%N) kept.
  Proof. intros Hb Hk. apply in_kept. apply (st_kept S E l d Hl keep a F); assumption. Qed.
  Lemma exponential_exists t : exists X, exponential S val l keep H0 t X.
  Proof.
    set (s := fun g f m => RtoC (t ^ m / INR (fact m)) * val (bracket S l (epow H0 m) g f)).
    exists (fun g f => (Series (fun m => fst (s g f m)), Series (fun m => snd (s g f m)))). intros g f Hg' Hf.
    destruct (kept_at g Hg') as (b' & q & Hb' & Hq & <-). destruct (kept_at f Hf) as (b & k & Hb & Hk & <-).
    destruct (exp_entry t b' q b k Hb' Hb Hq Hk) as [E1 E2]. split; cbn [fst snd]; apply Series_correct; eexists; eassumption.
  Qed.
  Lemma exponential_at t X : exponential S val l keep H0 t X -> forall b' q b k, (b' < nb)%nat -> (b < nb)%nat -> (q < size b')%nat -> (k < size b)%nat ->
    X (nth q (st b') 0%N) (nth k (st b) 0%N) = if (b' =? b)%nat then gibbs t b q k else RtoC 0.
  Proof. intros HX b' q b k Hb' Hb Hq Hk. eapply sums_unique; [apply HX; apply at_kept; assumption|apply exp_entry; assumption]. Qed.

  Lemma csum_kept (phi : N -> C) : csum kept phi = csum (seq 0 nb) (fun b => csum (seq 0 (size b)) (fun k => phi (nth k (st b) 0%N))).
  Proof.
    rewrite (csum_perm phi _ _ (blocks_perm S E l d Hl keep a F)), csum_flat. apply csum_ext. intros b _. apply csum_nth.
  Qed.
  Lemma unit_col b i j : (b < nb)%nat -> (i < size b)%nat -> (j < size b)%nat ->
    csum (seq 0 (size b)) (fun k => Cconj (val (m_at (vec b) k i)) * val (m_at (vec b) k j)) = if (i =? j)%nat then RtoC 1 else RtoC 0.
  Proof.
    intros Hb Hi Hj. transitivity (val (msum S (size b) (fun k => kmul (kconj (m_at (vec b) k i)) (m_at (vec b) k j)))).
    - rewrite val_msum. apply csum_ext. intros k _. rewrite (cv_mul _ _ _ V), (cv_conj _ _ _ V). reflexivity.
    - rewrite (proj1 (HU b Hb i j Hi Hj)). unfold delta. destruct (i =? j)%nat; [apply (cv_1 _ _ _ V)|apply (cv_0 _ _ _ V)].
  Qed.

  (** ---- partition function ---- *)
  Lemma rsum_csum {A} (f : A -> R) xs z : RtoC (fold_left Rplus (map f xs) z) = RtoC z + csum xs (fun x => RtoC (f x)).
  Proof. revert z. induction xs as [|x xs IH]; intros z; cbn [map fold_left]; [unfold csum; cbn [fold_right]; ring|]. rewrite IH, csum_cons, RtoC_plus. ring. Qed.
  Lemma partition_sum beta : RtoC (partition_function S inj a beta) = csum (seq 0 nb) (fun b => csum (seq 0 (size b)) (fun i => RtoC (exp (- beta * lev b i)))).
  Proof.
    unfold partition_function.
    assert (G : forall es z, RtoC (fold_left (fun z es => z + rsum (map (fun x : R => exp (- beta * x)) (evals S E es)))%R es z) = RtoC z + csum es (fun x => csum (seq 0 (length (evals S E x))) (fun i => RtoC (exp (- beta * nth i (evals S E x) 0%R))))).
    { induction es as [|x es IH]; intros z; cbn [fold_left]; [unfold csum; cbn [fold_right]; ring|]. rewrite IH, csum_cons, RtoC_plus. unfold rsum. rewrite rsum_csum.
      rewrite (csum_nth (fun x0 : R => RtoC (exp (- beta * x0))) 0%R (evals S E x)). rewrite Cplus_0_l, <- Cplus_assoc. reflexivity. }
    rewrite G. transitivity (csum (a_eigs S E a) (fun x => csum (seq 0 (length (evals S E x))) (fun i => RtoC (exp (- beta * nth i (evals S E x) 0%R))))); [ring|].
    rewrite (csum_nth _ (mkEig S E [] (m_zeros S 0 0)) (a_eigs S E a)). fold nb. unfold n_blocks. apply csum_ext. intros b Hb. apply in_seq in Hb.
    destruct (nth_error_lt (a_eigs S E a) b ltac:(lia)) as [x Hx]. rewrite (nth_of_error _ _ _ _ Hx), (ev_length b x Hx). apply csum_ext. intros i _. unfold lev. rewrite Hx. reflexivity.
  Qed.
  Lemma fold_right_pos {A} (f : A -> R) xs : (forall x, In x xs -> 0 <= f x)%R -> (0 <= fold_right (fun x s => f x + s) 0 xs)%R.
  Proof. induction xs as [|x xs IH]; intros H; cbn [fold_right]; [lra|]. pose proof (H x (or_introl eq_refl)). pose proof (IH ltac:(intros; apply H; right; assumption)). lra. Qed.
  Lemma fold_right_pos1 {A} (f : A -> R) xs : (forall x, In x xs -> 0 <= f x)%R -> (exists x, In x xs /\ 0 < f x)%R -> (0 < fold_right (fun x s => f x + s) 0 xs)%R.
  Proof.
    induction xs as [|x xs IH]; intros H (y & Hy & Py); [destruct Hy|]. cbn [fold_right]. destruct Hy as [->|Hy].
    - pose proof (fold_right_pos f xs ltac:(intros; apply H; right; assumption)). lra.
    - pose proof (H x (or_introl eq_refl)). pose proof (IH ltac:(intros; apply H; right; assumption) (ex_intro _ y (conj Hy Py))). lra.
  Qed.
  Lemma partition_real beta : partition_function S inj a beta = fold_right (fun b s => fold_right (fun i s => exp (- beta * lev b i) + s) 0 (seq 0 (size b)) + s)%R 0%R (seq 0 nb).
  Proof.
    pose proof (partition_sum beta) as P. apply (f_equal fst) in P. rewrite csum_fst in P. cbn [fst RtoC] in P. rewrite P.
    clear P. induction (seq 0 nb) as [|b bs IH]; [reflexivity|]. cbn [fold_right]. rewrite IH. f_equal. rewrite csum_fst. reflexivity.
  Qed.
  Lemma block_nonempty b : (b < nb)%nat -> (0 < size b)%nat.
  Proof.
    intros Hb. destruct (af_cover _ _ _ _ _ _ F) as (_ & C2 & _). destruct (C2 b _ _ _ (block_get S E l d keep a F b Hb)) as [_ Q].
    unfold size_of. destruct (st b); [congruence|cbn; lia].
  Qed.
  Lemma partition_pos beta : (0 < nb)%nat -> (0 < partition_function S inj a beta)%R.
  Proof.
    intros Hnb. rewrite partition_real. apply fold_right_pos1.
    - intros b _. apply fold_right_pos. intros i _. left. apply exp_pos.
    - exists 0%nat. split; [apply in_seq; lia|]. apply fold_right_pos1; [intros i _; left; apply exp_pos|]. exists 0%nat. split; [apply in_seq; pose proof (block_nonempty 0 Hnb); lia|apply exp_pos].
  Qed.
  Lemma fold_right_ge {A} (f : A -> R) xs y : (forall x, In x xs -> 0 <= f x)%R -> In y xs -> (f y <= fold_right (fun x s => f x + s) 0 xs)%R.
  Proof.
    induction xs as [|x xs IH]; intros H Hy; [destruct Hy|]. cbn [fold_right]. destruct Hy as [->|Hy].
    - pose proof (fold_right_pos f xs ltac:(intros; apply H; right; assumption)). lra.
    - pose proof (H x (or_introl eq_refl)). pose proof (IH ltac:(intros; apply H; right; assumption) Hy). lra.
  Qed.
  Lemma weight_le beta b i : (b < nb)%nat -> (i < size b)%nat -> (exp (- beta * lev b i) <= partition_function S inj a beta)%R.
  Proof.
    intros Hb Hi. rewrite partition_real. eapply Rle_trans; [|apply (fold_right_ge (fun b => fold_right (fun i s => exp (- beta * lev b i) + s)%R 0%R (seq 0 (size b))) (seq 0 nb) b); [|apply in_seq; lia]].
    - apply (fold_right_ge (fun i => exp (- beta * lev b i)) (seq 0 (size b)) i); [intros; left; apply exp_pos|apply in_seq; lia].
    - intros c _. apply fold_right_pos. intros; left; apply exp_pos.
  Qed.
  Lemma partition_trace beta X : exponential S val l keep H0 (- beta) X -> RtoC (partition_function S inj a beta) = trace_kept l keep X.
  Proof.
    intros HX. rewrite partition_sum. unfold trace_kept. rewrite csum_kept. apply csum_ext. intros b Hb. apply in_seq in Hb. 
    transitivity (csum (seq 0 (size b)) (fun q => gibbs (- beta) b q q)).
    2:{ apply csum_ext. intros q Hq. apply in_seq in Hq. rewrite (exponential_at _ X HX b q b q) by lia. rewrite Nat.eqb_refl. reflexivity. }
    unfold gibbs. rewrite csum_swap. apply csum_ext. intros i Hi. apply in_seq in Hi. rewrite csum_l.
    transitivity (RtoC (exp (- beta * lev b i)) * csum (seq 0 (size b)) (fun k => Cconj (val (m_at (vec b) k i)) * val (m_at (vec b) k i))).
    - rewrite unit_col by lia. rewrite Nat.eqb_refl. ring.
    - f_equal. apply csum_ext. intros k _. ring.
  Qed.

  (** ---- the density matrix ---- *)
  Notation dm beta := (atomic_density_matrix S inj a beta).
  Notation Zf beta := (partition_function S inj a beta).
  Lemma dm_length beta : length (dm beta) = nb.
  Proof. unfold atomic_density_matrix. rewrite map_length. reflexivity. Qed.
  Lemma dm_block beta b rho : nth_error (dm beta) b = Some rho -> (b < nb)%nat /\ m_rows rho = size b /\ m_cols rho = size b /\
    forall u v, m_at rho u v = if (u =? v)%nat then inj (exp (- beta * lev b u) / Zf beta) else k0.
  Proof.
    unfold atomic_density_matrix. rewrite nth_error_map. destruct (nth_error (a_eigs S E a) b) as [x|] eqn:Hx; [|discriminate]. cbn [option_map]. intros Q. injection Q as <-.
    split; [unfold n_blocks; eapply nth_error_Some_lt; exact Hx|]. unfold density_block. cbn [m_rows m_cols m_at]. split; [exact (ev_length b x Hx)|]. split; [exact (ev_length b x Hx)|].
    intros u v. unfold lev. rewrite Hx. reflexivity.
  Qed.
  Lemma dm_nth beta b : (b < nb)%nat -> nth_error (dm beta) b = Some (nth b (dm beta) (mkMat 0 0 (fun _ _ => k0))).
  Proof. intros Hb. apply nth_error_nth'. rewrite dm_length. exact Hb. Qed.
  Lemma density_fock beta X b rho q k : (0 < nb)%nat -> exponential S val l keep H0 (- beta) X -> nth_error (dm beta) b = Some rho -> (q < size b)%nat -> (k < size b)%nat ->
    val (msum S (size b) (fun i => msum S (size b) (fun j => kmul (kmul (m_at (vec b) q i) (m_at rho i j)) (kconj (m_at (vec b) k j))))) =
    X (nth q (st b) 0%N) (nth k (st b) 0%N) / RtoC (Zf beta).
  Proof.
    intros Hnb HX Hr Hq Hk. destruct (dm_block beta b rho Hr) as (Hb & _ & _ & Hat). pose proof (partition_pos beta Hnb) as Pz.
    rewrite (exponential_at _ X HX b q b k Hb Hb Hq Hk), Nat.eqb_refl. unfold gibbs, Cdiv. rewrite <- csum_r, val_msum. apply csum_ext. intros i Hi. apply in_seq in Hi.
    rewrite val_msum. rewrite (csum_single _ _ i); [|lia|].
    - rewrite Hat, Nat.eqb_refl, !(cv_mul _ _ _ V), (cv_conj _ _ _ V), (cv_inj _ _ _ V), RtoC_div by lra. unfold Cdiv. ring.
    - intros j Hj Hne. rewrite Hat. destruct (Nat.eqb_spec i j); [congruence|]. rewrite !(cv_mul _ _ _ V), (cv_0 _ _ _ V). ring.
  Qed.
  Lemma density_trace beta : (0 < nb)%nat -> msum S nb (fun b => msum S (size b) (fun i => m_at (nth b (dm beta) (mkMat 0 0 (fun _ _ => k0))) i i)) = k1.
  Proof.
    intros Hnb. pose proof (partition_pos beta Hnb) as Pz. apply (cv_eq _ _ _ V). rewrite (cv_1 _ _ _ V), val_msum.
    transitivity (csum (seq 0 nb) (fun b => csum (seq 0 (size b)) (fun i => RtoC (exp (- beta * lev b i)))) * / RtoC (Zf beta)).
    - rewrite <- csum_r. apply csum_ext. intros b Hb. apply in_seq in Hb. rewrite val_msum, <- csum_r. apply csum_ext. intros i _.
      destruct (dm_block beta b _ (dm_nth beta b ltac:(lia))) as (_ & _ & _ & Hat). rewrite Hat, Nat.eqb_refl, (cv_inj _ _ _ V), RtoC_div by lra. reflexivity.
    - rewrite <- partition_sum. field. intros Q. apply (f_equal fst) in Q. cbn in Q. lra.
  Qed.

  (** ---- averages ---- *)
  Lemma trace_gibbs t X o : exponential S val l keep H0 t X ->
    trace_with S val l keep X o = csum (seq 0 nb) (fun b => csum (seq 0 (size b)) (fun i => RtoC (exp (t * lev b i)) * val (elem S E l a o b i b i))).
  Proof.
    intros HX. unfold trace_with. rewrite csum_kept. apply csum_ext. intros b Hb. apply in_seq in Hb.
    transitivity (csum (seq 0 (size b)) (fun q => csum (seq 0 (size b)) (fun k => gibbs t b q k * val (bracket S l o (nth k (st b) 0%N) (nth q (st b) 0%N))))).
    { apply csum_ext. intros q Hq. apply in_seq in Hq. rewrite csum_kept. rewrite (csum_single _ _ b); [|lia|].
      - apply csum_ext. intros k Hk. apply in_seq in Hk. rewrite (exponential_at _ X HX b q b k) by lia. rewrite Nat.eqb_refl. reflexivity.
      - intros b' Hb' Hne. apply csum_zero. intros k Hk. apply in_seq in Hk. rewrite (exponential_at _ X HX b q b' k) by lia. destruct (Nat.eqb_spec b b'); [congruence|]. ring. }
    unfold gibbs.
    transitivity (csum (seq 0 (size b)) (fun q => csum (seq 0 (size b)) (fun i => RtoC (exp (t * lev b i)) * (csum (seq 0 (size b)) (fun k => Cconj (val (m_at (vec b) k i)) * val (bracket S l o (nth k (st b) 0%N) (nth q (st b) 0%N))) * val (m_at (vec b) q i))))).
    { apply csum_ext. intros q _.
      transitivity (csum (seq 0 (size b)) (fun k => csum (seq 0 (size b)) (fun i => RtoC (exp (t * lev b i)) * (Cconj (val (m_at (vec b) k i)) * val (bracket S l o (nth k (st b) 0%N) (nth q (st b) 0%N)) * val (m_at (vec b) q i))))).
      - apply csum_ext. intros k _. rewrite <- csum_r. apply csum_ext. intros i _. ring.
      - rewrite csum_swap. apply csum_ext. intros i _. rewrite csum_l. f_equal. rewrite <- csum_r. reflexivity. }
    rewrite csum_swap. apply csum_ext. intros i _. rewrite csum_l. f_equal. rewrite (elem_pos S E l a). unfold pos_elem. rewrite val_msum. apply csum_ext. intros q _.
    rewrite (cv_mul _ _ _ V). f_equal. rewrite val_msum. apply csum_ext. intros k _. rewrite (cv_mul _ _ _ V), (cv_conj _ _ _ V). reflexivity.
  Qed.
  Lemma average beta X o : (0 < nb)%nat -> exponential S val l keep H0 (- beta) X ->
    val (msum S nb (fun b => msum S (size b) (fun i => msum S (size b) (fun k =>
          kmul (elem S E l a o b i b k) (m_at (nth b (dm beta) (mkMat 0 0 (fun _ _ => k0))) k i))))) = trace_with S val l keep X o / RtoC (Zf beta).
  Proof.
    intros Hnb HX. pose proof (partition_pos beta Hnb) as Pz. rewrite (trace_gibbs (- beta) X o HX). unfold Cdiv. rewrite <- csum_r, val_msum. apply csum_ext. intros b Hb. apply in_seq in Hb.
    rewrite <- csum_r, val_msum. apply csum_ext. intros i Hi. apply in_seq in Hi. rewrite val_msum.
    destruct (dm_block beta b _ (dm_nth beta b ltac:(lia))) as (_ & _ & _ & Hat). rewrite (csum_single _ _ i); [|lia|].
    - rewrite Hat, Nat.eqb_refl, (cv_mul _ _ _ V), (cv_inj _ _ _ V), RtoC_div by lra. unfold Cdiv. ring.
    - intros k Hk Hne. rewrite Hat. destruct (Nat.eqb_spec k i); [congruence|]. rewrite (cv_mul _ _ _ V), (cv_0 _ _ _ V). ring.
  Qed.
End Thermal.
