(** The eigenstates of atom_diag resolve the identity on the kept states: products of operators
    are products of their matrices in the eigenbasis. *)
From Coq Require Import ZArith NArith List Arith Bool Lia Sorted Permutation.
From Verif Require Import Base Indices Scalar Fock FockFacts OpModel OpExpr OpNormal Op_proofs Hilbert Hilbert_proofs
  State StateSpec State_proofs ImpOp ImpOp_proofs ImpOp_run ImpOp_thms Partition Partition_imp AtomDiag AtomDiagSpec AtomDiag_lists AtomDiag_terms
  AtomDiag_mats AtomDiag_final AtomDiagOps AtomDiagOpsSpec AtomDiagOps_mono AtomDiagOps_loop AtomDiagOps_sums AtomDiagOps_proofs FockSpec.
Import ListNotations.
Local Open Scope nat_scope.

Lemma pow2_nat n : N.of_nat (2 ^ n) = (2 ^ N.of_nat n)%N.
Proof. induction n as [|n IH]; [reflexivity|]. rewrite Nat.pow_succ_r', Nat2N.inj_mul, IH, (Nat2N.inj_succ n), N.pow_succ_r by apply N.le_0_l. reflexivity. Qed.
Lemma in_all_states n f : In f (all_states n) <-> (f < 2 ^ N.of_nat n)%N.
Proof.
  unfold all_states. rewrite in_map_iff. rewrite <- pow2_nat. split.
  - intros (k & <- & Hk). apply in_seq in Hk. lia.
  - intros H. exists (N.to_nat f). split; [lia|]. apply in_seq. lia.
Qed.
Lemma all_states_NoDup n : NoDup (all_states n).
Proof. apply FinFun.Injective_map_NoDup; [intros x y; apply Nat2N.inj|apply seq_NoDup]. Qed.
Lemma in_kept n keep f : In f (kept_list n keep) <-> (f < 2 ^ N.of_nat n)%N /\ keep f = true.
Proof. unfold kept_list. rewrite filter_In, in_all_states. reflexivity. Qed.
Lemma kept_NoDup n keep : NoDup (kept_list n keep).
Proof. apply NoDup_filter, all_states_NoDup. Qed.

Lemma NoDup_flat {A B} (f : A -> list B) xs : NoDup xs -> (forall x, In x xs -> NoDup (f x)) -> (forall x y z, In x xs -> In y xs -> In z (f x) -> In z (f y) -> x = y) -> NoDup (flat_map f xs).
Proof.
  induction xs as [|x xs IH]; intros Hn Hd Hs; [constructor|]. cbn [flat_map]. inversion Hn as [|? ? Hni Hn']; subst.
  assert (Hr : NoDup (flat_map f xs)) by (apply IH; [exact Hn'|intros; apply Hd; right; assumption|intros a b c Ha Hb; apply Hs; right; assumption]).
  assert (Hx : NoDup (f x)) by (apply Hd; left; reflexivity).
  assert (Hdis : forall z, In z (f x) -> ~ In z (flat_map f xs)).
  { intros z Hz Hf. apply in_flat_map in Hf. destruct Hf as (y & Hy & Hzy). rewrite (Hs x y z (or_introl eq_refl) (or_intror Hy) Hz Hzy) in Hni. contradiction. }
  revert Hx Hdis. generalize (f x). intros L. induction L as [|z L IHL]; intros Hx Hdis; [exact Hr|]. cbn [app]. inversion Hx; subst. constructor.
  - rewrite in_app_iff. intros [H|H]; [contradiction|]. exact (Hdis z (or_introl eq_refl) H).
  - apply IHL; [assumption|]. intros w Hw. apply Hdis. right. exact Hw.
Qed.

Section Resolve.
  Context (S : scalar_ops) (L : scalar_laws S) (E : energy_ops S).
  Local Open Scope K_scope.
  Add Ring Kring9 : (sl_ring S L).
  Variable l : fops.
  Notation n := (length l).
  Notation pos := (mode l).
  Notation bracket := (bracket S l).

  Lemma act1_bound d i v : In i l -> (forall (x : S) f, In (x, f) v -> (f < 2 ^ N.of_nat n)%N) -> forall x f, In (x, f) (act1 pos d i v) -> (f < 2 ^ N.of_nat n)%N.
  Proof.
    intros Hi Hv x f H. unfold act1, apply_mono in H. apply in_flat_map in H. destruct H as ([y g] & Hy & H). cbn [fst snd] in H.
    destruct (act pos [mkCop d i] g) as [[s g']|] eqn:A; [|destruct H]. destruct H as [H|[]]. injection H as _ <-.
    eapply (act_bound l [mkCop d i] g s g' n); [constructor; [exact Hi|constructor]|apply le_n|eapply Hv; exact Hy|exact A].
  Qed.
  Lemma scale_bound c v : (forall (x : S) f, In (x, f) v -> (f < 2 ^ N.of_nat n)%N) -> forall x f, In (x, f) (scale c v) -> (f < 2 ^ N.of_nat n)%N.
  Proof. intros Hv x f H. unfold scale in H. apply in_map_iff in H. destruct H as ([y g] & Q & H). cbn [fst snd] in Q. injection Q as _ <-. eapply Hv. exact H. Qed.
  Lemma app_bound (v w : list (S * N)) : (forall (x : S) f, In (x, f) v -> (f < 2 ^ N.of_nat n)%N) -> (forall (x : S) f, In (x, f) w -> (f < 2 ^ N.of_nat n)%N) ->
    forall x f, In (x, f) (v ++ w) -> (f < 2 ^ N.of_nat n)%N.
  Proof. intros Hv Hw x f H. apply in_app_iff in H. destruct H; eauto. Qed.
  Lemma den_bound (e : expr S) : (forall i, uses e i -> In i l) -> forall adj v, (forall x f, In (x, f) v -> (f < 2 ^ N.of_nat n)%N) ->
    forall x f, In (x, f) (den pos adj e v) -> (f < 2 ^ N.of_nat n)%N.
  Proof.
    induction e as [c|i|i|i|e IH|e1 IH1 e2 IH2|e1 IH1 e2 IH2|e1 IH1 e2 IH2|e IH c|e IH c|c e IH|e IH c|e IH]; cbn [uses]; intros Hu adj v Hv; cbn [den].
    - apply scale_bound; exact Hv.
    - apply act1_bound; auto.
    - apply act1_bound; auto.
    - apply act1_bound; auto. apply act1_bound; auto.
    - apply scale_bound. apply IH; auto.
    - apply app_bound; [apply IH1|apply IH2]; auto.
    - apply app_bound; [apply IH1|apply scale_bound; apply IH2]; auto.
    - destruct adj; [apply IH2; [|apply IH1]; auto|apply IH1; [|apply IH2]; auto].
    - apply app_bound; [apply IH|apply scale_bound]; auto.
    - apply app_bound; [apply IH|apply scale_bound]; auto.
    - apply app_bound; [apply scale_bound|apply scale_bound; apply IH]; auto.
    - apply scale_bound. apply IH; auto.
    - apply IH; auto.
  Qed.

  Lemma dsum_ks G (v : list (S * N)) D : dsum S G v D = ksum (map (fun h => amp v h * G h) D).
  Proof. induction D as [|h D IH]; [reflexivity|]. cbn [dsum map ksum]. rewrite IH. reflexivity. Qed.
  (** <g| e1 e2 |f> = sum_h <g| e1 |h> <h| e2 |f> *)
  Lemma bracket_mul e1 e2 g f : (forall i, uses e1 i -> In i l) -> (forall i, uses e2 i -> In i l) -> (f < 2 ^ N.of_nat n)%N ->
    bracket (EMul e1 e2) g f = ksum (map (fun h => bracket e1 g h * bracket e2 h f) (all_states n)).
  Proof.
    intros H1 H2 Hf. destruct (eval_wf S L e1) as (a1 & E1 & _). unfold AtomDiagSpec.bracket at 1. unfold meaning. cbn [den].
    rewrite (eval_den S L pos e1 (fun i j Hi Hj => mode_inj l i j (H1 i Hi) (H1 j Hj)) a1 E1 false).
    rewrite (vsum_dsum S L _ _ (all_states n) (all_states_NoDup n)).
    - rewrite dsum_ks. apply ks_ext. intros h _. unfold conj_mel. cbn beta iota.
      rewrite (bracket_mel S L l e1 a1 h g H1 E1). unfold AtomDiagSpec.bracket, meaning. ring.
    - intros x h Hx. apply in_all_states. revert Hx. apply den_bound; [exact H2|]. intros y k [Q|[]]. injection Q as _ <-. exact Hf.
  Qed.
  Lemma bracket_add e1 e2 g f : bracket (EAdd e1 e2) g f = bracket e1 g f + bracket e2 g f.
  Proof. unfold AtomDiagSpec.bracket, meaning. cbn [den]. apply (amp_app S L). Qed.
  Lemma bracket_subs e x g f : bracket (ESubS e x) g f = bracket e g f - (if (f =? g)%N then x else k0).
  Proof. unfold AtomDiagSpec.bracket, meaning. cbn [den]. rewrite (amp_app S L), (amp_scale S L). cbn [amp cj]. destruct (f =? g)%N; ring. Qed.
  Lemma bracket_scal x g f : bracket (EScal x) g f = if (f =? g)%N then x else k0.
  Proof. unfold AtomDiagSpec.bracket, meaning. cbn [den]. rewrite (amp_scale S L). cbn [amp cj]. destruct (f =? g)%N; ring. Qed.

  Lemma ks_perm (xs ys : list S) : Permutation xs ys -> ksum xs = ksum ys.
  Proof. induction 1; cbn [ksum]; [reflexivity|congruence|ring|congruence]. Qed.
  Lemma ks_flat {A} (f : A -> list S) xs : ksum (flat_map f xs) = ksum (map (fun x => ksum (f x)) xs).
  Proof. induction xs as [|x xs IH]; [reflexivity|]. cbn [flat_map map ksum]. rewrite (ksum_app S L), IH. reflexivity. Qed.
  Lemma ks_nth {A} (phi : A -> S) (d : A) xs : ksum (map phi xs) = msum S (length xs) (fun k => phi (nth k xs d)).
  Proof.
    unfold msum. f_equal. induction xs as [|x xs IH]; [reflexivity|]. cbn [length seq map]. f_equal. rewrite <- seq_shift, map_map. rewrite IH. apply map_ext. reflexivity.
  Qed.
  Lemma ks_filter {A} (phi : A -> S) p xs : (forall x, In x xs -> p x = false -> phi x = k0) -> ksum (map phi (filter p xs)) = ksum (map phi xs).
  Proof.
    induction xs as [|x xs IH]; intros H; [reflexivity|]. cbn [filter map ksum]. rewrite <- IH by (intros; apply H; [right|]; assumption).
    destruct (p x) eqn:Q; [reflexivity|]. rewrite (H x (or_introl eq_refl) Q). ring.
  Qed.

  Variable d : Z.
  Hypothesis Hl : n <= 17.
  Variable keep : N -> bool.
  Variable a : atom S E.
  Hypothesis F : atom_facts S E l d keep a.
  Notation block := (block S E a).
  Notation elem := (elem S E l a).
  Notation nb := (n_blocks S E a).
  Notation size := (size_of S E a).
  Notation st := (states_of S E a).
  Notation vec := (vectors_of S E a).
  Notation kept := (kept_list n keep).

  Lemma blocks_perm : Permutation kept (flat_map st (seq 0 nb)).
  Proof.
    apply NoDup_Permutation; [apply kept_NoDup| |].
    - apply NoDup_flat; [apply seq_NoDup| |].
      + intros b Hb. apply in_seq in Hb. eapply (block_NoDup S E l d keep a F). apply (block_get S E l d keep a F). lia.
      + intros b b' f Hb Hb' Hf Hf'. apply in_seq in Hb, Hb'.
        exact (block_same S E l d keep a F _ _ _ _ _ _ _ _ _ (block_get S E l d keep a F b ltac:(lia)) (block_get S E l d keep a F b' ltac:(lia)) Hf Hf').
    - intros f. rewrite in_kept, in_flat_map. destruct (af_cover _ _ _ _ _ _ F) as (C & _). rewrite <- (C f). split.
      + intros (b & B & ev & u & HB & Hf). exists b. split; [apply in_seq; split; [lia|]; apply (block_lt S E a b B ev u HB)|].
        destruct (block_states S E a b B ev u HB) as (-> & _). exact Hf.
      + intros (b & Hb & Hf). apply in_seq in Hb. do 4 eexists. split; [apply (block_get S E l d keep a F b); lia|exact Hf].
  Qed.
  Lemma sum_blocks (phi : N -> S) : ksum (map phi kept) = msum S nb (fun b => msum S (size b) (fun k => phi (nth k (st b) 0%N))).
  Proof.
    rewrite (ks_perm _ _ (Permutation_map phi blocks_perm)). rewrite flat_map_concat_map, concat_map, map_map, <- flat_map_concat_map, ks_flat.
    unfold msum at 1. f_equal. apply map_ext. intros b. apply ks_nth.
  Qed.
  Lemma st_kept b k : b < nb -> k < size b -> (nth k (st b) 0 < 2 ^ N.of_nat n)%N /\ keep (nth k (st b) 0%N) = true.
  Proof.
    intros Hb Hk. apply in_kept. apply (Permutation_in _ (Permutation_sym blocks_perm)). apply in_flat_map. exists b. split; [apply in_seq; lia|]. apply nth_In. exact Hk.
  Qed.
  Lemma kept_pos f : (f < 2 ^ N.of_nat n)%N -> keep f = true -> exists b k, b < nb /\ k < size b /\ nth k (st b) 0%N = f.
  Proof.
    intros H1 H2. assert (H : In f (flat_map st (seq 0 nb))) by (apply (Permutation_in _ blocks_perm), in_kept; auto).
    apply in_flat_map in H. destruct H as (b & Hb & Hf). apply in_seq in Hb. destruct (In_nth _ _ 0%N Hf) as (k & Hk & Q). exists b, k. split; [lia|]. auto.
  Qed.
  Lemma st_inj b k b' k' : b < nb -> k < size b -> b' < nb -> k' < size b' -> nth k (st b) 0%N = nth k' (st b') 0%N -> b = b' /\ k = k'.
  Proof.
    intros Hb Hk Hb' Hk' Q.
    assert (b = b').
    { apply (block_same S E l d keep a F _ _ _ _ _ _ _ _ (nth k (st b) 0%N) (block_get S E l d keep a F b Hb) (block_get S E l d keep a F b' Hb')); [apply nth_In; exact Hk|rewrite Q; apply nth_In; exact Hk']. }
    subst b'. split; [reflexivity|]. eapply NoDup_nth; [eapply (block_NoDup S E l d keep a F); apply (block_get S E l d keep a F b Hb)|exact Hk|exact Hk'|exact Q].
  Qed.

  (** e leads from kept states to kept states only *)
  Definition stays (e : expr S) : Prop := forall f g, (f < 2 ^ N.of_nat n)%N -> keep f = true -> (g < 2 ^ N.of_nat n)%N -> keep g = false -> bracket e g f = k0.
  Lemma bracket_mul_kept e1 e2 g f : (forall i, uses e1 i -> In i l) -> (forall i, uses e2 i -> In i l) -> stays e2 -> (f < 2 ^ N.of_nat n)%N -> keep f = true ->
    bracket (EMul e1 e2) g f = msum S nb (fun b => msum S (size b) (fun k => bracket e1 g (nth k (st b) 0%N) * bracket e2 (nth k (st b) 0%N) f)).
  Proof.
    intros H1 H2 Hs Hf Hk. rewrite bracket_mul by assumption. rewrite <- (sum_blocks (fun h => bracket e1 g h * bracket e2 h f)).
    symmetry. apply ks_filter. intros h Hh Hn. rewrite (Hs f h Hf Hk (proj1 (in_all_states n h) Hh) Hn). ring.
  Qed.

  Hypothesis HU : forall b, b < nb -> unitary S (size b) (m_at (vec b)).

  (** <b',j| e |b,i> from the brackets between states given by positions *)
  Definition pos_elem (m : nat -> nat -> nat -> nat -> S) (b' j b i : nat) : S :=
    msum S (size b) (fun k => msum S (size b') (fun q => kconj (m_at (vec b') q j) * m b' q b k) * m_at (vec b) k i).
  Definition pos_br (e : expr S) (b' q b k : nat) : S := bracket e (nth q (st b') 0%N) (nth k (st b) 0%N).
  Lemma elem_pos e b' j b i : elem e b' j b i = pos_elem (pos_br e) b' j b i.
  Proof. reflexivity. Qed.
  Lemma pos_ext m m' b' j b i : (forall q k, q < size b' -> k < size b -> m b' q b k = m' b' q b k) -> pos_elem m b' j b i = pos_elem m' b' j b i.
  Proof. intros H. apply (ms_ext S). intros k Hk. f_equal. apply (ms_ext S). intros q Hq. rewrite H by assumption. reflexivity. Qed.
  Lemma pos_sum N0 (m : nat -> nat -> nat -> nat -> nat -> S) b' j b i :
    pos_elem (fun b' q b k => msum S N0 (fun c => m c b' q b k)) b' j b i = msum S N0 (fun c => pos_elem (m c) b' j b i).
  Proof.
    unfold pos_elem. rewrite (ms_swap S L N0). apply (ms_ext S). intros k Hk. rewrite (ms_r S L). f_equal. rewrite (ms_swap S L N0). apply (ms_ext S). intros q Hq.
    rewrite (ms_l S L). reflexivity.
  Qed.
  (** one block as intermediate states *)
  Lemma pos_mul m1 m2 b' j c b i : c < nb ->
    pos_elem (fun b' q b k => msum S (size c) (fun p => m1 b' q c p * m2 c p b k)) b' j b i =
    msum S (size c) (fun k => pos_elem m1 b' j c k * pos_elem m2 c k b i).
  Proof.
    intros Hc.
    (* left and right factors *)
    set (X := fun p => msum S (size b') (fun q => kconj (m_at (vec b') q j) * m1 b' q c p)).
    set (Y := fun p => msum S (size b) (fun k => m2 c p b k * m_at (vec b) k i)).
    transitivity (msum S (size c) (fun p => X p * Y p)).
    - unfold pos_elem. 
      transitivity (msum S (size b) (fun k => msum S (size c) (fun p => X p * (m2 c p b k * m_at (vec b) k i)))).
      + apply (ms_ext S). intros k Hk. rewrite <- (ms_r S L).
        transitivity (msum S (size b') (fun q => msum S (size c) (fun p => kconj (m_at (vec b') q j) * m1 b' q c p * (m2 c p b k * m_at (vec b) k i)))).
        { apply (ms_ext S). intros q Hq. rewrite <- (ms_l S L), <- (ms_r S L). apply (ms_ext S). intros p Hp. ring. }
        rewrite (ms_swap S L). apply (ms_ext S). intros p Hp. unfold X. rewrite (ms_r S L). reflexivity.
      + rewrite (ms_swap S L). apply (ms_ext S). intros p Hp. unfold Y. rewrite (ms_l S L). reflexivity.
    - transitivity (msum S (size c) (fun k => msum S (size c) (fun p => X p * m_at (vec c) p k) * msum S (size c) (fun p => kconj (m_at (vec c) p k) * Y p))).
      + transitivity (msum S (size c) (fun p => X p * msum S (size c) (fun p' => delta S p' p * Y p'))).
        { apply (ms_ext S). intros p Hp. f_equal. symmetry. apply (ms_delta S L _ Y p Hp). }
        transitivity (msum S (size c) (fun p => msum S (size c) (fun p' => X p * Y p' * msum S (size c) (fun k => m_at (vec c) p k * kconj (m_at (vec c) p' k))))).
        { apply (ms_ext S). intros p Hp. rewrite <- (ms_l S L). apply (ms_ext S). intros p' Hp'. rewrite (proj2 (HU c Hc p p' Hp Hp')).
          replace (delta S p p') with (delta S p' p) by (unfold delta; rewrite Nat.eqb_sym; reflexivity). ring. }
        transitivity (msum S (size c) (fun p => msum S (size c) (fun p' => msum S (size c) (fun k => X p * m_at (vec c) p k * (kconj (m_at (vec c) p' k) * Y p'))))).
        { apply (ms_ext S). intros p Hp. apply (ms_ext S). intros p' Hp'. rewrite <- (ms_l S L). apply (ms_ext S). intros k Hk. ring. }
        transitivity (msum S (size c) (fun p => msum S (size c) (fun k => X p * m_at (vec c) p k * msum S (size c) (fun p' => kconj (m_at (vec c) p' k) * Y p')))).
        { apply (ms_ext S). intros p Hp. rewrite (ms_swap S L). apply (ms_ext S). intros k Hk. rewrite (ms_l S L). reflexivity. }
        rewrite (ms_swap S L). apply (ms_ext S). intros k Hk. rewrite (ms_r S L). reflexivity.
      + apply (ms_ext S). intros k Hk. f_equal. unfold pos_elem, Y.
        transitivity (msum S (size c) (fun p => msum S (size b) (fun k0 => kconj (m_at (vec c) p k) * m2 c p b k0 * m_at (vec b) k0 i))).
        { apply (ms_ext S). intros p Hp. rewrite <- (ms_l S L). apply (ms_ext S). intros k0 Hk0. ring. }
        rewrite (ms_swap S L). apply (ms_ext S). intros k0 Hk0. rewrite (ms_r S L). reflexivity.
  Qed.

  Theorem elem_mul e1 e2 b' j b i : (forall x, uses e1 x -> In x l) -> (forall x, uses e2 x -> In x l) -> stays e2 -> b < nb ->
    elem (EMul e1 e2) b' j b i = msum S nb (fun c => msum S (size c) (fun k => elem e1 b' j c k * elem e2 c k b i)).
  Proof.
    intros H1 H2 Hs Hb. rewrite elem_pos.
    transitivity (pos_elem (fun b' q b k => msum S nb (fun c => msum S (size c) (fun p => pos_br e1 b' q c p * pos_br e2 c p b k))) b' j b i).
    { apply pos_ext. intros q k Hq Hk. unfold pos_br. destruct (st_kept b k Hb Hk). apply bracket_mul_kept; assumption. }
    rewrite pos_sum. apply (ms_ext S). intros c Hc. rewrite pos_mul by exact Hc. reflexivity.
  Qed.
  Lemma elem_ext e1 e2 b' j b i : b' < nb -> b < nb -> (forall g f, (f < 2 ^ N.of_nat n)%N -> keep f = true -> bracket e1 g f = bracket e2 g f) -> elem e1 b' j b i = elem e2 b' j b i.
  Proof. intros Hb' Hb H. rewrite !elem_pos. apply pos_ext. intros q k Hq Hk. destruct (st_kept b k Hb Hk). apply H; assumption. Qed.
  Lemma elem_add e1 e2 b' j b i : elem (EAdd e1 e2) b' j b i = elem e1 b' j b i + elem e2 b' j b i.
  Proof.
    rewrite !elem_pos. unfold pos_elem. rewrite <- (ms_add S L). apply (ms_ext S). intros k Hk.
    transitivity ((msum S (size b') (fun q => kconj (m_at (vec b') q j) * pos_br e1 b' q b k) + msum S (size b') (fun q => kconj (m_at (vec b') q j) * pos_br e2 b' q b k)) * m_at (vec b) k i); [|ring].
    f_equal. rewrite <- (ms_add S L). apply (ms_ext S). intros q Hq. unfold pos_br. rewrite bracket_add. ring.
  Qed.
  Lemma elem_scal x b' j b i : b' < nb -> b < nb -> j < size b' -> i < size b -> elem (EScal x) b' j b i = if (b' =? b) && (j =? i) then x else k0.
  Proof.
    intros Hb' Hb Hj Hi. rewrite elem_pos. unfold pos_elem. destruct (Nat.eqb_spec b' b) as [->|Hne]; cbn [andb].
    - transitivity (x * msum S (size b) (fun k => kconj (m_at (vec b) k j) * m_at (vec b) k i)).
      + rewrite <- (ms_l S L). apply (ms_ext S). intros k Hk.
        transitivity (msum S (size b) (fun q => delta S q k * (kconj (m_at (vec b) q j) * x)) * m_at (vec b) k i).
        * f_equal. apply (ms_ext S). intros q Hq. unfold pos_br. rewrite bracket_scal. unfold delta.
          destruct (Nat.eqb_spec q k) as [->|Hqk]; [rewrite N.eqb_refl; ring|].
          destruct (N.eqb_spec (nth k (st b) 0%N) (nth q (st b) 0%N)) as [Q|_]; [|ring]. destruct (st_inj b k b q Hb Hk Hb Hq Q). congruence.
        * rewrite (ms_delta S L) by exact Hk. ring.
      + rewrite (proj1 (HU b Hb j i Hj Hi)). unfold delta. destruct (j =? i); ring.
    - apply (ms_zero S L). intros k Hk. rewrite (ms_zero S L); [ring|]. intros q Hq. unfold pos_br. rewrite bracket_scal.
      destruct (N.eqb_spec (nth k (st b) 0%N) (nth q (st b') 0%N)) as [Q|_]; [|ring]. destruct (st_inj b k b' q Hb Hk Hb' Hq Q). congruence.
  Qed.

  (** ---- the Hamiltonian ---- *)
  Variable h : expr S.
  Hypothesis Hu : forall x, uses h x -> In x l.
  Hypothesis Hstay : stays h.
  Hypothesis HR : hamiltonian_represented S E l h a.
  Variable g0 : E.
  Hypothesis Hg : a_gs S E a = Some g0.
  (** energy of eigenstate i of block b *)
  Definition level (b i : nat) : S := match nth_error (a_eigs S E a) b with Some x => energy S E (evals S E x) i | None => k0 end.
  Notation H0 := (ESubS h (e_emb g0)).
  Lemma h_bracket b' q b k : b' < nb -> b < nb -> q < size b' -> k < size b ->
    bracket H0 (nth q (st b') 0%N) (nth k (st b) 0%N) =
    if (b' =? b) then msum S (size b) (fun c => m_at (vec b) q c * level b c * kconj (m_at (vec b) k c)) else k0.
  Proof.
    intros Hb' Hb Hq Hk. rewrite bracket_subs. destruct HR as (R1 & R2). destruct (Nat.eqb_spec b' b) as [->|Hne].
    - pose proof (block_get S E l d keep a F b Hb) as HB. destruct (R1 b _ _ _ HB) as (g & Q & D1 & _ & _ & _ & _ & D6). rewrite Hg in Q. injection Q as <-.
      fold (size b) in D6. rewrite (D6 q k Hq Hk).
      transitivity (msum S (size b) (fun c => m_at (vec b) q c * level b c * kconj (m_at (vec b) k c)) + e_emb g0 * msum S (size b) (fun c => m_at (vec b) q c * kconj (m_at (vec b) k c)) - (if (nth k (st b) 0 =? nth q (st b) 0)%N then e_emb g0 else k0)).
      + f_equal. rewrite <- (ms_l S L), <- (ms_add S L). apply (ms_ext S). intros c Hc. unfold level.
        destruct (nth_error (a_eigs S E a) b) as [x|]; [ring|]. unfold energy. cbn. destruct c; cbn; ring.
      + rewrite (proj2 (HU b Hb q k Hq Hk)). unfold delta. destruct (Nat.eqb_spec q k) as [->|Hqk]; [rewrite N.eqb_refl; ring|].
        destruct (N.eqb_spec (nth k (st b) 0%N) (nth q (st b) 0%N)) as [Q|_]; [|ring]. destruct (st_inj b k b q Hb Hk Hb Hq Q). congruence.
    - rewrite (R2 b b' _ _ _ _ _ _ _ _ (block_get S E l d keep a F b Hb) (block_get S E l d keep a F b' Hb') (nth_In _ 0%N Hk) (nth_In _ 0%N Hq)) by congruence.
      destruct (N.eqb_spec (nth k (st b) 0%N) (nth q (st b') 0%N)) as [Q|_]; [|ring]. destruct (st_inj b k b' q Hb Hk Hb' Hq Q). congruence.
  Qed.
  Lemma stays_sub : stays H0.
  Proof.
    intros f g Hf Kf Hgb Kg. rewrite bracket_subs, (Hstay f g Hf Kf Hgb Kg). destruct (N.eqb_spec f g) as [Q|_]; [congruence|ring].
  Qed.
  (** powers of the shifted Hamiltonian *)
  Fixpoint kpow (x : S) (k : nat) : S := match k with O => k1 | Datatypes.S k' => x * kpow x k' end.
  Lemma uses_pow (e : expr S) k x : uses (epow e k) x -> uses e x.
  Proof. induction k as [|k IH]; cbn; [tauto|]. intros [H|H]; auto. Qed.
  Lemma pow_bracket m : stays (epow H0 m) /\ forall b' q b k, b' < nb -> b < nb -> q < size b' -> k < size b ->
    bracket (epow H0 m) (nth q (st b') 0%N) (nth k (st b) 0%N) =
    if (b' =? b) then msum S (size b) (fun c => m_at (vec b) q c * kpow (level b c) m * kconj (m_at (vec b) k c)) else k0.
  Proof.
    assert (HuH : forall x, uses H0 x -> In x l) by exact Hu.
    induction m as [|m (IHs & IHb)]; cbn [epow kpow].
    - split.
      + intros f g Hf Kf _ Kg. rewrite bracket_scal. destruct (N.eqb_spec f g) as [Q|_]; [congruence|reflexivity].
      + intros b' q b k Hb' Hb Hq Hk. rewrite bracket_scal. destruct (Nat.eqb_spec b' b) as [->|Hne].
        * transitivity (msum S (size b) (fun c => m_at (vec b) q c * kconj (m_at (vec b) k c))); [|apply (ms_ext S); intros; ring].
          rewrite (proj2 (HU b Hb q k Hq Hk)). unfold delta. destruct (Nat.eqb_spec q k) as [->|Hqk]; [rewrite N.eqb_refl; reflexivity|].
          destruct (N.eqb_spec (nth k (st b) 0%N) (nth q (st b) 0%N)) as [Q|_]; [|reflexivity]. destruct (st_inj b k b q Hb Hk Hb Hq Q). congruence.
        * destruct (N.eqb_spec (nth k (st b) 0%N) (nth q (st b') 0%N)) as [Q|_]; [|reflexivity]. destruct (st_inj b k b' q Hb Hk Hb' Hq Q). congruence.
    - assert (Hup : forall x, uses (epow H0 m) x -> In x l) by (intros x Hx; apply HuH; eapply uses_pow; exact Hx).
      split.
      + intros f g Hf Kf Hgb Kg. rewrite bracket_mul_kept by assumption. apply (ms_zero S L). intros b Hb. apply (ms_zero S L). intros k Hk.
        destruct (st_kept b k Hb Hk). rewrite (stays_sub _ g) by assumption. ring.
      + intros b' q b k Hb' Hb Hq Hk. destruct (st_kept b k Hb Hk) as [K1 K2]. rewrite bracket_mul_kept by assumption.
        transitivity (msum S nb (fun c => msum S (size c) (fun p => (if b' =? c then msum S (size c) (fun c1 => m_at (vec c) q c1 * level c c1 * kconj (m_at (vec c) p c1)) else k0) *
          (if c =? b then msum S (size b) (fun c2 => m_at (vec b) p c2 * kpow (level b c2) m * kconj (m_at (vec b) k c2)) else k0)))).
        { apply (ms_ext S). intros c Hc. apply (ms_ext S). intros p Hp. rewrite h_bracket, IHb by assumption. reflexivity. }
        transitivity (msum S nb (fun c => delta S c b * (if b' =? c then msum S (size c) (fun c1 => m_at (vec c) q c1 * (level c c1 * kpow (level c c1) m) * kconj (m_at (vec c) k c1)) else k0))).
        * apply (ms_ext S). intros c Hc. unfold delta. destruct (Nat.eqb_spec c b) as [->|Hcb].
          2:{ rewrite (ms_zero S L); [ring|]. intros; ring. }
          destruct (Nat.eqb_spec b' b) as [->|Hbb].
          2:{ rewrite (ms_zero S L); [ring|]. intros; ring. }
          transitivity (msum S (size b) (fun c1 => m_at (vec b) q c1 * (level b c1 * kpow (level b c1) m) * kconj (m_at (vec b) k c1))); [|ring].
          transitivity (msum S (size b) (fun p => msum S (size b) (fun c1 => msum S (size b) (fun c2 => m_at (vec b) q c1 * level b c1 * (kconj (m_at (vec b) p c1) * m_at (vec b) p c2) * (kpow (level b c2) m * kconj (m_at (vec b) k c2)))))).
          { apply (ms_ext S). intros p Hp. rewrite <- (ms_r S L). apply (ms_ext S). intros c1 Hc1. rewrite <- (ms_l S L). apply (ms_ext S). intros c2 Hc2. ring. }
          rewrite (ms_swap S L). apply (ms_ext S). intros c1 Hc1. rewrite (ms_swap S L).
          transitivity (msum S (size b) (fun c2 => delta S c2 c1 * (m_at (vec b) q c1 * level b c1 * (kpow (level b c2) m * kconj (m_at (vec b) k c2))))).
          { apply (ms_ext S). intros c2 Hc2. rewrite (ms_r S L). rewrite (ms_l S L). rewrite (proj1 (HU b Hb c1 c2 Hc1 Hc2)).
            replace (delta S c1 c2) with (delta S c2 c1) by (unfold delta; rewrite Nat.eqb_sym; reflexivity). ring. }
          rewrite (ms_delta S L) by exact Hc1. ring.
        * rewrite (ms_delta S L) by exact Hb. reflexivity.
  Qed.
End Resolve.
