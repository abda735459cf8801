(** Properties of atom_diag constructed with quantum numbers (C82). *)
From Coq Require Import ZArith NArith List Arith Bool Lia Sorted QArith Qcanon.
From Verif Require Import Base Indices Scalar Fock OpModel OpExpr Hilbert ImpOp_run Partition
  AtomDiag AtomDiagSpec AtomDiag_ex AtomQn AtomQnSpec AtomQn_thms AtomQn_ub AtomQn_ex.
Import ListNotations.
Local Open Scope nat_scope.

(** C82.  For every Hamiltonian e over up to 17 orbitals, every eigensolver that diagonalizes, and
    every list of quantum numbers qs which are real, which e conserves, whose values are equal or
    further apart than the tolerance, and which each c and c^dagger changes in a way that depends
    on the quantum numbers only: the constructor succeeds; the object represents the problem (the
    specification of C63, with all the Fock states); two states are in the same block if and only
    if their quantum numbers are equal; the connection tables lose no element of c and c^dagger;
    and the list of quantum numbers names each value once, in the order of the first Fock state
    that has it. *)
Theorem C82_quantum_numbers :
  forall (S : scalar_ops) (E : energy_ops S) eigen q_real q_complex q_lt (l : fops) (e : expr S) (op : omap S) (qs : list (expr S)) (qns : list (omap S)),
  scalar_laws S -> energy_laws S E -> qn_laws S E q_complex q_lt -> length l <= 17 -> NoDup l ->
  (forall i, uses e i -> In i l) -> eval e = Some op -> solves S E l e eigen ->
  Forall2 (fun q o => (forall j, uses q j -> In j l) /\ eval q = Some o) qs qns ->
  qn_are_real S q_complex l qs -> qn_apart S E q_real q_lt l qs -> conserves S E q_real l qs e ->
  (forall o, In o l -> shifts S E q_real l qs (ECdag o) /\ shifts S E q_real l qs (EC o)) ->
  exists a, atom_diag_qn S E eigen q_real q_complex q_lt op l qns = Ok a /\ represents S E l e (fun _ => true) a /\ blocks_by_qn S E q_real l qs a /\
    (forall n o, nth_error l n = Some o -> no_element_lost S E l a (a_cdconn S E a) n (ECdag o) /\ no_element_lost S E l a (a_cconn S E a) n (EC o)) /\
    qn_listed S E q_real l qs (a_qn S E a).
Proof.
  intros S E eg qr qc ql l e op qs qns L EL QL Hl Hn Hu He Sv Hqs Hre Hap Hc Sh. destruct (dim_ok (length l) Hl) as [d Hd].
  exact (thm_qn S L E EL eg qr qc ql l d Hl Hn Hd e op Hu He Sv qs qns Hqs QL Hre Hap Hc Sh).
Qed.
Print Assumptions C82_quantum_numbers.

(** Quantum numbers such as the number of electrons or the spin, which add up one weight per
    occupied orbital, are changed by c and c^dagger as required, whatever the weights. *)
Theorem C82_additive :
  forall (S : scalar_ops) (E : energy_ops S) eigen q_real q_complex q_lt (l : fops) (e : expr S) (op : omap S) (qs : list (expr S)) (qns : list (omap S)),
  scalar_laws S -> energy_laws S E -> qn_laws S E q_complex q_lt -> length l <= 17 -> NoDup l ->
  (forall i, uses e i -> In i l) -> eval e = Some op -> solves S E l e eigen ->
  Forall2 (fun q o => (forall j, uses q j -> In j l) /\ eval q = Some o) qs qns ->
  qn_are_real S q_complex l qs -> qn_apart S E q_real q_lt l qs -> conserves S E q_real l qs e ->
  (forall x y w : S, q_real x = q_real y -> q_real (x + w)%K = q_real (y + w)%K) ->
  (forall q, In q qs -> exists w, additive S l w q) ->
  exists a, atom_diag_qn S E eigen q_real q_complex q_lt op l qns = Ok a /\ represents S E l e (fun _ => true) a /\ blocks_by_qn S E q_real l qs a.
Proof.
  intros S E eg qr qc ql l e op qs qns L EL QL Hl Hn Hu He Sv Hqs Hre Hap Hc Ha Hq. destruct (dim_ok (length l) Hl) as [d Hd].
  destruct (thm_qn S L E EL eg qr qc ql l d Hl Hn Hd e op Hu He Sv qs qns Hqs QL Hre Hap Hc) as (a & A1 & A2 & A3 & _); [|exists a; auto].
  intros o Ho. split; [exact (additive_shifts S L E qr Ha l qs Hq true o Ho)|exact (additive_shifts S L E qr Ha l qs Hq false o Ho)].
Qed.
Print Assumptions C82_additive.

(** The comparison of lists of quantum numbers that the map is ordered by is a strict order
    (irreflexive, antisymmetric, transitive, and total) among lists whose numbers are equal or further apart
    than the tolerance: what std::map requires. *)
Theorem C82_strict_order : forall (S : scalar_ops) (E : energy_ops S) (q_lt : E -> E -> bool) (V : E -> Prop),
  (forall x, q_lt x x = false) -> (forall x y z, q_lt x y = true -> q_lt y z = true -> q_lt x z = true) ->
  (forall x y, V x -> V y -> x = y \/ q_lt x y = true \/ q_lt y x = true) ->
  forall n u v w, length u = n -> length v = n -> length w = n -> Forall V u -> Forall V v -> Forall V w ->
  qn_lt S E q_lt u u = false /\ (qn_lt S E q_lt u v = true -> qn_lt S E q_lt v u = false) /\
  (qn_lt S E q_lt u v = true -> qn_lt S E q_lt v w = true -> qn_lt S E q_lt u w = true) /\
  (qn_lt S E q_lt u v = false -> qn_lt S E q_lt v u = false -> u = v).
Proof.
  intros S E lt V Hi Ht Ha. assert (Hs : forall x y, lt x y = true -> lt y x = false).
  { intros x y H. destruct (lt y x) eqn:H'; [|reflexivity]. pose proof (Ht x y x H H') as K. rewrite Hi in K. discriminate K. }
  induction n as [|n IH]; intros [|x u] [|y v] [|z w] Lu Lv Lw Vu Vv Vw; cbn [length] in Lu, Lv, Lw; try discriminate Lu; try discriminate Lv; try discriminate Lw.
  - repeat split; intros; auto; discriminate.
  - inversion_clear Vu as [|? ? Vx Vu']. inversion_clear Vv as [|? ? Vy Vv']. inversion_clear Vw as [|? ? Vz Vw'].
    destruct (IH u v w) as (I1 & I2 & I3 & I4); auto. cbn [qn_lt]. rewrite Hi.
    split; [exact I1|]. destruct (Ha x y Vx Vy) as [<-|[H|H]]; [|pose proof (Hs x y H) as H0|pose proof (Hs y x H) as H0]; rewrite ?Hi, ?H, ?H0.
    + split; [exact I2|]. split; [|intros A B; f_equal; auto]. destruct (lt x z); [auto|]. destruct (lt z x); [auto|exact I3].
    + split; [reflexivity|]. split; [|intros A; discriminate A]. intros _ B. destruct (Ha y z Vy Vz) as [<-|[K|K]].
      * rewrite H. reflexivity.
      * rewrite (Ht x y z H K). reflexivity.
      * rewrite K, (Hs z y K) in B. discriminate B.
    + split; [intros A; discriminate A|]. split; [intros A; discriminate A|intros _ A; discriminate A].
Qed.
Print Assumptions C82_strict_order.
Example C82_strict_order_example : (forall x, qtol x x = false) /\ (forall x y z, qtol x y = true -> qtol y z = true -> qtol x z = true) /\
  (forall x y : Qc, x = Q2Qc 0 \/ x = Q2Qc 1 -> y = Q2Qc 0 \/ y = Q2Qc 1 -> x = y \/ qtol x y = true \/ qtol y x = true).
Proof.
  split; [exact (ql_irrefl _ _ _ _ qn_laws_Q)|]. split.
  - intros x y z. unfold qtol. rewrite !q_lt_iff. intros A B. eapply Qclt_trans; [exact A|]. eapply Qclt_trans; [|exact B].
    apply Qclt_minus_iff. replace (y + - (y - Q2Qc (1 # 100000000)))%Qc with (Q2Qc (1 # 100000000)) by ring. reflexivity.
  - intros x y [->| ->] [->| ->]; [left; reflexivity|right; left; reflexivity|right; right; reflexivity|left; reflexivity].
Qed.

(** If some c or c^dagger takes two states with equal quantum numbers to states with different
    ones, the constructor throws. *)
Theorem C82_mixed_refused :
  forall (S : scalar_ops) (E : energy_ops S) eigen q_real q_complex q_lt (l : fops) (op : omap S) (qs : list (expr S)) (qns : list (omap S)),
  scalar_laws S -> qn_laws S E q_complex q_lt -> length l <= 17 ->
  Forall2 (fun q o => (forall j, uses q j -> In j l) /\ eval q = Some o) qs qns ->
  qn_are_real S q_complex l qs -> qn_apart S E q_real q_lt l qs ->
  (exists o x f f' g g', In o l /\ fock l f /\ fock l f' /\ fock l g /\ fock l g' /\ qnum S E q_real l qs f = qnum S E q_real l qs f' /\
    bracket S l (if x : bool then ECdag o else EC o) g f <> k0 /\ bracket S l (if x then ECdag o else EC o) g' f' <> k0 /\
    qnum S E q_real l qs g <> qnum S E q_real l qs g') ->
  atom_diag_qn S E eigen q_real q_complex q_lt op l qns = Throw.
Proof.
  intros S E eg qr qc ql l op qs qns L QL Hl Hqs Hre Hap M. exact (thm_mixed S L E eg qr qc ql l Hl op qs qns Hqs QL Hap Hre M).
Qed.
Print Assumptions C82_mixed_refused.

(** If a quantum number is not real in some Fock state, the constructor throws. *)
Theorem C82_complex_refused :
  forall (S : scalar_ops) (E : energy_ops S) eigen q_real q_complex q_lt (l : fops) (op : omap S) (qs : list (expr S)) (qns : list (omap S)),
  scalar_laws S -> qn_laws S E q_complex q_lt -> length l <= 17 ->
  Forall2 (fun q o => (forall j, uses q j -> In j l) /\ eval q = Some o) qs qns -> qn_apart S E q_real q_lt l qs ->
  (exists q f, In q qs /\ fock l f /\ q_complex (bracket S l q f f) = true) ->
  atom_diag_qn S E eigen q_real q_complex q_lt op l qns = Throw.
Proof.
  intros S E eg qr qc ql l op qs qns L QL Hl Hqs Hap M. exact (thm_complex S L E eg qr qc ql l Hl op qs qns Hqs QL Hap M).
Qed.
Print Assumptions C82_complex_refused.

(** A Hamiltonian that does not conserve the quantum numbers is not refused: it makes the
    constructor look a state up in a block which does not hold it, for every such Hamiltonian. *)
Theorem C82_not_conserved_refuted :
  forall (S : scalar_ops) (E : energy_ops S) eigen q_real q_complex q_lt (l : fops) (e : expr S) (op : omap S) (qs : list (expr S)) (qns : list (omap S)),
  scalar_laws S -> qn_laws S E q_complex q_lt -> length l <= 17 ->
  (forall i, uses e i -> In i l) -> eval e = Some op ->
  Forall2 (fun q o => (forall j, uses q j -> In j l) /\ eval q = Some o) qs qns ->
  qn_are_real S q_complex l qs -> qn_apart S E q_real q_lt l qs ->
  (forall o, In o l -> shifts S E q_real l qs (ECdag o) /\ shifts S E q_real l qs (EC o)) ->
  ~ conserves S E q_real l qs e ->
  atom_diag_qn S E eigen q_real q_complex q_lt op l qns = UB.
Proof.
  intros S E eg qr qc ql l e op qs qns L QL Hl Hu He Hqs Hre Hap Sh Hc. exact (thm_undefined S L E eg qr qc ql l Hl e op Hu He qs qns Hqs QL Hre Hap Sh Hc).
Qed.
Print Assumptions C82_not_conserved_refuted.

(** H has hopping between the two orbitals and the occupation of orbital 0 is given as quantum
    number: the hypotheses of the theorem above hold. *)
Lemma n0_additive : additive QS orbs2 (fun k => if Nat.eqb k 0 then k1 else k0) (EN o0).
Proof. intros f g Hf Hg. all4 Hf; all4 Hg; apply qeqb_eq; vm_compute; reflexivity. Qed.
Example C82_not_conserved_example :
  qn_are_real QS qim orbs2 [EN o0] /\ qn_apart QS QE qre qtol orbs2 [EN o0] /\
  (forall o, In o orbs2 -> shifts QS QE qre orbs2 [EN o0] (ECdag o) /\ shifts QS QE qre orbs2 [EN o0] (EC o)) /\ ~ conserves QS QE qre orbs2 [EN o0] ham2.
Proof.
  split; [intros q f _ _; reflexivity|]. split; [|split].
  - intros q f g [<-|[]] Hf Hg. all4 Hf; all4 Hg; cbv zeta; try (left; reflexivity); right; first [left; vm_compute; reflexivity|right; vm_compute; reflexivity].
  - assert (Ha : forall x y w : QS, qre x = qre y -> qre (x + w)%K = qre (y + w)%K) by (intros x y w; unfold qre; intros ->; reflexivity).
    assert (Hq : forall q, In q [EN o0 : expr QS] -> exists w, additive QS orbs2 w q) by (intros q [<-|[]]; eexists; exact n0_additive).
    intros o Ho. split; [exact (additive_shifts QS QS_laws QE qre Ha orbs2 [EN o0] Hq true o Ho)|exact (additive_shifts QS QS_laws QE qre Ha orbs2 [EN o0] Hq false o Ho)].
  - intros Hc. assert (H : qnum QS QE qre orbs2 [EN o0] 2 = qnum QS QE qre orbs2 [EN o0] 1).
    { apply Hc; [reflexivity|reflexivity|]. intros H. apply (f_equal (fun x : QS => Qeq_bool (this x) 0)) in H. vm_compute in H. discriminate. }
    apply (f_equal (fun x : list QE => match x with y :: _ => Qeq_bool (this y) 0 | [] => true end)) in H. vm_compute in H. discriminate.
Qed.

(** The documentation of get_quantum_numbers (atom_diag.hpp:238-243) says that entry b holds the
    quantum numbers of block b.  False: the blocks are sorted by energy afterwards, the list is
    not.  With H = - n_0 on one orbital and the number of electrons as quantum number, every
    hypothesis of C82_quantum_numbers holds and the entries are exchanged. *)
Definition seen (r : res (atom QS QE)) : option (list N * bool) :=
  match r with
  | Ok a => match nth_error (a_subs QS QE a) 0, nth_error (a_eigs QS QE a) 0, nth_error (a_qn QS QE a) 0 with
            | Some sp, Some _, Some [y] => Some (sub_states sp, Qeq_bool (this y) 0)
            | _, _, _ => None
            end
  | _ => None
  end.
Lemma exchanged : seen (atom_diag_qn QS QE eigen1 qre qim qtol (op_of ham1) orb1 [op_of num1]) = Some ([1%N], true).
Proof. vm_compute. reflexivity. Qed.
Theorem C82_aligned_refuted :
  exists (l : fops) (e q : expr QS) (op qop : omap QS) eigen a,
  length l <= 17 /\ NoDup l /\ (forall i, uses e i -> In i l) /\ eval e = Some op /\ solves QS QE l e eigen /\
  (forall i, uses q i -> In i l) /\ eval q = Some qop /\
  qn_are_real QS qim l [q] /\ qn_apart QS QE qre qtol l [q] /\ conserves QS QE qre l [q] e /\
  (exists w, additive QS l w q) /\
  atom_diag_qn QS QE eigen qre qim qtol op l [qop] = Ok a /\ ~ qn_aligned QS QE qre l [q] a (a_qn QS QE a).
Proof.
  pose proof exchanged as X. unfold seen in X.
  destruct (atom_diag_qn QS QE eigen1 qre qim qtol (op_of ham1) orb1 [op_of num1]) as [a| |] eqn:Ea; [|discriminate X|discriminate X].
  destruct (nth_error (a_subs QS QE a) 0) as [sp|] eqn:E1; [|discriminate X]. destruct (nth_error (a_eigs QS QE a) 0) as [es|] eqn:E2; [|discriminate X].
  destruct (nth_error (a_qn QS QE a) 0) as [[|y [|]]|] eqn:E3; [discriminate X| |discriminate X|discriminate X]. injection X as X1 X2.
  exists orb1, ham1, num1, (op_of ham1), (op_of num1), eigen1, a.
  split; [cbn; lia|]. split; [repeat constructor; intros []|]. split; [intros i Hi; cbn in Hi; cbn; intuition|].
  split; [reflexivity|]. split; [exact solves1|]. split; [intros i Hi; cbn in Hi; cbn; intuition|]. split; [reflexivity|].
  split; [intros q f _ _; reflexivity|]. split; [exact num1_apart|]. split; [exact num1_conserved|]. split; [eexists; exact num1_additive|]. split; [exact Ea|].
  intros H. specialize (H 0 [1%N] (evals QS QE es) (umat QS QE es) 1%N). rewrite E3 in H.
  assert (H' : Some [y] = Some (qnum QS QE qre orb1 [num1] 1)). { apply H; [exists sp, es; auto|left; reflexivity]. }
  injection H' as H'. apply (f_equal (fun x : QE => Qeq_bool (this x) 0)) in H'. rewrite X2 in H'. vm_compute in H'. discriminate.
Qed.
Print Assumptions C82_aligned_refuted.

(** Two orbitals with hopping and the number of electrons: the hypotheses of C82_quantum_numbers
    and C82_additive hold, and there are three blocks. *)
Example C82_example :
  scalar_laws QS /\ energy_laws QS QE /\ qn_laws QS QE qim qtol /\ length orbs2 <= 17 /\ NoDup orbs2 /\ (forall i, uses ham2 i -> In i orbs2) /\
  eval ham2 = Some ham2_op /\ solves QS QE orbs2 ham2 eigen2 /\
  Forall2 (fun q o => (forall j, uses q j -> In j orbs2) /\ eval q = Some o) [num2] [op_of num2] /\
  qn_are_real QS qim orbs2 [num2] /\ qn_apart QS QE qre qtol orbs2 [num2] /\ conserves QS QE qre orbs2 [num2] ham2 /\
  (forall x y w : QS, qre x = qre y -> qre (x + w)%K = qre (y + w)%K) /\ (forall q, In q [num2] -> exists w, additive QS orbs2 w q) /\
  match atom_diag_qn QS QE eigen2 qre qim qtol ham2_op orbs2 [op_of num2] with Ok a => n_blocks QS QE a = 3 | _ => False end.
Proof.
  split; [exact QS_laws|]. split; [exact QE_laws|]. split; [exact qn_laws_Q|]. split; [cbn; lia|].
  split; [repeat constructor; cbn; intros H; repeat destruct H as [H|H]; try discriminate; exact H|].
  split; [exact ham2_uses|]. split; [exact ham2_eval|]. split; [exact solves2|].
  split; [constructor; [|constructor]; split; [|reflexivity]; intros j Hj; cbn in Hj; cbn; intuition|].
  split; [exact num2_real|]. split; [exact num2_apart|]. split; [exact num2_conserved|].
  split; [intros x y w; unfold qre; intros ->; reflexivity|]. split; [intros q [<-|[]]; eexists; exact num2_additive|]. vm_compute. reflexivity.
Qed.

(** n_0 + n_1 - n_0 n_1 (is an orbital occupied) is real and not changed uniformly by c_0:
    C82_mixed_refused applies *)
Definition any2 : expr QS := ESub (EAdd (EN o0) (EN o1)) (EMul (EN o0) (EN o1)).
Example C82_mixed_example :
  qn_are_real QS qim orbs2 [any2] /\ qn_apart QS QE qre qtol orbs2 [any2] /\
  atom_diag_qn QS QE eigen2 qre qim qtol ham2_op orbs2 [op_of any2] = Throw /\
  (exists o x f f' g g', In o orbs2 /\ fock orbs2 f /\ fock orbs2 f' /\ fock orbs2 g /\ fock orbs2 g' /\ qnum QS QE qre orbs2 [any2] f = qnum QS QE qre orbs2 [any2] f' /\
    bracket QS orbs2 (if x : bool then ECdag o else EC o) g f <> k0 /\ bracket QS orbs2 (if x then ECdag o else EC o) g' f' <> k0 /\
    qnum QS QE qre orbs2 [any2] g <> qnum QS QE qre orbs2 [any2] g').
Proof.
  split; [intros q f _ _; reflexivity|]. split; [|split].
  - intros q f g [<-|[]] Hf Hg. all4 Hf; all4 Hg; cbv zeta; try (left; reflexivity); try (left; apply qeqb_eq; vm_compute; reflexivity);
      right; first [left; vm_compute; reflexivity|right; vm_compute; reflexivity].
  - vm_compute. reflexivity.
  - exists o0, false, 1%N, 3%N, 0%N, 2%N. repeat (split; [first [left; reflexivity|reflexivity]|]).
    split; [|split]; intros H.
    + apply (f_equal (fun x : QS => Qeq_bool (this x) 0)) in H. vm_compute in H. discriminate.
    + apply (f_equal (fun x : QS => Qeq_bool (this x) 0)) in H. vm_compute in H. discriminate.
    + apply (f_equal (fun x : list QE => match x with y :: _ => Qeq_bool (this y) 0 | [] => true end)) in H. vm_compute in H. discriminate.
Qed.

(** a test of the imaginary part that always fails gives a case of C82_complex_refused *)
Example C82_complex_example :
  qn_laws QS QE (fun x : QS => negb (Qeq_bool (this x) 0)) qtol /\
  atom_diag_qn QS QE eigen2 qre (fun x : QS => negb (Qeq_bool (this x) 0)) qtol ham2_op orbs2 [op_of num2] = Throw.
Proof. split; [constructor; [reflexivity|exact (ql_irrefl _ _ _ _ qn_laws_Q)]|vm_compute; reflexivity]. Qed.
