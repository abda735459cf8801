(** C25: partition function, density matrix and thermal averages of atom_diag.

    [val] reads a scalar as a complex number: the theorems hold for the real diagonalization
    (val = RtoC) and for the complex one (val = identity).  [exponential e t X] says that X is the
    matrix of exp(t e) on the kept Fock states, as the limit of the power series (ThermalSpec.v);
    it does not mention eigenvalues or blocks. *)
From Coq Require Import ZArith NArith List Arith Bool Lia Sorted Reals Lra.
From Coquelicot Require Import Coquelicot.
From Verif Require Import Base Indices Scalar Fock OpModel OpExpr Op_proofs Hilbert ImpOp_thms Partition PartitionSpec Partition_thms AtomDiag AtomDiagSpec AtomDiag_lists AtomDiag_thms AtomDiag_final AtomDiag_props
  AtomDiagOps AtomDiagOpsSpec AtomDiagOps_loop AtomDiagOps_proofs AtomDiagOps_trace AtomDiagOps_props FockSpec AtomDiag_resolve RealAtom RealAtom_ex Thermal ThermalSpec Csum Thermal_proofs.
Import ListNotations.
Local Open Scope nat_scope.

Lemma constructed_stays S E ch nm eg l e keep a : scalar_laws S -> constructed S E ch nm eg l e keep a -> stays S l keep e.
Proof.
  intros L C f g Hf Kf Hg Kg. destruct C as [op eh hop a He Huh Heh C|op a He C|op n_min n_max a He Hc H1 H2 C]; try discriminate Kg.
  destruct (kisz (bracket S l e g f)) eqn:Q; [apply (sl_isz S L); exact Q|].
  assert (Hne : bracket S l e g f <> k0) by (intros H; apply (sl_isz S L) in H; congruence). unfold in_range in Kf, Kg. rewrite (Hc f g Hf Hg Hne) in Kg. congruence.
Qed.
Lemma constructed_unitary S E l e d keep a : represents S E l e keep a -> atom_facts S E l d keep a -> forall b, b < n_blocks S E a -> unitary S (size_of S E a b) (m_at (vectors_of S E a b)).
Proof.
  intros (_ & (R1 & _) & _) F b Hb. destruct (R1 b _ _ _ (block_get S E l d keep a F b Hb)) as (g & _ & _ & _ & _ & D & _). exact D.
Qed.
Lemma constructed_nonempty S E l e d keep a : length l <= 17 -> represents S E l e keep a -> atom_facts S E l d keep a -> kept_list (length l) keep <> [] -> 0 < n_blocks S E a /\ exists g, a_gs S E a = Some g.
Proof.
  intros Hl (_ & (R1 & _) & _) F Hk. destruct (kept_list (length l) keep) as [|f ks] eqn:Q; [congruence|].
  assert (Hf : In f (kept_list (length l) keep)) by (rewrite Q; left; reflexivity). apply in_kept in Hf. destruct Hf as [Hf Kf].
  destruct (kept_pos S E l d Hl keep a F f Hf Kf) as (b & k & Hb & Hkk & _). split; [lia|].
  destruct (R1 b _ _ _ (block_get S E l d keep a F b Hb)) as (g & Hg & _). exists g. exact Hg.
Qed.

(** C25.  partition_function(atom, beta) = Tr exp(-beta (H - E_0)), the trace over the kept Fock
    states, with E_0 = get_gs_energy(); it is positive.  The exponential exists. *)
Theorem C25_partition_function :
  forall (S : scalar_ops) (inj : R -> S) (val : S -> C) choose norm eigen (l : fops) (e : expr S) (keep : N -> bool) (a : atom S (RE S inj)) (beta : R),
  scalar_laws S -> complex_view S inj val -> norm_ok norm -> length l <= 17 -> NoDup l -> (forall i, uses e i -> In i l) -> solves S (RE S inj) l e eigen ->
  constructed S (RE S inj) choose norm eigen l e keep a -> kept_list (length l) keep <> [] ->
  exists E0 : R, a_gs S (RE S inj) a = Some E0 /\
  (exists X, exponential S val l keep (ESubS e (inj E0)) (- beta) X) /\
  (forall X, exponential S val l keep (ESubS e (inj E0)) (- beta) X -> RtoC (partition_function S inj a beta) = trace_kept l keep X) /\
  (0 < partition_function S inj a beta)%R.
Proof.
  intros S inj val ch nm eg l e keep a beta L V N Hl Hn Hu Sv C Hk.
  destruct (constructed_atom S (RE S inj) ch nm eg l e keep a L (RE_laws S inj val L V) N Hl Hn Hu Sv C) as (op & d & Hd & He & Ha & R & F).
  destruct (constructed_nonempty S _ l e d keep a Hl R F Hk) as (Hnb & E0 & Hg). exists E0. split; [exact Hg|].
  pose proof (constructed_unitary S _ l e d keep a R F) as HU. pose proof (constructed_stays S _ ch nm eg l e keep a L C) as Hst. destruct R as (_ & HR & _).
  split; [exact (exponential_exists S L inj val V l d Hl keep a F HU e Hu Hst HR E0 Hg (- beta))|]. split.
  - intros X HX. exact (partition_trace S L inj val V l d Hl keep a F HU e Hu Hst HR E0 Hg beta X HX).
  - exact (partition_pos S inj l d Hl keep a F beta Hnb).
Qed.
Print Assumptions C25_partition_function.

(** C25.  atomic_density_matrix(atom, beta): one square matrix for each block, diagonal in the
    eigenbasis with entries between 0 and 1, total trace 1; rotated to the Fock states with the
    unitary matrices of the blocks it is exp(-beta (H - E_0)) / Z. *)
Theorem C25_density_matrix :
  forall (S : scalar_ops) (inj : R -> S) (val : S -> C) choose norm eigen (l : fops) (e : expr S) (keep : N -> bool) (a : atom S (RE S inj)) (beta : R),
  scalar_laws S -> complex_view S inj val -> norm_ok norm -> length l <= 17 -> NoDup l -> (forall i, uses e i -> In i l) -> solves S (RE S inj) l e eigen ->
  constructed S (RE S inj) choose norm eigen l e keep a -> kept_list (length l) keep <> [] ->
  let rho := atomic_density_matrix S inj a beta in
  length rho = n_blocks S (RE S inj) a /\
  msum S (n_blocks S (RE S inj) a) (fun b => msum S (size_of S (RE S inj) a b) (fun i => m_at (nth b rho (mkMat 0 0 (fun _ _ => k0))) i i)) = k1 /\
  forall b r, nth_error rho b = Some r ->
    m_rows r = size_of S (RE S inj) a b /\ m_cols r = size_of S (RE S inj) a b /\
    (forall i j, i < m_rows r -> j < m_rows r -> if i =? j then exists p : R, val (m_at r i i) = RtoC p /\ (0 < p <= 1)%R else m_at r i j = k0) /\
    exists E0 : R, a_gs S (RE S inj) a = Some E0 /\
    forall X, exponential S val l keep (ESubS e (inj E0)) (- beta) X ->
    forall B ev u q k f g, block S (RE S inj) a b B ev u -> nth_error B q = Some f -> nth_error B k = Some g ->
      val (msum S (length B) (fun i => msum S (length B) (fun j => kmul (kmul (m_at u q i) (m_at r i j)) (kconj (m_at u k j))))) =
      Cdiv (X f g) (RtoC (partition_function S inj a beta)).
Proof.
  intros S inj val ch nm eg l e keep a beta L V N Hl Hn Hu Sv C Hk rho.
  destruct (constructed_atom S (RE S inj) ch nm eg l e keep a L (RE_laws S inj val L V) N Hl Hn Hu Sv C) as (op & d & Hd & He & Ha & R & F).
  destruct (constructed_nonempty S _ l e d keep a Hl R F Hk) as (Hnb & E0 & Hg).
  pose proof (constructed_unitary S _ l e d keep a R F) as HU. pose proof (constructed_stays S _ ch nm eg l e keep a L C) as Hst. destruct R as (_ & HR & _).
  split; [exact (dm_length S inj a beta)|]. split; [exact (density_trace S inj val V l d Hl keep a F beta Hnb)|].
  intros b r Hr. destruct (dm_block S inj l d keep a F beta b r Hr) as (Hb & R1 & R2 & R3). split; [exact R1|]. split; [exact R2|]. split.
  - intros i j Hi Hj. pose proof (R3 i j) as Q. destruct (Nat.eqb_spec i j) as [<-|Hne]; [|exact Q]. rewrite Q. eexists. split; [apply (cv_inj _ _ _ V)|].
    pose proof (partition_pos S inj l d Hl keep a F beta Hnb) as Pz. split; [apply Rdiv_lt_0_compat; [apply exp_pos|exact Pz]|].
    apply Rle_div_l; [exact Pz|]. rewrite Rmult_1_l. rewrite R1 in Hi. exact (weight_le S inj l d Hl keep a F beta b i Hb Hi).
  - exists E0. split; [exact Hg|]. intros X HX B ev u q k f g HB Hq Hkk. destruct (block_states S _ a b B ev u HB) as (Q1 & Q2 & Q3).
    pose proof (density_fock S L inj val V l d Hl keep a F HU e Hu Hst HR E0 Hg beta X b r q k Hnb HX Hr) as D. rewrite Q1, Q2, Q3 in D.
    rewrite (nth_of_error _ _ _ _ Hq), (nth_of_error _ _ _ _ Hkk) in D. apply D; eapply nth_error_Some_lt; eassumption.
Qed.
Print Assumptions C25_density_matrix.

(** C25.  trace_rho_op of the density matrix is the thermal average
    Tr(exp(-beta (H - E_0)) O) / Z. *)
Theorem C25_thermal_average :
  forall (S : scalar_ops) (inj : R -> S) (val : S -> C) choose norm eigen (l : fops) (e : expr S) (keep : N -> bool) (a : atom S (RE S inj)) (beta : R) (re : S -> S),
  scalar_laws S -> complex_view S inj val -> norm_ok norm -> length l <= 17 -> NoDup l -> (forall i, uses e i -> In i l) -> solves S (RE S inj) l e eigen ->
  constructed S (RE S inj) choose norm eigen l e keep a -> kept_list (length l) keep <> [] -> (forall z, kconj z = z -> re z = z) ->
  forall (o : expr S) (op : omap S), (forall i, uses o i -> In i l) -> eval o = Some op -> terms_single S (RE S inj) l a op ->
  exists E0 v, a_gs S (RE S inj) a = Some E0 /\
  trace_rho_op S (RE S inj) re a (atomic_density_matrix S inj a beta) op = Ok v /\
  forall X, exponential S val l keep (ESubS e (inj E0)) (- beta) X ->
    val v = Cdiv (trace_with S val l keep X o) (RtoC (partition_function S inj a beta)).
Proof.
  intros S inj val ch nm eg l e keep a beta re L V N Hl Hn Hu Sv C Hk Hre o op Huo Heo Hts.
  destruct (constructed_atom S (RE S inj) ch nm eg l e keep a L (RE_laws S inj val L V) N Hl Hn Hu Sv C) as (oph & d & Hd & He & Ha & R & F).
  destruct (constructed_nonempty S _ l e d keep a Hl R F Hk) as (Hnb & E0 & Hg).
  pose proof (constructed_unitary S _ l e d keep a R F) as HU. pose proof (constructed_stays S _ ch nm eg l e keep a L C) as Hst. destruct R as (_ & HR & _).
  exists E0. eexists. split; [exact Hg|]. split.
  - apply (C67_trace_rho_op S (RE S inj) ch nm eg l e keep a re L (RE_laws S inj val L V) N Hl Hn Hu Sv C Hre o op); try assumption; [apply dm_length|].
    intros b rho Hr. destruct (dm_block S inj l d keep a F beta b rho Hr) as (_ & R1 & R2 & _). auto.
  - intros X HX. exact (average S L inj val V l d Hl keep a F HU e Hu Hst HR E0 Hg beta X o Hnb HX).
Qed.
Print Assumptions C25_thermal_average.

(** The hypotheses hold for one orbital with H = -3 n, and every operator on it. *)
Lemma c1_bracket f g : (f < 2)%N -> (g < 2)%N -> bracket RS orbs1 (EC ro) g f <> k0 -> g = 0%N.
Proof.
  intros Hf Hg. assert (F : f = 0%N \/ f = 1%N) by lia. assert (G : g = 0%N \/ g = 1%N) by lia.
  destruct F as [-> | ->], G as [-> | ->]; intros H; try reflexivity; exfalso; apply H; cbv -[Rplus Rmult Ropp Rminus IZR Rdiv]; ring.
Qed.
Lemma cdag1_bracket f g : (f < 2)%N -> (g < 2)%N -> bracket RS orbs1 (ECdag ro) g f <> k0 -> g = 1%N.
Proof.
  intros Hf Hg. assert (F : f = 0%N \/ f = 1%N) by lia. assert (G : g = 0%N \/ g = 1%N) by lia.
  destruct F as [-> | ->], G as [-> | ->]; intros H; try reflexivity; exfalso; apply H; cbv -[Rplus Rmult Ropp Rminus IZR Rdiv]; ring.
Qed.
Example C25_ex : scalar_laws RS /\ complex_view RS (fun x => x) RtoC /\ NoDup orbs1 /\ (forall i, uses ham1 i -> In i orbs1) /\ solves RS RE1 orbs1 ham1 eigen1 /\
  kept_list (length orbs1) (fun _ => true) = [0; 1]%N /\
  exists a, constructed RS RE1 (fun _ _ _ => true) (fun l => l) eigen1 orbs1 ham1 (fun _ => true) a /\
  forall o op, (forall i, uses o i -> In i orbs1) -> eval o = Some op -> terms_single RS RE1 orbs1 a op.
Proof.
  assert (Hn : NoDup orbs1) by (repeat constructor; intros []). assert (Hl : length orbs1 <= 17) by (cbn; lia).
  pose proof (RE_laws RS (fun x => x) RtoC RS_laws real_view) as EL.
  split; [exact RS_laws|]. split; [exact real_view|]. split; [exact Hn|]. split; [exact ham1_uses|]. split; [exact solves1|]. split; [reflexivity|].
  destruct (eval_wf RS RS_laws ham1) as (oph & He & _).
  destruct (C63_auto_constructor RS RE1 (fun _ _ _ => true) (fun l => l) eigen1 orbs1 ham1 oph RS_laws EL norm_id_ok Hl Hn ham1_uses He solves1) as (a & C & R).
  assert (Cc : constructed RS RE1 (fun _ _ _ => true) (fun l => l) eigen1 orbs1 ham1 (fun _ => true) a) by (eapply by_auto; [exact He|exact C]).
  exists a. split; [exact Cc|]. destruct R as ((R1 & _ & R3 & _) & _).
  assert (Bd : forall b B ev u f, block RS RE1 a b B ev u -> In f B -> (f < 2)%N).
  { intros b B ev u f HB Hf. assert (Q : exists b B ev u, block RS RE1 a b B ev u /\ In f B) by (exists b, B, ev, u; auto). apply R1 in Q. destruct Q as [Q _]. exact Q. }
  assert (St : forall i, In i orbs1 -> single_target RS RE1 orbs1 a (EC i) /\ single_target RS RE1 orbs1 a (ECdag i)).
  { intros i [<-|[]]. split; intros b b1 b2 B B1 B2 ev ev1 ev2 u u1 u2 f f' g1 g2 HB HB1 HB2 Hf Hf' Hg1 Hg2 X1 X2.
    - apply c1_bracket in X1; [|eauto..]. apply c1_bracket in X2; [|eauto..]. subst g1 g2. eauto.
    - apply cdag1_bracket in X1; [|eauto..]. apply cdag1_bracket in X2; [|eauto..]. subst g1 g2. eauto. }
  intros o op Hu Ho m x Hin. destruct (eval_wf RS RS_laws o) as (op' & Eo' & _ & Hon). rewrite Ho in Eo'. injection Eo' as <-.
  apply (C67_products_have_single_targets RS RE1 _ _ _ _ _ a RS_laws EL norm_id_ok Hl Hn ham1_uses solves1 Cc St).
  intros y Hy. apply Hu. exact (proj1 (Forall_forall _ _) (proj1 (Forall_forall _ _) Hon _ Hin) _ Hy).
Qed.
