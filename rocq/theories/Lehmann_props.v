(** C26: atomic Green's functions of atom_diag.

    [val] reads a scalar as a complex number: the theorems hold for the real diagonalization
    (val = RtoC) and for the complex one (val = identity).  A Green's function is given by its value
    for each block, pair of indices and mesh point.  [gf_orbitals gs l a] says that the orbitals of
    the gf_struct are orbitals of the problem whose c and c^dagger map each block of the
    diagonalization to at most one block, as atom_diag assumes (C22, C64). *)
From Coq Require Import ZArith NArith String List Arith Bool Lia Sorted Reals Lra.
From Coquelicot Require Import Coquelicot.
From Verif Require Import Base Indices Scalar Fock OpModel OpExpr Op_proofs Hilbert ImpOp_run ImpOp_thms Partition PartitionSpec Partition_thms AtomDiag AtomDiagSpec AtomDiag_lists AtomDiag_mats AtomDiag_thms AtomDiag_final AtomDiag_props
  AtomDiagOps AtomDiagOpsSpec AtomDiagOps_loop AtomDiagOps_proofs AtomDiagOps_trace AtomDiagOps_props FockSpec AtomDiag_resolve RealAtom RealAtom_ex Thermal ThermalSpec Csum Thermal_proofs Thermal_props
  Lehmann LehmannSpec Lehmann_fill Lehmann_sum Lehmann_green LegendrePoly Lehmann_int.
Import ListNotations.
Local Open Scope nat_scope.

Lemma residue_resd S inj l a beta A B b i b' j : residue S inj l a beta A B b i b' j = resd S inj l a beta A B b i b' j.
Proof.
  unfold residue, resd, wt. do 3 f_equal. change (energy_at S inj) with (lev S inj). unfold Rdiv. ring.
Qed.
Lemma excluded_in ex b i : is_excluded ex b i = if in_dec pair_dec (b, i) ex then true else false.
Proof.
  unfold is_excluded. destruct (in_dec pair_dec (b, i) ex) as [H|H].
  - apply existsb_exists. exists (b, i). split; [exact H|]. cbn. rewrite !Nat.eqb_refl. reflexivity.
  - destruct (existsb _ ex) eqn:Q; [|reflexivity]. exfalso. apply H. apply existsb_exists in Q. destruct Q as ([x y] & Hin & Q). cbn [fst snd] in Q.
    apply andb_true_iff in Q. rewrite !Nat.eqb_eq in Q. destruct Q as [-> ->]. exact Hin.
Qed.
Lemma pair_contrib S inj val l a beta ex A B phi b i b' j : pair_value S inj val l a beta ex A B phi b i b' j = contrib S inj val l a beta ex A B phi b i b' j.
Proof.
  unfold pair_value, contrib. rewrite !excluded_in, !residue_resd. destruct (in_dec pair_dec (b, i) ex); [reflexivity|]. destruct (in_dec pair_dec (b', j) ex); [reflexivity|]. cbn [orb].
  unfold negligible, eps. destruct (Rlt_dec _ _); reflexivity.
Qed.
Lemma conj_mul z w : Cconj (Cmult z w) = Cmult (Cconj z) (Cconj w).
Proof. destruct z, w. unfold Cconj, Cmult. cbn. f_equal; ring. Qed.
Lemma conj_inv z : Cconj (Cinv z) = Cinv (Cconj z).
Proof. destruct z as [x y]. unfold Cconj, Cinv. cbn. replace (y * (y * 1))%R with ((- y) * ((- y) * 1))%R by ring. f_equal. unfold Rdiv. ring. Qed.
Lemma conj_mod z : Cmod (Cconj z) = Cmod z.
Proof. destruct z as [x y]. unfold Cmod, Cconj. cbn. f_equal. ring. Qed.
Lemma csum_pred {A} (Q : C -> Prop) (f : A -> C) xs : Q (RtoC 0) -> (forall z w, Q z -> Q w -> Q (Cplus z w)) -> (forall x, In x xs -> Q (f x)) -> Q (csum xs f).
Proof.
  intros H0 Ha H. induction xs as [|x xs IH]; [exact H0|]. rewrite csum_cons. apply Ha; [apply H; left; reflexivity|]. apply IH. intros y Hy. apply H. right. exact Hy.
Qed.
Lemma ok_terms (S : scalar_ops) inj val a beta gs ex {P G} (zero : G) (step : P -> R -> S -> G -> G) g :
  atomic_g S inj val zero step a beta gs ex = Ok g -> exists ts, lehmann_terms S inj val a beta gs ex = Ok ts /\ forall b i j x, g b i j x = run S step x (cell S b i j ts) zero.
Proof.
  intros H. destruct (lehmann_terms S inj val a beta gs ex) as [ts| |] eqn:Q; unfold atomic_g in H; rewrite Q in H; cbn [bind] in H; try discriminate.
  exists ts. split; [reflexivity|]. destruct (direct_at S inj val a beta gs ex zero step ts Q) as (g' & K1 & K2). unfold atomic_g in K1. rewrite Q in K1. cbn [bind] in K1.
  rewrite H in K1. injection K1 as <-. exact K2.
Qed.

Section Facts.
  Context (S : scalar_ops) (L : scalar_laws S) (inj : R -> S) (val : S -> C) (V : complex_view S inj val) (l : fops) (d : Z) (Hl : length l <= 17) (keep : N -> bool) (e : expr S) (a : atom S (RE S inj)).
  Context (F : atom_facts S (RE S inj) l d keep a) (Rp : represents S (RE S inj) l e keep a) (beta : R) (gs : gf_struct) (ex : list (nat * nat)) (HG : gf_orbitals S inj gs l a).
  Notation s4 := (sum_pairs S inj a).
  Lemma entries_ok b name n i j : In (name, n) gs -> i < n -> j < n -> exists ts, entry_terms S inj val a beta ex b name i j = Ok ts /\
    forall phi, total S val ts phi = s4 (pair_value S inj val l a beta ex (EC (orbital name i)) (ECdag (orbital name j)) phi).
  Proof.
    intros Hg Hi Hj. destruct (HG name n i Hg Hi) as (I1 & I2 & _). destruct (HG name n j Hg Hj) as (J1 & _ & J3). destruct Rp as (_ & _ & _ & RCd & RC).
    destruct (entry_sum S L inj val V l d Hl keep a F RCd RC beta ex b name i j I1 J1 I2 J3) as (ts & K1 & K2). exists ts. split; [exact K1|]. intros phi. rewrite K2. unfold sum_pairs.
    apply csum_ext. intros. apply csum_ext. intros. apply csum_ext. intros. apply csum_ext. intros. symmetry. apply pair_contrib.
  Qed.
  Lemma terms_ok : exists ts, lehmann_terms S inj val a beta gs ex = Ok ts /\ forall b name n i j, nth_error gs b = Some (name, n) -> i < n -> j < n ->
    forall phi, csum (cell S b i j ts) (fun pr => Cmult (val (snd pr)) (phi (fst pr))) = s4 (pair_value S inj val l a beta ex (EC (orbital name i)) (ECdag (orbital name j)) phi).
  Proof.
    assert (Q : exists ts, lehmann_terms S inj val a beta gs ex = Ok ts).
    { unfold lehmann_terms. apply concatM_total. intros [b [name n]] Hp. apply in_enum in Hp. cbn [fst snd] in *. apply concatM_total. intros i Hi. apply concatM_total. intros j Hj. apply in_seq in Hi, Hj.
      destruct (entries_ok b name n i j (nth_error_In _ _ Hp)) as (ts & K & _); [lia|lia|]. exists ts. exact K. }
    destruct Q as [ts Q]. exists ts. split; [exact Q|]. intros b name n i j Hg Hi Hj phi.
    destruct (cell_entry S inj val a beta gs ex ts b name n i j Q Hg Hi Hj) as (r & K1 & K2). destruct (entries_ok b name n i j (nth_error_In _ _ Hg) Hi Hj) as (r' & K3 & K4).
    rewrite K1 in K3. injection K3 as <-. rewrite K2, csum_map. cbn [fst snd]. apply K4.
  Qed.
  Lemma direct_sum {P} (step : P -> R -> S -> C -> C) (phi : P -> R -> C) : (forall x p r v, step x p r v = Cplus v (Cmult (val r) (phi x p))) ->
    exists g, atomic_g S inj val (RtoC 0) step a beta gs ex = Ok g /\ forall b name n i j, nth_error gs b = Some (name, n) -> i < n -> j < n ->
    forall x, g b i j x = s4 (pair_value S inj val l a beta ex (EC (orbital name i)) (ECdag (orbital name j)) (phi x)).
  Proof.
    intros Hs. destruct terms_ok as (ts & T1 & T2). destruct (direct_at S inj val a beta gs ex (RtoC 0) step ts T1) as (g & K1 & K2). exists g. split; [exact K1|].
    intros b name n i j Hg Hi Hj x. rewrite K2, (run_sum S val step phi x _ (Hs x)). exact (T2 b name n i j Hg Hi Hj (phi x)).
  Qed.
End Facts.

(** C26.  atomic_g_lehmann gives for each block a matrix of lists of (pole, residue).  The list of the
    entry (i, j) holds, for each pair of eigenstates (b, k), (b', k') which are not excluded and whose
    residue (w_bk + w_b'k') <bk|c_i|b'k'> <b'k'|c^dagger_j|bk> is at least 2^-52 in modulus, that
    residue with the pole E_b'k' - E_bk, and nothing else: sums over the list of any function of
    the pole are the sums over the pairs. *)
Theorem C26_lehmann :
  forall (S : scalar_ops) (inj : R -> S) (val : S -> C) choose norm eigen (l : fops) (e : expr S) (keep : N -> bool) (a : atom S (RE S inj)) (beta : R) (gs : gf_struct) (excluded : list (nat * nat)),
  scalar_laws S -> complex_view S inj val -> norm_ok norm -> length l <= 17 -> NoDup l -> (forall i, uses e i -> In i l) -> solves S (RE S inj) l e eigen ->
  constructed S (RE S inj) choose norm eigen l e keep a -> gf_orbitals S inj gs l a ->
  exists lh, atomic_g_lehmann S inj val a beta gs excluded = Ok lh /\ length lh = length gs /\
  forall b name n, nth_error gs b = Some (name, n) ->
  exists m, nth_error lh b = Some (n, m) /\ forall i j, i < n -> j < n -> forall phi : R -> C,
    csum (m i j) (fun pr => Cmult (val (snd pr)) (phi (fst pr))) =
    sum_pairs S inj a (pair_value S inj val l a beta excluded (EC (orbital name i)) (ECdag (orbital name j)) phi).
Proof.
  intros S inj val ch nm eg l e keep a beta gs ex L V N Hl Hn Hu Sv C HG.
  destruct (constructed_atom S (RE S inj) ch nm eg l e keep a L (RE_laws S inj val L V) N Hl Hn Hu Sv C) as (op & d & Hd & He & Ha & Rp & F).
  destruct (terms_ok S L inj val V l d Hl keep e a F Rp beta gs ex HG) as (ts & T1 & T2).
  assert (Q : exists lh, atomic_g_lehmann S inj val a beta gs ex = Ok lh /\ length lh = length gs).
  { unfold atomic_g_lehmann. rewrite T1. cbn [bind]. eexists. split; [reflexivity|]. rewrite emplace_length, map_length. reflexivity. }
  destruct Q as (lh & Q1 & Q2). exists lh. split; [exact Q1|]. split; [exact Q2|]. intros b name n Hg.
  destruct (lehmann_at S inj val a beta gs ex ts b name n T1 Hg) as (lh' & m & K1 & K2 & K3). rewrite Q1 in K1. injection K1 as <-. exists m. split; [exact K2|].
  intros i j Hi Hj phi. rewrite K3. exact (T2 b name n i j Hg Hi Hj phi).
Qed.
Print Assumptions C26_lehmann.

(** C26.  Computing a Green's function directly, or from the Lehmann representation, gives the same
    values, operation by operation: for every way [step] of adding one term (those of atomic_g_tau,
    _iw, _l, _w in particular), every type of values (so also for floating point), every atom and
    excluded states.  Whenever atomic_g_lehmann succeeds, so do the other two. *)
Theorem C26_both_ways :
  forall (S : scalar_ops) (inj : R -> S) (val : S -> C) (a : atom S (RE S inj)) (beta : R) (gs : gf_struct) (excluded : list (nat * nat))
         (P G : Type) (zero : G) (step : P -> R -> S -> G -> G) (lh : lehmann_t S),
  atomic_g_lehmann S inj val a beta gs excluded = Ok lh ->
  exists g g', atomic_g S inj val zero step a beta gs excluded = Ok g /\ fill_block_gf S zero step lh gs = Ok g' /\ forall b i j x, g' b i j x = g b i j x.
Proof.
  intros S inj val a beta gs ex P G zero step lh H.
  assert (Q : exists ts, lehmann_terms S inj val a beta gs ex = Ok ts) by (unfold atomic_g_lehmann in H; destruct (lehmann_terms S inj val a beta gs ex); cbn [bind] in H; try discriminate; eexists; reflexivity).
  destruct Q as [ts Q]. destruct (direct_at S inj val a beta gs ex zero step ts Q) as (g & K1 & _).
  destruct (two_ways S inj val a beta gs ex zero step g lh K1 H) as (g' & K3 & K4). exists g, g'. auto.
Qed.
Print Assumptions C26_both_ways.

(** C26.  atomic_g_tau is the imaginary-time Green's function
    G_ij(tau) = -Tr(exp(-(beta - tau) (H - E_0)) c_i exp(-tau (H - E_0)) c^dagger_j) / Z for 0 <= tau <= beta,
    up to the terms it drops: at most 2^-52 for each pair of the D kept states. *)
Theorem C26_imaginary_time :
  forall (S : scalar_ops) (inj : R -> S) (val : S -> C) choose norm eigen (l : fops) (e : expr S) (keep : N -> bool) (a : atom S (RE S inj)) (beta : R) (gs : gf_struct),
  scalar_laws S -> complex_view S inj val -> norm_ok norm -> length l <= 17 -> NoDup l -> (forall i, uses e i -> In i l) -> solves S (RE S inj) l e eigen ->
  constructed S (RE S inj) choose norm eigen l e keep a -> gf_orbitals S inj gs l a -> kept_list (length l) keep <> [] ->
  exists (E0 : R) g, a_gs S (RE S inj) a = Some E0 /\ atomic_g_tau S inj val a beta gs [] = Ok g /\
  (forall t, exists X, exponential S val l keep (ESubS e (inj E0)) t X) /\
  forall b name n i j tau Y X, nth_error gs b = Some (name, n) -> i < n -> j < n -> (0 <= tau <= beta)%R ->
  exponential S val l keep (ESubS e (inj E0)) (- (beta - tau)) Y -> exponential S val l keep (ESubS e (inj E0)) (- tau) X ->
  let D := INR (length (kept_list (length l) keep)) in
  (Cmod (g b i j tau - - (trace4 S val l keep Y (EC (orbital name i)) X (ECdag (orbital name j)) / RtoC (partition_function S inj a beta)))%C <= D * D * / 2 ^ 52)%R.
Proof.
  intros S inj val ch nm eg l e keep a beta gs L V N Hl Hn Hu Sv C HG Hk.
  destruct (constructed_atom S (RE S inj) ch nm eg l e keep a L (RE_laws S inj val L V) N Hl Hn Hu Sv C) as (op & d & Hd & He & Ha & Rp & F).
  destruct (constructed_nonempty S _ l e d keep a Hl Rp F Hk) as (Hnb & E0 & Hg0).
  pose proof (constructed_unitary S _ l e d keep a Rp F) as HU. pose proof (constructed_stays S _ ch nm eg l e keep a L C) as Hst. pose proof Rp as (_ & HR & _).
  destruct (direct_sum S L inj val V l d Hl keep e a F Rp beta gs [] HG (tau_step S val beta) (fun tau p => RtoC (ftau beta tau p)) (fun x p r v => tau_step_eq S val beta x p r v)) as (g & K1 & K2).
  exists E0, g. split; [exact Hg0|]. split; [exact K1|]. split; [intros t; exact (exponential_exists S L inj val V l d Hl keep a F HU e Hu Hst HR E0 Hg0 t)|].
  intros b name n i j tau Y X Hgs Hi Hj Ht HY HX D. rewrite (K2 b name n i j Hgs Hi Hj tau).
  pose proof (dropped S inj val l d Hl keep a F beta (EC (orbital name i)) (ECdag (orbital name j)) (fun p => RtoC (ftau beta tau p)) 1 Rle_0_1) as Q.
  assert (Q2 : forall p, (Cmod (RtoC (ftau beta tau p)) <= 1)%R) by (intros p; rewrite Cmod_R; apply ftau_bound; exact Ht). specialize (Q Q2). fold D in Q.
  replace (D * (D * (eps * 1)))%R with (D * D * / 2 ^ 52)%R in Q by (unfold eps; ring).
  pose proof (green_sum S L inj val V l d Hl keep a F HU e Hu Hst HR E0 Hg0 beta Hnb tau Y X (EC (orbital name i)) (ECdag (orbital name j)) HY HX) as G.
  unfold ftau in Q at 2. rewrite G in Q. eapply Rle_trans; [|exact Q]. right. f_equal. f_equal. unfold sum_pairs, sum4.
  apply csum_ext. intros. apply csum_ext. intros. apply csum_ext. intros. apply csum_ext. intros. apply pair_contrib.
Qed.
Print Assumptions C26_imaginary_time.

(** C26.  Spectral sum rule: when all the Fock states are kept the residues of the entry (i, j) sum to
    delta_ij, up to the dropped terms. *)
Theorem C26_sum_rule :
  forall (S : scalar_ops) (inj : R -> S) (val : S -> C) choose norm eigen (l : fops) (e : expr S) (a : atom S (RE S inj)) (beta : R) (gs : gf_struct),
  scalar_laws S -> complex_view S inj val -> norm_ok norm -> length l <= 17 -> NoDup l -> (forall i, uses e i -> In i l) -> solves S (RE S inj) l e eigen ->
  constructed S (RE S inj) choose norm eigen l e (fun _ => true) a -> gf_orbitals S inj gs l a ->
  exists lh, atomic_g_lehmann S inj val a beta gs [] = Ok lh /\
  forall b name n m i j, nth_error gs b = Some (name, n) -> nth_error lh b = Some (n, m) -> i < n -> j < n ->
  (Cmod (csum (m i j) (fun pr => val (snd pr)) - RtoC (if i =? j then 1 else 0))%C <= 2 ^ length l * 2 ^ length l * / 2 ^ 52)%R.
Proof.
  intros S inj val ch nm eg l e a beta gs L V N Hl Hn Hu Sv C HG.
  destruct (C26_lehmann S inj val ch nm eg l e (fun _ => true) a beta gs [] L V N Hl Hn Hu Sv C HG) as (lh & H1 & H2 & H3). exists lh. split; [exact H1|].
  destruct (constructed_atom S (RE S inj) ch nm eg l e _ a L (RE_laws S inj val L V) N Hl Hn Hu Sv C) as (op & d & Hd & He & Ha & Rp & F).
  assert (Hk : kept_list (length l) (fun _ => true) <> []).
  { intros Q. assert (H : In 0%N (kept_list (length l) (fun _ => true))) by (apply in_kept; split; [|reflexivity]; apply N.neq_0_lt_0, N.pow_nonzero; lia). rewrite Q in H. exact H. }
  destruct (constructed_nonempty S _ l e d _ a Hl Rp F Hk) as (Hnb & E0 & Hg0). pose proof (constructed_unitary S _ l e d _ a Rp F) as HU.
  intros b name n m i j Hgs Hm Hi Hj. destruct (H3 b name n Hgs) as (m' & M1 & M2). rewrite Hm in M1. injection M1 as <-.
  pose proof (M2 i j Hi Hj (fun _ => RtoC 1)) as Q. 
  replace (csum (m i j) (fun pr => val (snd pr))) with (csum (m i j) (fun pr => Cmult (val (snd pr)) (RtoC 1))) by (apply csum_ext; intros; ring). rewrite Q.
  destruct (HG name n i (nth_error_In _ _ Hgs) Hi) as (I1 & _). destruct (HG name n j (nth_error_In _ _ Hgs) Hj) as (J1 & _).
  assert (Br : forall g f, bracket S l (EAdd (EMul (EC (orbital name i)) (ECdag (orbital name j))) (EMul (ECdag (orbital name j)) (EC (orbital name i)))) g f = bracket S l (EScal (if i =? j then k1 else k0)) g f).
  { intros g f. destruct (eval_wf S L (EScal (if i =? j then k1 else k0))) as (o1 & E1 & _).
    rewrite (bracket_mel S L l _ o1 f g) with (2 := E1); [|intros y []]. rewrite (bracket_mel S L l _ o1 f g); [reflexivity| |].
    - cbn [uses]. intros y [[H|H]|[H|H]]; subst; assumption.
    - rewrite (thm_car_ccd S L). rewrite <- E1. do 2 f_equal. destruct (Nat.eqb_spec i j) as [->|Hne].
      + replace (ieqb (orbital name j) (orbital name j)) with true by (symmetry; apply ieqb_eq; reflexivity). reflexivity.
      + destruct (ieqb (orbital name i) (orbital name j)) eqn:Qe; [|reflexivity]. exfalso. apply ieqb_eq in Qe. unfold orbital in Qe. injection Qe as Qe. lia. }
  pose proof (sum_rule S L inj val V l d Hl (fun _ => true) a F HU beta Hnb (EC (orbital name i)) (ECdag (orbital name j)) (if i =? j then k1 else k0)) as SR.
  assert (U1 : forall y, uses (EC (orbital name i) : expr S) y -> In y l) by (cbn [uses]; intros y <-; exact I1). assert (U2 : forall y, uses (ECdag (orbital name j) : expr S) y -> In y l) by (cbn [uses]; intros y <-; exact J1).
  pose proof (SR U1 U2) as SR'. clear SR. assert (St : forall o, stays S l (fun _ => true) o) by (intros o f g _ _ _ Kg; discriminate Kg). specialize (SR' (St _) (St _) Br).
  replace (val (if i =? j then k1 else k0)) with (RtoC (if i =? j then 1 else 0)) in SR' by (destruct (i =? j); [rewrite (cv_1 _ _ _ V)|rewrite (cv_0 _ _ _ V)]; reflexivity).
  rewrite <- SR'.
  pose proof (dropped S inj val l d Hl (fun _ => true) a F beta (EC (orbital name i)) (ECdag (orbital name j)) (fun _ => RtoC 1) 1 Rle_0_1) as Q3.
  assert (Q4 : forall p : R, (Cmod (RtoC 1) <= 1)%R) by (intros _; rewrite Cmod_1; apply Rle_refl). specialize (Q3 Q4).
  replace (INR (length (kept_list (length l) (fun _ => true)))) with (2 ^ length l)%R in Q3.
  2:{ unfold kept_list. assert (Fl : forall xs : list BinNums.N, filter (fun _ => true) xs = xs) by (induction xs as [|x xs IHx]; [reflexivity|]; cbn [filter]; rewrite IHx; reflexivity).
      rewrite Fl. unfold all_states. rewrite map_length, seq_length, pow_INR. reflexivity. }
  eapply Rle_trans; [|replace (2 ^ length l * 2 ^ length l * / 2 ^ 52)%R with (2 ^ length l * (2 ^ length l * (eps * 1)))%R by (unfold eps; ring); exact Q3]. right. f_equal. f_equal.
  - unfold sum_pairs, sum4. apply csum_ext. intros. apply csum_ext. intros. apply csum_ext. intros. apply csum_ext. intros. apply pair_contrib.
  - unfold sum4. apply csum_ext. intros. apply csum_ext. intros. apply csum_ext. intros. apply csum_ext. intros. ring.
Qed.
Print Assumptions C26_sum_rule.

(** C26.  atomic_g_iw is the Fourier transform of atomic_g_tau:
    G_ij(i w_k) = int_0^beta exp(i w_k tau) G_ij(tau) dtau for every fermionic frequency
    w_k = (2k+1) pi / beta.  No condition on the atom or the excluded states. *)
Theorem C26_matsubara :
  forall (S : scalar_ops) (inj : R -> S) (val : S -> C) (a : atom S (RE S inj)) (beta : R) (gs : gf_struct) (excluded : list (nat * nat)) g g' (k : Z) b i j,
  (0 < beta)%R -> atomic_g_tau S inj val a beta gs excluded = Ok g -> atomic_g_iw S inj val a beta gs excluded = Ok g' ->
  let w := ((2 * IZR k + 1) * PI / beta)%R in
  cintegral (fun tau => Cmult (cis (w * tau)) (g b i j tau)) 0 beta (g' b i j (Cmult Ci (RtoC w))).
Proof.
  intros S inj val a beta gs ex g g' k b i j Hb H H' w. apply ok_terms in H, H'. destruct H as (ts & T & K). destruct H' as (ts' & T' & K'). rewrite T in T'. injection T' as <-.
  rewrite K', (run_sum S val (iw_step S val) (fun z p => Cinv (Cminus z (RtoC p)))) by reflexivity.
  apply (cintegral_ext (fun tau => csum (cell S b i j ts) (fun pr => Cmult (cis (w * tau)) (Cmult (val (snd pr)) (RtoC (ftau beta tau (fst pr))))))).
  - intros tau. rewrite K, (run_sum S val (tau_step S val beta) (fun tau p => RtoC (ftau beta tau p))) by (intros; apply tau_step_eq). apply csum_l.
  - apply (cintegral_csum (fun tau pr => Cmult (cis (w * tau)) (Cmult (val (snd pr)) (RtoC (ftau beta tau (fst pr)))))). intros [p r] _. cbn [fst snd]. exact (term_fourier beta k p (val r) Hb).
Qed.
Print Assumptions C26_matsubara.

(** C26.  atomic_g_w is the same function of the frequency as atomic_g_iw, at w + i broadening. *)
Theorem C26_real_frequency :
  forall (S : scalar_ops) (inj : R -> S) (val : S -> C) (a : atom S (RE S inj)) (beta : R) (gs : gf_struct) (broadening : R) (excluded : list (nat * nat)) g g' b i j (w : R),
  atomic_g_w S inj val a beta gs broadening excluded = Ok g -> atomic_g_iw S inj val a beta gs excluded = Ok g' ->
  g b i j w = g' b i j (w, broadening).
Proof.
  intros S inj val a beta gs eta ex g g' b i j w H H'. apply ok_terms in H, H'. destruct H as (ts & T & K). destruct H' as (ts' & T' & K'). rewrite T in T'. injection T' as <-.
  rewrite K, K', (run_sum S val (iw_step S val) (fun z p => Cinv (Cminus z (RtoC p)))) by reflexivity.
  rewrite (run_sum S val (w_step S val eta) (fun x p => Cinv (Cminus (Cplus (RtoC x) (Cmult Ci (RtoC eta))) (RtoC p)))) by reflexivity.
  replace (Cplus (RtoC w) (Cmult Ci (RtoC eta))) with ((w, eta) : C) by (unfold Cplus, Cmult, Ci, RtoC; cbn [fst snd]; f_equal; ring). reflexivity.
Qed.
Print Assumptions C26_real_frequency.

(** C26.  atomic_g_l holds the Legendre coefficients of atomic_g_tau:
    G_l = sqrt(2l+1) int_0^beta P_l(2 tau / beta - 1) G(tau) dtau.  Boost's cyl_bessel_i is assumed
    to satisfy the integral representation of the modified spherical Bessel functions,
    2 sqrt(pi / 2x) I_{l+1/2}(x) = int_{-1}^1 exp(x t) P_l(t) dt for x > 0. *)
Theorem C26_legendre :
  forall (S : scalar_ops) (inj : R -> S) (val : S -> C) (cyl_bessel_i : R -> R -> R) (a : atom S (RE S inj)) (beta : R) (gs : gf_struct) (excluded : list (nat * nat)) g g' b i j (n : nat),
  (forall m x, (0 < x)%R -> is_RInt (fun t => exp (x * t) * legendre_P m t)%R (-1) 1 (2 * (sqrt (PI / (2 * x)) * cyl_bessel_i (INR m + 0.5) x))%R) ->
  (0 < beta)%R -> atomic_g_tau S inj val a beta gs excluded = Ok g -> atomic_g_l S inj val cyl_bessel_i a beta gs excluded = Ok g' ->
  cintegral (fun tau => Cmult (RtoC (sqrt (2 * INR n + 1) * legendre_P n (2 * tau / beta - 1))) (g b i j tau)) 0 beta (g' b i j n).
Proof.
  intros S inj val cb a beta gs ex g g' b i j n HB Hb H H'. apply ok_terms in H, H'. destruct H as (ts & T & K). destruct H' as (ts' & T' & K'). rewrite T in T'. injection T' as <-.
  rewrite K', (run_sum S val (l_step S val cb beta) (fun m p => RtoC (fleg cb beta m p))) by reflexivity.
  apply (cintegral_ext (fun tau => csum (cell S b i j ts) (fun pr => Cmult (val (snd pr)) (RtoC (sqrt (2 * INR n + 1) * legendre_P n (2 * tau / beta - 1) * ftau beta tau (fst pr)))))).
  - intros tau. rewrite K, (run_sum S val (tau_step S val beta) (fun tau p => RtoC (ftau beta tau p))) by (intros; apply tau_step_eq). rewrite <- csum_l. apply csum_ext. intros pr _. rewrite (RtoC_mult _ (ftau _ _ _)). ring.
  - apply (cintegral_csum (fun tau pr => Cmult (val (snd pr)) (RtoC (sqrt (2 * INR n + 1) * legendre_P n (2 * tau / beta - 1) * ftau beta tau (fst pr))))). intros [p r] _. cbn [fst snd].
    apply cintegral_real. exact (term_legendre cb HB beta n p Hb).
Qed.
Print Assumptions C26_legendre.

Lemma resd_conj S (L : scalar_laws S) inj val (V : complex_view S inj val) l a beta o1 o2 b i b' j :
  Cconj (val (resd S inj l a beta (EC o1) (ECdag o2) b i b' j)) = val (resd S inj l a beta (EC o2) (ECdag o1) b i b' j).
Proof.
  unfold resd. rewrite !(cv_mul _ _ _ V), !(cv_inj _ _ _ V), (el_c_conj S L inj l a o1), (el_c_conj S L inj l a o2), !(cv_conj _ _ _ V), !conj_mul.
  replace (Cconj (RtoC (wt S inj a beta b i + wt S inj a beta b' j))) with (RtoC (wt S inj a beta b i + wt S inj a beta b' j)) by (unfold Cconj, RtoC; cbn; f_equal; ring).
  replace (Cconj (Cconj (val (elem S (RE S inj) l a (ECdag o1) b' j b i)))) with (val (elem S (RE S inj) l a (ECdag o1) b' j b i)) by (destruct (val (elem S (RE S inj) l a (ECdag o1) b' j b i)); unfold Cconj; cbn; f_equal; ring). ring.
Qed.
(** C26.  G(conj z) = G(z)^dagger: the frequency Green's function is hermitian, dropped and excluded terms
    included. *)
Theorem C26_hermitian :
  forall (S : scalar_ops) (inj : R -> S) (val : S -> C) choose norm eigen (l : fops) (e : expr S) (keep : N -> bool) (a : atom S (RE S inj)) (beta : R) (gs : gf_struct) (excluded : list (nat * nat)),
  scalar_laws S -> complex_view S inj val -> norm_ok norm -> length l <= 17 -> NoDup l -> (forall i, uses e i -> In i l) -> solves S (RE S inj) l e eigen ->
  constructed S (RE S inj) choose norm eigen l e keep a -> gf_orbitals S inj gs l a ->
  exists g, atomic_g_iw S inj val a beta gs excluded = Ok g /\ forall b name n i j z, nth_error gs b = Some (name, n) -> i < n -> j < n -> g b i j (Cconj z) = Cconj (g b j i z).
Proof.
  intros S inj val ch nm eg l e keep a beta gs ex L V N Hl Hn Hu Sv C HG.
  destruct (constructed_atom S (RE S inj) ch nm eg l e keep a L (RE_laws S inj val L V) N Hl Hn Hu Sv C) as (op & d & Hd & He & Ha & Rp & F).
  destruct (direct_sum S L inj val V l d Hl keep e a F Rp beta gs ex HG (iw_step S val) (fun z p => Cinv (Cminus z (RtoC p))) (fun x p r v => eq_refl)) as (g & K1 & K2).
  exists g. split; [exact K1|]. intros b name n i j z Hg Hi Hj. rewrite (K2 b name n i j Hg Hi Hj), (K2 b name n j i Hg Hj Hi). unfold sum_pairs.
  rewrite csum_conj. apply csum_ext. intros b1 _. rewrite csum_conj. apply csum_ext. intros i1 _. rewrite csum_conj. apply csum_ext. intros b2 _. rewrite csum_conj. apply csum_ext. intros i2 _.
  rewrite !pair_contrib. unfold contrib. assert (Z0 : Cconj (RtoC 0) = RtoC 0) by (unfold Cconj, RtoC; cbn; f_equal; ring).
  destruct (_ || _)%bool; [symmetry; exact Z0|]. unfold negligible. rewrite <- (resd_conj S L inj val V l a beta (orbital name j) (orbital name i)), conj_mod.
  destruct (Rlt_dec _ _); [symmetry; exact Z0|]. rewrite conj_mul, conj_inv. do 2 f_equal. destruct z as [x y]. unfold Cminus, Cplus, Copp, Cconj, RtoC. cbn [fst snd]. f_equal. ring.
Qed.
Print Assumptions C26_hermitian.

(** C26.  The spectral function of a diagonal entry is not negative: Im G_ii(w + i broadening) <= 0 for
    a positive broadening, and G_ii(tau) is real and not positive. *)
Theorem C26_spectral_function :
  forall (S : scalar_ops) (inj : R -> S) (val : S -> C) choose norm eigen (l : fops) (e : expr S) (keep : N -> bool) (a : atom S (RE S inj)) (beta : R) (gs : gf_struct) (broadening : R) (excluded : list (nat * nat)),
  scalar_laws S -> complex_view S inj val -> norm_ok norm -> length l <= 17 -> NoDup l -> (forall i, uses e i -> In i l) -> solves S (RE S inj) l e eigen ->
  constructed S (RE S inj) choose norm eigen l e keep a -> gf_orbitals S inj gs l a -> kept_list (length l) keep <> [] -> (0 < broadening)%R ->
  exists g g', atomic_g_w S inj val a beta gs broadening excluded = Ok g /\ atomic_g_tau S inj val a beta gs excluded = Ok g' /\ forall b name n i, nth_error gs b = Some (name, n) -> i < n ->
    (forall w, snd (g b i i w) <= 0)%R /\ (forall tau, fst (g' b i i tau) <= 0 /\ snd (g' b i i tau) = 0)%R.
Proof.
  intros S inj val ch nm eg l e keep a beta gs eta ex L V N Hl Hn Hu Sv C HG Hk Heta.
  destruct (constructed_atom S (RE S inj) ch nm eg l e keep a L (RE_laws S inj val L V) N Hl Hn Hu Sv C) as (op & d & Hd & He & Ha & Rp & F).
  destruct (constructed_nonempty S _ l e d _ a Hl Rp F Hk) as (Hnb & _).
  destruct (direct_sum S L inj val V l d Hl keep e a F Rp beta gs ex HG (w_step S val eta) (fun x p => Cinv (Cminus (Cplus (RtoC x) (Cmult Ci (RtoC eta))) (RtoC p))) (fun x p r v => eq_refl)) as (g & K1 & K2).
  destruct (direct_sum S L inj val V l d Hl keep e a F Rp beta gs ex HG (tau_step S val beta) (fun tau p => RtoC (ftau beta tau p)) (fun x p r v => tau_step_eq S val beta x p r v)) as (g' & K3 & K4).
  exists g, g'. split; [exact K1|]. split; [exact K3|]. intros b name n i Hg Hi.
  assert (Sp : forall (Q : Complex.C -> Prop) phi, Q (RtoC 0) -> (forall z w, Q z -> Q w -> Q (Cplus z w)) -> (forall p r, (0 <= r)%R -> Q (Cmult (RtoC r) (phi p))) ->
    Q (sum_pairs S inj a (pair_value S inj val l a beta ex (EC (orbital name i)) (ECdag (orbital name i)) phi))).
  { intros Q phi Q0 Qa Hp. unfold sum_pairs. apply csum_pred; try assumption. intros b1 _. apply csum_pred; try assumption. intros i1 _. apply csum_pred; try assumption. intros b2 _. apply csum_pred; try assumption. intros i2 _.
    rewrite pair_contrib. unfold contrib. destruct (_ || _)%bool; [exact Q0|]. destruct (negligible _ _ _); [exact Q0|].
    destruct (resd_diag S L inj val V l d Hl keep a F beta Hnb (orbital name i) b1 i1 b2 i2) as (r & Hr & ->). apply Hp. exact Hr. }
  split.
  - intros w. rewrite (K2 b name n i i Hg Hi Hi). apply (Sp (fun z => (snd z <= 0)%R)); [cbn; lra|intros [x y] [x' y']; cbn; lra|]. intros p r Hr. cbn.
    replace (w + (0 * eta - 1 * 0) + - p)%R with (w - p)%R by ring. replace (0 + (0 * 0 + 1 * eta) + - 0)%R with eta by ring.
    assert (Pd : (0 < (w - p) * ((w - p) * 1) + eta * (eta * 1))%R) by (pose proof (Rle_0_sqr (w - p)) as Sq; pose proof (Rmult_lt_0_compat eta eta Heta Heta); unfold Rsqr in Sq; lra). pose proof (Rinv_0_lt_compat _ Pd) as Pi. unfold Rdiv. set (q := (/ _)%R) in *.
    assert (0 <= r * (eta * q))%R by (apply Rmult_le_pos; [exact Hr|]; apply Rmult_le_pos; lra). lra.
  - intros tau. rewrite (K4 b name n i i Hg Hi Hi). apply (Sp (fun z => (fst z <= 0 /\ snd z = 0)%R)); [cbn; lra|intros [x y] [x' y']; cbn; lra|]. intros p r Hr. cbn.
    assert (Pf : (0 <= - ftau beta tau p)%R) by (unfold ftau; rewrite Ropp_involutive; apply Rlt_le, Rdiv_lt_0_compat; [apply exp_pos|pose proof (exp_pos (- beta * p)); lra]).
    pose proof (Rmult_le_pos _ _ Hr Pf). split; [lra|ring].
Qed.
Print Assumptions C26_spectral_function.

(** The hypotheses hold for one orbital ("up", 0) with H = -3 n. *)
Example C26_ex : scalar_laws RS /\ complex_view RS (fun x => x) RtoC /\ NoDup orbs1 /\ (forall i, uses ham1 i -> In i orbs1) /\ solves RS RE1 orbs1 ham1 eigen1 /\
  kept_list (length orbs1) (fun _ => true) = [0; 1]%N /\
  exists a, constructed RS RE1 (fun _ _ _ => true) (fun l => l) eigen1 orbs1 ham1 (fun _ => true) a /\ gf_orbitals RS (fun x => x) [("up"%string, 1)] orbs1 a.
Proof.
  destruct C25_ex as (E1 & E2 & E3 & E4 & E5 & E6 & a & E7 & E8). repeat (split; [assumption|]). exists a. split; [exact E7|].
  intros name n i [Q|[]] Hi. injection Q as <- <-. replace i with 0 by lia. split; [left; reflexivity|].
  destruct (constructed_atom RS RE1 _ _ _ orbs1 ham1 (fun _ => true) a E1 (RE_laws RS (fun x => x) RtoC RS_laws real_view) norm_id_ok ltac:(cbn; lia) E3 E4 E5 E7) as (op & d & _ & _ & _ & ((R1 & _ & R3 & _) & _) & _).
  assert (Bd : forall b B ev u f, block RS RE1 a b B ev u -> In f B -> (f < 2)%N).
  { intros b B ev u f HB Hf. assert (Q : exists b B ev u, block RS RE1 a b B ev u /\ In f B) by (exists b, B, ev, u; auto). apply R1 in Q. destruct Q as [Q _]. exact Q. }
  split; intros b b1 b2 B B1 B2 ev ev1 ev2 u u1 u2 f f' g1 g2 HB HB1 HB2 Hf Hf' Hg1 Hg2 X1 X2.
  - apply c1_bracket in X1; [|eauto..]. apply c1_bracket in X2; [|eauto..]. subst g1 g2. eauto.
  - apply cdag1_bracket in X1; [|eauto..]. apply cdag1_bracket in X2; [|eauto..]. subst g1 g2. eauto.
Qed.
