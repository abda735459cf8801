(** Property C92: hybridization functions of discrete baths. *)
From Coq Require Import ZArith Reals List Bool Arith Lia Lra.
From Coquelicot Require Import Complex.
From Verif Require Import Base FourierSpec KGrid_proofs Bath Bath_proofs TightBindingSpec BathSpec.
Import ListNotations.
Local Open Scope R_scope.

(** C92, Matsubara frequencies: the value at mesh point w is sum_j V_kj V_lj^* / (i omega - eps_j) at the frequency of that point *)
Theorem C92_frequency : forall V eps beta s first n, a_cols V = length eps ->
  exists d, make_delta V (NpArray eps) (MeshImFreq beta s first n) = Ok d /\ d_mesh d = MeshImFreq beta s first n /\ d_norb d = a_rows V /\
    forall w k l, (w < n)%nat -> d_data d w k l = bath_z (a_el V) eps (i_times (omega beta s (first + Z.of_nat w))) k l.
Proof.
  intros V eps beta s first n H. unfold make_delta. cbn [len]. rewrite H, Nat.eqb_refl. cbn [negb row_of bind]. eexists. split; [reflexivity|]. split; [reflexivity|]. split; [reflexivity|]. intros w k l Hw. cbn [d_data].
  rewrite axis. unfold bath_z. apply csum_ext'. intros j _. unfold one_freq. rewrite freq_value by exact Hw. unfold Cdiv. ring.
Qed.
Print Assumptions C92_frequency.

(** C92, imaginary times: the value at the w-th of n equidistant times tau from 0 to beta is - sum_j V_kj V_lj^* e^{- tau eps_j} / (1 + e^{- beta eps_j}) *)
Theorem C92_time : forall V eps beta n, a_cols V = length eps ->
  exists d, make_delta V (NpArray eps) (MeshImTime beta n) = Ok d /\ d_mesh d = MeshImTime beta n /\ d_norb d = a_rows V /\
    forall w k l, (w < n)%nat -> d_data d w k l = bath_tau (a_el V) eps beta (beta * (INR w / INR (n - 1))) k l.
Proof.
  intros V eps beta n H. unfold make_delta. cbn [len]. rewrite H, Nat.eqb_refl. cbn [negb row_of bind]. eexists. split; [reflexivity|]. split; [reflexivity|]. split; [reflexivity|]. intros w k l Hw. cbn [d_data].
  rewrite axis. unfold bath_tau. match goal with |- _ = (- ?s)%C => replace (- s)%C with ((- RtoC 1) * s)%C by ring end. rewrite <- csum_scal. apply csum_ext'. intros j _. unfold one_time. rewrite time_value by exact Hw. rewrite stable, RtoC_opp. ring.
Qed.
Print Assumptions C92_time.

(** ... computed without overflow: for beta > 0 no exponential that is taken exceeds one, and every factor is at most one *)
Theorem C92_no_overflow : forall beta n eps w j, 0 < beta -> (w < n)%nat -> (2 <= n)%nat ->
  Cmod (one_time beta n eps w j) <= 1 /\ exp (- fst (linspace (RtoC 0) (RtoC beta) n w) * eps j + beta * neg_part (eps j)) <= 1 /\ exp (- beta * Rabs (eps j)) <= 1.
Proof.
  intros beta n eps w j Hb Hw Hn. assert (T : 0 <= fst (linspace (RtoC 0) (RtoC beta) n w) <= beta).
  { rewrite time_value by exact Hw. assert (P : 0 < INR (n - 1)) by (apply lt_0_INR; lia). assert (Q : INR w <= INR (n - 1)) by (apply le_INR; lia). pose proof (pos_INR w) as W.
    assert (0 <= INR w / INR (n - 1)) by (apply Rmult_le_pos; [exact W|apply Rlt_le, Rinv_0_lt_compat, P]). assert (INR w / INR (n - 1) <= 1).
    { apply (Rmult_le_reg_r (INR (n - 1))); [exact P|]. unfold Rdiv. rewrite Rmult_assoc, Rinv_l, Rmult_1_r by lra. lra. } nra. }
  assert (E : forall x, x <= 0 -> exp x <= 1) by (intros x [X|X]; [rewrite <- exp_0; left; apply exp_increasing, X|rewrite X, exp_0; lra]).
  split; [unfold one_time; rewrite Cmod_R; apply bounded, T|]. split; [apply E, exponent, T|]. apply E. pose proof (Rabs_pos (eps j)). nra.
Qed.
Print Assumptions C92_no_overflow.

(** C92, the two agree: for fermions the Fourier integral over [0, beta] of the function of time is the function of frequency *)
Theorem C92_fourier : forall V eps beta n k l, 0 < beta ->
  cintegral (fun t => phase (omega beta true n * t) * bath_tau V eps beta t k l)%C 0 beta (bath_z V eps (i_times (omega beta true n)) k l).
Proof.
  intros V eps beta n k l Hb. unfold bath_z.
  apply (cint_ext (fun t => csum (fun j => V k j * Cconj (V l j) * (phase (omega beta true n * t) * RtoC (- (exp (- t * nth j eps 0) / (1 + exp (- beta * nth j eps 0))))))%C (seq 0 (length eps)))).
  - intros t. unfold bath_tau. match goal with |- _ = (?p * - ?s)%C => replace (p * - s)%C with ((- p) * s)%C by ring end. rewrite <- csum_scal. apply csum_ext'. intros j _. rewrite RtoC_opp. ring.
  - apply cint_csum. intros j _. unfold Cdiv. apply cint_scal, pole, Hb.
Qed.
Print Assumptions C92_fourier.

(** C92, hermiticity on the mesh: at opposite frequencies the matrices are hermitian conjugates *)
Theorem C92_hermitian : forall V eps beta s first n d w w', make_delta V (NpArray eps) (MeshImFreq beta s first n) = Ok d -> (w < n)%nat -> (w' < n)%nat ->
  omega beta s (first + Z.of_nat w') = - omega beta s (first + Z.of_nat w) -> forall k l, d_data d w k l = Cconj (d_data d w' l k).
Proof.
  intros V eps beta s first n d w w' E Hw Hw' O k l. assert (H : a_cols V = length eps). { unfold make_delta in E. cbn [len] in E. destruct (Nat.eqb_spec (a_cols V) (length eps)) as [H|H]; [exact H|discriminate E]. }
  destruct (C92_frequency V eps beta s first n H) as (d' & E' & _ & _ & P). rewrite E in E'. injection E' as <-. rewrite !P, bath_conj by assumption. rewrite O. f_equal. apply injective_projections; cbn; ring.
Qed.
Print Assumptions C92_hermitian.

(** C92, positivity: - Delta(tau) is positive semidefinite; Im x^dagger Delta(i omega) x has the sign opposite to omega; Delta(0) + Delta(beta) = - V V^dagger *)
Theorem C92_positive : forall V eps beta norb x,
  (forall tau, let f := form norb (fun k l => - bath_tau V eps beta tau k l)%C x in 0 <= fst f /\ snd f = 0) /\
  (forall w, w <> 0 -> snd (form norb (bath_z V eps (i_times w)) x) * w <= 0) /\
  (forall k l, bath_tau V eps beta 0 k l + bath_tau V eps beta beta k l = - csum (fun j => V k j * Cconj (V l j)) (seq 0 (length eps)))%C.
Proof.
  intros V eps beta norb x. split; [|split].
  - intros tau. cbn zeta. replace (form norb _ x) with (csum (fun j => form norb (fun k l => V k j * Cconj (V l j) * RtoC (exp (- tau * nth j eps 0) / (1 + exp (- beta * nth j eps 0))))%C x) (seq 0 (length eps))).
    + apply csum_real. intros j _. rewrite (form_one norb (fun k => V k j)), mod_sq. set (a := csum _ _). pose proof (exp_pos (- tau * nth j eps 0)) as P1. pose proof (exp_pos (- beta * nth j eps 0)) as P2.
      assert (0 < exp (- tau * nth j eps 0) / (1 + exp (- beta * nth j eps 0))) by (apply Rdiv_lt_0_compat; lra). rewrite <- RtoC_mult. cbn [fst snd RtoC]. split; [|reflexivity]. apply Rmult_le_pos; [lra|nra].
    + rewrite <- form_sum. unfold form. apply csum_ext'. intros k _. apply csum_ext'. intros l _. unfold bath_tau. ring.
  - intros w W. replace (form norb _ x) with (csum (fun j => form norb (fun k l => V k j * Cconj (V l j) * / (i_times w - RtoC (nth j eps 0)))%C x) (seq 0 (length eps))) by (rewrite <- form_sum; reflexivity).
    apply csum_im. intros j _. rewrite (form_one norb (fun k => V k j)), mod_sq. set (a := csum _ _). set (q := fst a * fst a + snd a * snd a). assert (Q : 0 <= q) by (unfold q; nra). clearbody q.
    set (e := nth j eps 0). assert (D : 0 < e * e + w * w) by nra.
    replace (snd (/ (i_times w - RtoC e) * RtoC q)%C) with (- (w / (e * e + w * w)) * q) by (cbn; field; nra).
    replace (- (w / (e * e + w * w)) * q * w) with (- (w * w * q / (e * e + w * w))) by (field; lra). assert (0 <= w * w * q / (e * e + w * w)) by (apply Rmult_le_pos; [apply Rmult_le_pos; nra|apply Rlt_le, Rinv_0_lt_compat, D]). lra.
  - intros k l. unfold bath_tau. match goal with |- (- ?a + - ?b = - ?c)%C => replace c with (a + b)%C; [ring|] end. rewrite <- csum_add. apply csum_ext'. intros j _. set (e := nth j eps 0). pose proof (exp_pos (- beta * e)) as P.
    replace (- 0 * e) with 0 by ring. rewrite exp_0. replace (V k j * Cconj (V l j))%C with (V k j * Cconj (V l j) * RtoC (1 / (1 + exp (- beta * e)) + exp (- beta * e) / (1 + exp (- beta * e))))%C at 3; [rewrite RtoC_plus; ring|].
    replace (1 / (1 + exp (- beta * e)) + exp (- beta * e) / (1 + exp (- beta * e))) with 1 by (field; lra). ring.
Qed.
Print Assumptions C92_positive.

(** C92, blocks: with as many energies and names as matrices, block n has the n-th name and is the hybridization function of the n-th matrix and energies; the names default to the positions *)
Theorem C92_blocks : forall V eps m names b, make_delta_blocks V eps m names = Ok b ->
  let ns := match names with None => seq 0 (length V) | Some l => l end in
  length V = length eps /\ length V = length ns /\ map fst b = ns /\
  forall n v e, nth_error V n = Some v -> nth_error eps n = Some e -> exists d nm, nth_error ns n = Some nm /\ nth_error b n = Some (nm, d) /\ make_delta v e m = Ok d.
Proof.
  intros V eps m names b E ns. unfold make_delta_blocks in E. fold ns in E. destruct (Nat.eqb_spec (length V) (length eps)) as [L1|L1]; [|discriminate E]. destruct (Nat.eqb_spec (length V) (length ns)) as [L2|L2]; [|discriminate E]. cbn [negb andb] in E.
  destruct (make_each V eps m) as [r| |] eqn:ER; cbn [bind] in E; try discriminate E. injection E as <-. apply (each_iff m V eps r L1) in ER. destruct ER as [LR P]. split; [exact L1|]. split; [exact L2|]. split.
  - clear -LR L2. assert (L : length ns = length r) by congruence. clear L2 LR. revert r L. generalize ns as u. induction u as [|x u IH]; intros [|y r] L; try discriminate L; [reflexivity|]. cbn [combine map fst]. rewrite IH by (cbn in L; lia). reflexivity.
  - intros n v e Hv He. destruct (P n v e Hv He) as (d & Hd & Ed). destruct (nth_error ns n) as [nm|] eqn:En; [|apply nth_error_None in En; assert (n < length V)%nat by (apply nth_error_Some; congruence); lia].
    exists d, nm. split; [reflexivity|]. split; [apply nth_combine; assumption|exact Ed].
Qed.
Print Assumptions C92_blocks.
(** ... and an exception otherwise, as for energies that do not match the matrix and for other meshes *)
Theorem C92_refuses : forall V eps m Vs epss names,
  (a_cols V <> len eps \/ m = MeshOther -> make_delta V eps m = Throw) /\
  (length Vs <> length epss \/ (exists l, names = Some l /\ length l <> length Vs) -> make_delta_blocks Vs epss m names = Throw).
Proof.
  intros V eps m Vs epss names. split.
  - intros H. unfold make_delta. destruct (Nat.eqb_spec (a_cols V) (len eps)) as [E|E]; [|reflexivity]. cbn [negb]. destruct H as [H| ->]; [contradiction|reflexivity].
  - intros H. unfold make_delta_blocks. destruct (Nat.eqb_spec (length Vs) (length epss)) as [E|E]; [|reflexivity]. destruct H as [H|(l & -> & H)]; [contradiction|]. destruct (Nat.eqb_spec (length Vs) (length l)) as [E'|E']; [congruence|reflexivity].
Qed.
Print Assumptions C92_refuses.

(** "eps : list(float) or list(list(float))" (tools.py:287) is false: energies in a list always raise, for every mesh *)
Theorem C92_list_refuted : forall V l m, make_delta V (PyList l) m = Throw.
Proof. intros V l m. unfold make_delta. destruct (negb _); [reflexivity|]. destruct m; reflexivity. Qed.
Print Assumptions C92_list_refuted.

(** The theorems are not empty: two orbitals, two bath sites of either sign of the energy, six frequencies and five times *)
Definition ex_V : array2 := mkArray 2 2 (fun k j => if Nat.eqb k j then RtoC 1 else Ci).
Example C92_example : (exists d, make_delta ex_V (NpArray [1; -2]) (MeshImFreq 10 true (-3) 6) = Ok d) /\ (exists d, make_delta ex_V (NpArray [1; -2]) (MeshImTime 10 5) = Ok d) /\
  omega 10 true (-3 + Z.of_nat 5) = - omega 10 true (-3 + Z.of_nat 0) /\ (exists b, make_delta_blocks [ex_V; ex_V] [NpArray [1; -2]; NpArray [0; 0]] (MeshImTime 10 5) None = Ok b).
Proof.
  split; [|split; [|split]].
  - destruct (C92_frequency ex_V [1; -2] 10 true (-3) 6 eq_refl) as (d & E & _). exists d. exact E.
  - destruct (C92_time ex_V [1; -2] 10 5 eq_refl) as (d & E & _). exists d. exact E.
  - unfold omega. cbn -[IZR]. lra.
  - eexists. reflexivity.
Qed.
