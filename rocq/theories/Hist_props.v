(** Property theorems for the histogram (C46).

    [count p xs] is the number of samples of the list xs with p, [in_bin a b N n x] says that x is
    within half a bin length of the centre of bin n (right end excluded), [total] sums a list. *)
From Coq Require Import ZArith QArith Qround Qabs List Bool Lia Lqa.
From Verif Require Import Base Hist Hist_proofs.
Import ListNotations.
Local Open Scope Q_scope.

(** what a histogram over [a, b] with N bins must hold after the samples xs *)
Definition records (a b : Q) (N : Z) (xs : list Q) (h : hist) : Prop :=
  h_npts h = count (in_range a b) xs /\
  h_lost h = count (fun x => negb (in_range a b x)) xs /\
  length (h_data h) = Z.to_nat N /\
  (forall n, (n < Z.to_nat N)%nat -> nth n (h_data h) 0 == inject_Z (count (fun x => in_range a b x && in_bin a b N (Z.of_nat n) x) xs)) /\
  (forall n, mesh_point h n == centre a b N n) /\
  h5_read (h5_write h) = Ok h.
Lemma holds_records a b N xs h : a < b -> (2 <= N)%Z -> holds a b N xs h -> records a b N xs h.
Proof.
  intros ab N2 H. pose proof (holds_length _ _ _ _ _ H) as L. repeat split; try apply H; auto.
  - intros n Ln. pose proof H as (_ & _ & _ & _ & _ & _ & D). apply same_data_nth in D. destruct D as [_ D]. rewrite D by lia. rewrite expected_nth by exact Ln. reflexivity.
  - intros n. eapply mesh_point_centre; eassumption.
  - eapply h5_proof; eassumption.
Qed.

Theorem C46_every_sample_recorded a b N h0 xs : (2 <= N)%Z -> make a b N = Ok h0 ->
  exists h, push_all h0 xs = Ok h /\ records a b N xs h /\
    (h_npts h + h_lost h = Z.of_nat (length xs))%Z /\ total (h_data h) == inject_Z (h_npts h).
Proof.
  intros N2 M. destruct (make_ok _ _ _ _ M) as [ab H0]. destruct (push_all_holds a b N ab N2 xs [] h0 H0) as (h & P & H). cbn [app] in H.
  exists h. split; [exact P|]. split; [apply holds_records; assumption|]. pose proof H as (_ & _ & _ & _ & Ep & El & D). split.
  - rewrite Ep, El. clear. unfold count. induction xs as [|x xs IH]; [reflexivity|]. cbn [filter length]. destruct (in_range a b x); cbn [negb length] in *; lia.
  - rewrite (total_same _ _ D), total_expected, Ep by assumption. reflexivity.
Qed.
(** an in-range sample is in exactly one of the N bins, and the centre of that bin is a nearest one *)
Theorem C46_one_nearest_bin a b N x : a < b -> (2 <= N)%Z -> in_range a b x = true ->
  exists n, (0 <= n < N)%Z /\ (forall m, in_bin a b N m x = true <-> m = n) /\
    forall m, Qabs (x - centre a b N n) <= Qabs (x - centre a b N m).
Proof.
  intros ab N2 R. exists (bin a b N x). split; [apply bin_range; assumption|]. split.
  - intros m. rewrite (in_bin_iff a b N ab N2), Z.eqb_eq. tauto.
  - intros m. apply bin_nearest; assumption.
Qed.
Theorem C46_addition a b N h0 xs ys h1 h2 : (2 <= N)%Z -> make a b N = Ok h0 -> push_all h0 xs = Ok h1 -> push_all h0 ys = Ok h2 ->
  exists h, add h1 h2 = Ok h /\ records a b N (xs ++ ys) h.
Proof.
  intros N2 M P1 P2. destruct (make_ok _ _ _ _ M) as [ab H0]. destruct (push_all_holds a b N ab N2 xs [] h0 H0) as (h1' & Q1 & H1).
  destruct (push_all_holds a b N ab N2 ys [] h0 H0) as (h2' & Q2 & H2). rewrite P1 in Q1. rewrite P2 in Q2. injection Q1 as <-. injection Q2 as <-.
  destruct (add_holds _ _ _ _ _ _ _ H1 H2) as (h & A & H). exists h. split; [exact A|apply holds_records; assumption].
Qed.
Theorem C46_addition_throws h1 h2 : ~ h_a h1 == h_a h2 \/ ~ h_b h1 == h_b h2 \/ length (h_data h1) <> length (h_data h2) -> add h1 h2 = Throw.
Proof. exact (add_throws h1 h2). Qed.
(** the reduction over MPI ranks that sampled xss is the histogram of all the samples *)
Theorem C46_mpi_reduce a b N h0 xss hs : (2 <= N)%Z -> make a b N = Ok h0 -> hs <> [] ->
  Forall2 (fun xs h => push_all h0 xs = Ok h) xss hs -> exists h, mpi_reduce hs = Ok h /\ records a b N (concat xss) h.
Proof.
  intros N2 M NE F. destruct (make_ok _ _ _ _ M) as [ab H0].
  assert (F' : Forall2 (fun xs h => holds a b N xs h) xss hs).
  { clear NE. induction F as [|xs h xss hs P F IH]; constructor; [|exact IH]. destruct (push_all_holds a b N ab N2 xs [] h0 H0) as (h' & Q & H). rewrite P in Q. injection Q as <-. exact H. }
  destruct (reduce_holds a b N xss hs ab NE F') as (h & R & H). exists h. split; [exact R|apply holds_records; assumption].
Qed.
Theorem C46_pdf a b N h0 xs h p : (2 <= N)%Z -> make a b N = Ok h0 -> push_all h0 xs = Ok h -> pdf h = Some p ->
  total (h_data p) == 1 /\ forall n, nth n (h_data p) 0 == nth n (h_data h) 0 / inject_Z (h_npts h).
Proof.
  intros N2 M P1. destruct (make_ok _ _ _ _ M) as [ab H0]. destruct (push_all_holds a b N ab N2 xs [] h0 H0) as (h1' & Q1 & H1).
  rewrite P1 in Q1. injection Q1 as <-. exact (pdf_sum a b N xs h p ab N2 H1).
Qed.
Theorem C46_cdf a b N h0 xs h p : (2 <= N)%Z -> make a b N = Ok h0 -> push_all h0 xs = Ok h -> cdf h = Some p ->
  length (h_data p) = Z.to_nat N /\
  (forall n, (n < Z.to_nat N)%nat -> nth n (h_data p) 0 == total (firstn (S n) (h_data h)) / inject_Z (h_npts h)) /\
  (forall m n, (m <= n < Z.to_nat N)%nat -> nth m (h_data p) 0 <= nth n (h_data p) 0) /\
  nth (Z.to_nat N - 1) (h_data p) 0 == 1.
Proof.
  intros N2 M P1. destruct (make_ok _ _ _ _ M) as [ab H0]. destruct (push_all_holds a b N ab N2 xs [] h0 H0) as (h1' & Q1 & H1).
  rewrite P1 in Q1. injection Q1 as <-. exact (cdf_proof a b N xs h p ab N2 H1).
Qed.
(** pdf and cdf have numbers exactly when a sample was in range *)
Theorem C46_pdf_defined h : (exists p, pdf h = Some p) <-> h_npts h <> 0%Z.
Proof. unfold pdf. destruct (Z.eqb_spec (h_npts h) 0); split; intros H; try congruence; [destruct H; discriminate|eauto]. Qed.
Theorem C46_clear a b N h0 xs h ys : (2 <= N)%Z -> make a b N = Ok h0 -> push_all h0 xs = Ok h ->
  exists h', push_all (clear h) ys = Ok h' /\ records a b N ys h'.
Proof.
  intros N2 M P1. destruct (make_ok _ _ _ _ M) as [ab H0]. destruct (push_all_holds a b N ab N2 xs [] h0 H0) as (h1' & Q1 & H1).
  rewrite P1 in Q1. injection Q1 as <-. destruct (push_all_holds a b N ab N2 ys [] _ (clear_proof _ _ _ _ _ H1)) as (h' & P & H).
  exists h'. split; [exact P|]. apply holds_records; assumption.
Qed.
(** the constructor from two integers has one bin per integer, centred on it *)
Theorem C46_integer_bins a b h0 n : make_int a b = Ok h0 -> (a < b)%Z /\ length (h_data h0) = Z.to_nat (b - a + 1) /\ mesh_point h0 n == inject_Z (a + n).
Proof.
  unfold make_int. intros M. destruct (make_ok _ _ _ _ M) as [ab H0]. rewrite <- Zlt_Qlt in ab. split; [exact ab|]. split; [eapply holds_length; exact H0|].
  assert (Q : inject_Z a < inject_Z b) by (apply injZ_lt; exact ab). assert (N2 : (2 <= b - a + 1)%Z) by lia. rewrite (mesh_point_centre _ _ _ _ _ n Q N2 H0). unfold centre.
  replace (b - a + 1 - 1)%Z with (b - a)%Z by lia. unfold Z.sub. rewrite !inject_Z_plus, inject_Z_opp. field. lra.
Qed.
(** the range must not be empty *)
Theorem C46_empty_range_throws a b N : b <= a -> make a b N = Throw.
Proof. intros H. unfold make, init_step. apply Qle_bool_iff in H. rewrite H. reflexivity. Qed.
(** N = 0 bins passes the constructor; the first in-range sample is undefined behaviour *)
Theorem C46_no_bins_refuted : exists h, make 0 1 0 = Ok h /\ push h 0 = UB.
Proof. eexists. split; reflexivity. Qed.

Print Assumptions C46_every_sample_recorded. Print Assumptions C46_one_nearest_bin. Print Assumptions C46_addition.
Print Assumptions C46_addition_throws. Print Assumptions C46_mpi_reduce. Print Assumptions C46_pdf. Print Assumptions C46_cdf.
Print Assumptions C46_pdf_defined. Print Assumptions C46_clear. Print Assumptions C46_integer_bins. Print Assumptions C46_empty_range_throws. Print Assumptions C46_no_bins_refuted.

(** non-trivial instances *)
Definition ex_h0 : hist := match make 0 10 21 with Ok h => h | _ => mkHist 0 0 0 0 0 [] 0 end.
Example hist_ex : make 0 10 21 = Ok ex_h0. Proof. reflexivity. Qed.
Example hist_ex_push : match push_all ex_h0 [-(10#1); -(5#100); 0; 14#100; 22#100; 28#100; 10] with
  | Ok h => h_npts h = 5%Z /\ h_lost h = 2%Z /\ nth 0 (h_data h) 0 == 3 /\ nth 1 (h_data h) 0 == 1 | _ => False end.
Proof. vm_compute. repeat split. Qed.
Example hist_range_ex : in_range 0 10 (14#100) = true. Proof. reflexivity. Qed.
Example hist_int_ex : exists h, make_int 0 10 = Ok h. Proof. eexists. reflexivity. Qed.
