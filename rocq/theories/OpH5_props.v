(** Properties of the HDF5 archives of many-body operators (C83). *)
From Coq Require Import String ZArith QArith Qcanon List Bool Arith Sorted Lia.
From Verif Require Import Base Indices Scalar Fock OpModel OpNormal Hilbert Hilbert_proofs RealOrComplex OpH5 OpH5Spec OpH5_proofs.
Import ListNotations.
Local Open Scope nat_scope.

Lemma map_same {A} (op : tmap A) : map (fun mc => (fst mc, snd mc)) op = op.
Proof. induction op as [|[m c] op IH]; [reflexivity|]. cbn [map fst snd]. rewrite IH. reflexivity. Qed.

(** C83.  An operator written to a file and read back is the same operator, for real, complex and
    real_or_complex coefficients, whatever padding the storage adds. *)
Theorem C83_round_trip_real : forall (pad : nat -> nat) (op : tmap double), is_map op -> short op -> labels_ok op -> few op ->
  exists ds, h5_write roc_of_d op = Ok ds /\ h5_read to_double pad ds = Ok op.
Proof.
  intros pad op Hm Hs Hl Hf. destruct (thm_round roc_of_d to_double (fun _ => True) (fun x => x) (fun _ _ => eq_refl) pad op Hm Hs Hl Hf) as (ds & W & R).
  - apply Forall_forall. intros mc _. exact I.
  - exists ds. split; [exact W|]. rewrite R, map_same. reflexivity.
Qed.
Print Assumptions C83_round_trip_real.

Theorem C83_round_trip_complex : forall (pad : nat -> nat) (op : tmap dcomplex), is_map op -> short op -> labels_ok op -> few op ->
  exists ds, h5_write roc_of_c op = Ok ds /\ h5_read (fun r => Ok (to_complex r)) pad ds = Ok op.
Proof.
  intros pad op Hm Hs Hl Hf. destruct (thm_round roc_of_c (fun r => Ok (to_complex r)) (fun _ => True) (fun x => x)) with (pad := pad) (op := op) as (ds & W & R); auto.
  - intros [x y] _. reflexivity.
  - apply Forall_forall. intros mc _. exact I.
  - exists ds. split; [exact W|]. rewrite R, map_same. reflexivity.
Qed.
Print Assumptions C83_round_trip_complex.

Theorem C83_round_trip_real_or_complex : forall (pad : nat -> nat) (op : tmap roc), is_map op -> short op -> labels_ok op -> few op ->
  Forall (fun mc => proper (snd mc)) op ->
  exists ds, h5_write (fun r => r) op = Ok ds /\ h5_read (fun r => Ok r) pad ds = Ok op.
Proof.
  intros pad op Hm Hs Hl Hf Hp. destruct (thm_round (fun r => r) (fun r => Ok r) proper (fun x => x)) with (pad := pad) (op := op) as (ds & W & R); auto.
  - intros r Hr. rewrite (stored_proper r Hr). reflexivity.
  - exists ds. split; [exact W|]. rewrite R, map_same. reflexivity.
Qed.
Print Assumptions C83_round_trip_real_or_complex.

(** A real operator can be read as a complex one. *)
Theorem C83_real_as_complex : forall (pad : nat -> nat) (op : tmap double), is_map op -> short op -> labels_ok op -> few op ->
  exists ds, h5_write roc_of_d op = Ok ds /\ h5_read (fun r => Ok (to_complex r)) pad ds = Ok (map (fun mc => (fst mc, mkC (snd mc) 0)) op).
Proof.
  intros pad op Hm Hs Hl Hf. apply (thm_round roc_of_d (fun r => Ok (to_complex r)) (fun _ => True) (fun x => mkC x 0%Qc)); auto. apply Forall_forall. intros mc _. exact I.
Qed.
Print Assumptions C83_real_as_complex.

(** An operator with a coefficient flagged as complex cannot be read as a real one: it throws, even if the
    imaginary part is 0. *)
Theorem C83_complex_as_real : forall (pad : nat -> nat) (op : tmap roc), is_map op -> short op -> labels_ok op -> few op ->
  exists ds, h5_write (fun r => r) op = Ok ds /\ ((exists mc, In mc op /\ is_real (snd mc) = false) -> h5_read to_double pad ds = Throw).
Proof. intros pad op. exact (thm_real_from (fun r => r) pad op). Qed.
Print Assumptions C83_complex_as_real.

(** Monomials of more than four operators are refused. *)
Theorem C83_long_monomials_refused : forall (A : Type) (to_roc : A -> roc) (op : tmap A), is_map op -> ~ short op -> h5_write to_roc op = Throw.
Proof. intros A to_roc op. exact (thm_long to_roc op). Qed.
Print Assumptions C83_long_monomials_refused.

(** With a fundamental_operator_set: the set is read back, too; an operator with an index outside
    the set is refused. *)
Theorem C83_with_operator_set : forall (pad : nat -> nat) (l : fops) (op : tmap roc), is_map op -> short op -> inside l op ->
  (Z.of_nat (length l) < 2 ^ 31)%Z -> Forall (Forall lbl_ok) l -> Forall (fun mc => proper (snd mc)) op ->
  exists ds, h5_write_fops op l = Ok ds /\ h5_read_fops pad ds [] = Ok (op, l).
Proof.
  intros pad l op Hm Hs Hi Hl Hlb Hp. destruct (thm_fops pad l op [] Hl Hlb Hs Hi) as (ds & W & R). exists ds. split; [exact W|]. rewrite R. f_equal.
  replace (map (fun x => (fst x, stored (snd x))) op) with op; [apply (f_equal (fun t : tmap roc => (t, l))), (inserts_sorted op []), Hm|].
  clear -Hp. induction Hp as [|[m c] op Hc Hp IH]; [reflexivity|]. cbn [map fst snd] in *. rewrite (stored_proper c Hc), <- IH. reflexivity.
Qed.
Print Assumptions C83_with_operator_set.
Theorem C83_outside_refused : forall (l : fops) (op : tmap roc), ~ inside l op -> h5_write_fops op l = Throw.
Proof. intros l op H. unfold h5_write_fops. rewrite write_throw; auto. Qed.
Print Assumptions C83_outside_refused.

(** make_fundamental_operator_set holds exactly the indices of the operator, once each. *)
Theorem C83_make_fundamental_operator_set : forall (A : Type) (op : tmap A),
  NoDup (make_fops op) /\ forall i, In i (make_fops op) <-> exists mc c, In mc op /\ In c (fst mc) /\ ind c = i.
Proof. intros A op. split; [apply make_fops_NoDup|intros i; apply make_fops_In]. Qed.
Print Assumptions C83_make_fundamental_operator_set.

(** Reading into an operator that is not empty (the overload that also returns the set of
    indices) does not replace it: old coefficients win, and monomials that are not in the file stay. *)
Theorem C83_read_into_operator : forall (pad : nat -> nat) (l : fops) (op old : tmap roc), is_map op -> is_map old -> short op -> inside l op ->
  (Z.of_nat (length l) < 2 ^ 31)%Z -> Forall (Forall lbl_ok) l -> Forall (fun mc => proper (snd mc)) op ->
  exists ds new, h5_write_fops op l = Ok ds /\ h5_read_fops pad ds old = Ok (new, l) /\ is_map new /\
    forall m c, In (m, c) new <-> In (m, c) old \/ (In (m, c) op /\ forall c', ~ In (m, c') old).
Proof.
  intros pad l op old Hm Ho Hs Hi Hl Hlb Hp. destruct (thm_fops pad l op old Hl Hlb Hs Hi) as (ds & W & R).
  replace (map (fun x => (fst x, stored (snd x))) op) with op in R.
  2: { clear -Hp. induction Hp as [|[m c] op Hc Hp IH]; [reflexivity|]. cbn [map fst snd] in *. rewrite (stored_proper c Hc), <- IH. reflexivity. }
  eexists ds, _. split; [exact W|]. split; [exact R|]. split; [apply (find_inserts op old [] Ho)|].
  intros m c. destruct (find_inserts op old m Ho) as [N F]. rewrite <- (find_In m c _ N), (F Hm). destruct (t_find m old) as [x|] eqn:E.
  - split; [intros [= ->]; left; apply (find_In m c old Ho); exact E|]. intros [H|[_ H]].
    + apply (find_In m c old Ho) in H. congruence.
    + exfalso. apply (H x). apply (find_In m x old Ho). exact E.
  - rewrite (find_In m c op Hm). split.
    + intros H. right. split; [exact H|]. intros c' H'. apply (find_In m c' old Ho) in H'. congruence.
    + intros [H|[H _]]; [|exact H]. apply (find_In m c old Ho) in H. congruence.
Qed.
Print Assumptions C83_read_into_operator.
(** so "after reading, the operator is the one in the file" is false *)
Theorem C83_read_replaces_refuted : exists (l : fops) (op old : tmap roc) ds new, is_map op /\ is_map old /\
  h5_write_fops op l = Ok ds /\ (forall pad, h5_read_fops pad ds old = Ok (new, l)) /\ new <> op.
Proof.
  exists [], [([], roc_of_d 1)], [([], roc_of_d 0)]. eexists _, [([], roc_of_d 0)]. split; [repeat constructor|]. split; [repeat constructor|]. split; [reflexivity|]. split; [intros pad; reflexivity|].
  intros H. injection H as H. discriminate H.
Qed.
Print Assumptions C83_read_replaces_refuted.

(** The format of the file: every record holds four numbers, p + 1 for a creation operator with the
    p-th index of the attribute, -(p + 1) for an annihilation operator, and zeros after them. *)
Lemma op_numbers_nth l m : forall xs, op_numbers l m = Ok xs -> List.length xs = List.length m /\
  forall k c, nth_error m k = Some c -> exists p, nth_error l p = Some (ind c) /\ nth k xs 0%Z = (if dag c then Z.of_nat p + 1 else - (Z.of_nat p + 1))%Z.
Proof.
  induction m as [|c m IH]; intros xs; cbn [op_numbers]; [intros H; injection H as <-; split; [reflexivity|intros [|k] c; discriminate]|].
  unfold op_number, fops_at. destruct (find_pos l (ind c)) as [p|] eqn:E; [|discriminate]. cbn [bind]. destruct (op_numbers l m) as [ys| |]; [|discriminate|discriminate]. cbn [bind]. intros H. injection H as <-.
  destruct (IH ys eq_refl) as [H1 H2]. split; [cbn [List.length]; rewrite H1; reflexivity|]. intros [|k] c' Hc; cbn [nth_error nth] in *; [|apply H2; exact Hc].
  injection Hc as <-. exists p. split; [apply find_pos_nth; exact E|reflexivity].
Qed.
Theorem C83_record_format : forall (l : fops) (op : tmap roc) d a, h5_write_fops op l = Ok (d, a) ->
  Forall2 (fun mc y => hm_real y = is_real (snd mc) /\ List.length (hm_ops y) = 4 /\
    forall k, k < 4 -> match nth_error (fst mc) k with
                       | Some c => exists p, nth_error l p = Some (ind c) /\ nth k (hm_ops y) 0%Z = (if dag c then Z.of_nat p + 1 else - (Z.of_nat p + 1))%Z
                       | None => nth k (hm_ops y) 0%Z = 0%Z
                       end) op d.
Proof.
  intros l op d a H. unfold h5_write_fops in H. destruct (write_all l op) as [d'| |] eqn:E; [|discriminate H|discriminate H]. cbn [bind] in H. injection H as -> _. revert d E.
  induction op as [|[m c] op IH]; intros d; cbn [write_all]; [intros H; injection H as <-; constructor|]. unfold write_monomial. cbn [fst snd].
  destruct (Nat.ltb_spec max_monomial_size (List.length m)) as [|Hm]; [discriminate|]. destruct (op_numbers l m) as [xs| |] eqn:Ex; [|discriminate|discriminate]. cbn [bind].
  destruct (write_all l op) as [ys| |]; [|discriminate|discriminate]. cbn [bind]. intros H. injection H as <-. constructor; [|apply IH; reflexivity].
  destruct (op_numbers_nth l m xs Ex) as [H1 H2]. cbn [hm_real hm_ops fst snd]. split; [reflexivity|]. split; [rewrite app_length, repeat_length, H1; apply (le_plus_minus_r _ _ Hm)|].
  intros k Hk. destruct (nth_error m k) as [c'|] eqn:Ek.
  - destruct (H2 k c' Ek) as (p & P1 & P2). exists p. split; [exact P1|]. rewrite app_nth1; [exact P2|]. rewrite H1. apply nth_error_Some. congruence.
  - apply nth_error_None in Ek. rewrite app_nth2 by (red; rewrite H1; exact Ek). apply nth_repeat.
Qed.
Print Assumptions C83_record_format.

(** 2 c+(up,0) c(dn,0) + 3 + i c+(up,0) c+(dn,0) c(up,1) c(dn,1) : the hypotheses hold *)
Definition up (k : Z) : indices := [LStr "up"; LInt k]%string.
Definition dn (k : Z) : indices := [LStr "dn"; LInt k]%string.
Definition op_ex : tmap roc :=
  [([], roc_of_d (Q2Qc 3)); ([mkCop true (up 0); mkCop false (dn 0)], roc_of_d (Q2Qc 2));
   ([mkCop true (dn 0); mkCop true (up 0); mkCop false (up 1); mkCop false (dn 1)], roc_of_c (mkC 0 1))].
Example C83_example : is_map op_ex /\ short op_ex /\ labels_ok op_ex /\ few op_ex /\ Forall (fun mc => proper (snd mc)) op_ex /\
  inside [dn 1; up 0; dn 0; up 1; up 2] op_ex /\ Forall (Forall lbl_ok) [dn 1; up 0; dn 0; up 1; up 2] /\ ~ inside [up 0] op_ex /\
  ~ short [([mkCop true (up 0); mkCop true (up 1); mkCop true (up 2); mkCop true (up 3); mkCop true (up 4)], roc_of_d 1)].
Proof.
  split; [repeat constructor|]. split; [repeat constructor|]. split; [|split; [reflexivity|split; [|split; [|split; [|split]]]]].
  - repeat (apply Forall_cons || apply Forall_nil); cbn [lbl_ok no_nul fst snd ind]; try lia; repeat split; discriminate.
  - repeat (apply Forall_cons || apply Forall_nil); intros H; first [reflexivity|discriminate H].
  - repeat (apply Forall_cons || apply Forall_nil); cbn; intuition.
  - repeat (apply Forall_cons || apply Forall_nil); cbn [lbl_ok no_nul fst snd ind]; try lia; repeat split; discriminate.
  - intros H. inversion_clear H. inversion_clear H1. inversion_clear H. inversion_clear H3. destruct H as [H|[]]. discriminate H.
  - intros H. inversion_clear H. cbn in H0. lia.
Qed.
