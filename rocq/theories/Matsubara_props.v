(** Properties C34 (Matsubara frequencies) and C35 (imfreq mesh). *)
From Coq Require Import ZArith Reals List Bool Lia Lra String Sorting.
From Verif Require Import Base Matsubara Matsubara_proofs.
Import ListNotations.
Open Scope Z_scope.

(** The sum of two frequencies is the frequency whose value is the sum of the values;
    it is bosonic exactly when both have the same statistic. *)
Theorem C34_sum_of_frequencies :
  forall x y, fr_beta x = fr_beta y -> fr_beta x <> 0%R ->
    fr_value (fr_add x y) = (fr_value x + fr_value y)%R /\ fr_beta (fr_add x y) = fr_beta x /\
    (fr_stat (fr_add x y) = Boson <-> fr_stat x = fr_stat y).
Proof. exact thm_fr_add. Qed.
Print Assumptions C34_sum_of_frequencies.
Example C34_sum_ex : fr_add (mkFreq 3 1 Fermion) (mkFreq (-2) 1 Fermion) = mkFreq 2 1 Boson.
Proof. reflexivity. Qed.

Theorem C34_difference_of_frequencies :
  forall x y, fr_beta x = fr_beta y -> fr_beta x <> 0%R ->
    fr_value (fr_sub x y) = (fr_value x - fr_value y)%R /\ fr_beta (fr_sub x y) = fr_beta x /\
    (fr_stat (fr_sub x y) = Boson <-> fr_stat x = fr_stat y).
Proof. exact thm_fr_sub. Qed.
Print Assumptions C34_difference_of_frequencies.
Example C34_sub_ex : fr_sub (mkFreq 3 1 Boson) (mkFreq 1 1 Fermion) = mkFreq 1 1 Fermion.
Proof. reflexivity. Qed.

Theorem C34_negated_frequency :
  forall x, fr_beta x <> 0%R ->
    fr_value (fr_neg x) = (- fr_value x)%R /\ fr_beta (fr_neg x) = fr_beta x /\ fr_stat (fr_neg x) = fr_stat x.
Proof. exact thm_fr_neg. Qed.
Print Assumptions C34_negated_frequency.
Example C34_neg_ex : fr_neg (mkFreq 0 1 Fermion) = mkFreq (-1) 1 Fermion. Proof. reflexivity. Qed.

(** The group laws hold as equalities of frequency objects, and a frequency is determined
    by its value. *)
Theorem C34_frequency_group_laws :
  forall x y, fr_beta x = fr_beta y ->
    fr_add (fr_sub x y) y = x /\ fr_sub (fr_add x y) y = x /\ fr_add x (fr_neg y) = fr_sub x y /\
    fr_neg (fr_neg x) = x /\ fr_add x y = fr_add y x.
Proof. exact thm_fr_laws. Qed.
Print Assumptions C34_frequency_group_laws.

Theorem C34_frequency_determined_by_value :
  forall x y, fr_beta x = fr_beta y -> (0 < fr_beta x)%R -> (fr_value x = fr_value y <-> x = y).
Proof. exact thm_fr_value_inj. Qed.
Print Assumptions C34_frequency_determined_by_value.

(** kronecker(x, y) tests equality of values for frequencies of the same statistic... *)
Theorem C34_kronecker_same_statistic :
  forall x y, fr_beta x = fr_beta y -> (0 < fr_beta x)%R -> fr_stat x = fr_stat y ->
    (fr_kron2 x y = true <-> fr_value x = fr_value y).
Proof. exact thm_kron. Qed.
Print Assumptions C34_kronecker_same_statistic.
Example C34_kron_ex : fr_kron2 (mkFreq 3 1 Boson) (mkFreq 3 1 Boson) = true /\ (0 < 1)%R.
Proof. split; [reflexivity|lra]. Qed.

(** ... but not in general; and operator/ returns the product. *)
Theorem C34_kronecker_is_equality_refuted :
  exists x y, fr_beta x = fr_beta y /\ fr_kron2 x y = true /\ fr_value x <> fr_value y /\
    fr_kron x = true /\ fr_value x <> 0%R.
Proof. exact cex_kron. Qed.
Print Assumptions C34_kronecker_is_equality_refuted.
Theorem C34_quotient_of_frequencies_refuted :
  exists x y, fr_beta x = fr_beta y /\ fr_value y <> 0%R /\ fr_div x y <> (fr_value x / fr_value y)%R.
Proof. exact cex_fr_div. Qed.
Print Assumptions C34_quotient_of_frequencies_refuted.

(** imfreq: indices and data indices are in bijection. *)
Theorem C35_imfreq_index_bijection :
  forall m i d,
    (if_valid m i = true <-> 0 <= if_to_data m i < if_size m) /\ if_to_index m (if_to_data m i) = i /\
    (0 <= d < if_size m <-> if_valid m (if_to_index m d) = true) /\ if_to_data m (if_to_index m d) = d.
Proof. exact thm_if_index. Qed.
Print Assumptions C35_imfreq_index_bijection.

(** number of points: n_iw for a positive-only mesh, otherwise 2 n_iw or 2 n_iw - 1 *)
Theorem C35_imfreq_size :
  forall m, if_size m = if if_pos m then if_n m
                        else match if_stat m with Fermion => 2 * if_n m | Boson => 2 * if_n m - 1 end.
Proof. exact if_size_val. Qed.
Print Assumptions C35_imfreq_size.

Theorem C35_imfreq_iteration :
  forall m, 1 <= if_n m ->
    Z.of_nat (List.length (if_points m)) = if_size m /\ StronglySorted Z.lt (if_points m) /\
    forall i, In i (if_points m) <-> if_valid m i = true.
Proof. exact thm_if_points. Qed.
Print Assumptions C35_imfreq_iteration.
Example C35_iteration_ex : if_points (mkImfreq 1 Fermion 2 false) = [-2; -1; 0; 1] /\ if_points (mkImfreq 1 Boson 2 false) = [-1; 0; 1].
Proof. split; reflexivity. Qed.

Theorem C35_imfreq_symmetric :
  forall m i, if_pos m = false ->
    (if_valid m i = true <-> if_valid m (fr_n (fr_neg (if_freq m i))) = true).
Proof. exact thm_if_symmetric. Qed.
Print Assumptions C35_imfreq_symmetric.

Theorem C35_imfreq_positive_half :
  forall m i, (0 < if_beta m)%R -> 1 <= if_n m ->
    (if_valid (if_positive m) i = true <-> if_valid m i = true /\ (0 <= fr_value (if_freq m i))%R).
Proof. exact thm_if_positive. Qed.
Print Assumptions C35_imfreq_positive_half.

Theorem C35_imfreq_h5_round_trip :
  forall m, 0 <= if_n m -> if_read (if_write m) = m.
Proof. exact thm_if_h5. Qed.
Print Assumptions C35_imfreq_h5_round_trip.
Example C35_h5_ex : h_size (if_write (mkImfreq 1 Boson 3 false)) = 5. Proof. reflexivity. Qed.

Theorem C35_imfreq_eval_on_mesh :
  forall m f i, if_valid m i = true -> if_eval m f (if_freq m i) = f (if_to_data m i).
Proof. exact thm_if_eval. Qed.
Print Assumptions C35_imfreq_eval_on_mesh.

(** A fermionic mesh made from an energy window always leaves out a frequency of the window. *)
Theorem C35_imfreq_window_covers_refuted :
  forall beta wmax pos, (0 < beta)%R -> (PI / beta <= wmax)%R ->
    let m := if_of_window beta Fermion wmax pos in
    exists i, (0 <= fr_value (if_freq m i) <= wmax)%R /\ if_valid m i = false.
Proof. exact thm_if_window. Qed.
Print Assumptions C35_imfreq_window_covers_refuted.
