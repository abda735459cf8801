(** Properties C14, C15, C18 : index sets, their HDF5 coding, Fock spaces and subspaces. *)
From Coq Require Import ZArith NArith List Bool String Ascii Lia.
From Verif Require Import Base Indices Hilbert Hilbert_proofs.
Import ListNotations.

(** C14.  After any history of insertions the linear index is a bijection between the
    distinct indices inserted and 0 .. size-1; looking up anything else throws. *)
Theorem C14_linear_index_is_a_bijection :
  forall ts : list indices,
  let l := fops_inserts [] ts in
  NoDup l /\
  (forall i, In i l <-> In i ts) /\
  (forall i, fops_has l i = true <-> In i ts) /\
  (forall i p, fops_at l i = Ok p <-> nth_error l p = Some i) /\
  (forall i, ~ In i ts -> fops_at l i = Throw) /\
  (forall i, In i ts -> exists p, fops_at l i = Ok p /\ p < fops_size l) /\
  (forall p, p < fops_size l -> exists i, fops_at l i = Ok p).
Proof. exact thm_fops_bijection. Qed.
Print Assumptions C14_linear_index_is_a_bijection.

(** C14.  Positions follow the order of first insertion. *)
Theorem C14_positions_follow_insertion_order :
  forall ts i j p q k k',
  fops_at (fops_inserts [] ts) i = Ok p -> fops_at (fops_inserts [] ts) j = Ok q ->
  first_at ts i k -> first_at ts j k' -> (p < q <-> k < k').
Proof. exact inserts_order. Qed.
Print Assumptions C14_positions_follow_insertion_order.

(** C14.  Later insertions never move an index already present. *)
Theorem C14_positions_never_move :
  forall l ts i p, fops_at l i = Ok p -> fops_at (fops_inserts l ts) i = Ok p.
Proof. exact thm_fops_stable. Qed.
Print Assumptions C14_positions_never_move.
Definition ex_ts : list indices :=
  [[LStr "up"; LInt 1]; [LStr "dn"; LInt 0]; [LStr "up"; LInt 1]; [LStr "up"; LInt 0]]%string.
Example C14_ex : map (fops_at (fops_inserts [] ex_ts)) ex_ts = [Ok 0; Ok 1; Ok 0; Ok 2] /\
  first_at ex_ts [LStr "up"; LInt 1]%string 0 /\ first_at ex_ts [LStr "up"; LInt 0]%string 3.
Proof.
  split; [vm_compute; reflexivity|]. split; split; try reflexivity.
  - intros k Hk; lia.
  - intros k Hk. destruct k as [|[|[|k]]]; try lia; discriminate.
Qed.

(** C15.  Writing a set to a file and reading it back gives the same set, whatever
    padding the storage adds, when every integer fits an int and no string holds a NUL. *)
Theorem C15_h5_round_trip :
  forall (pad : nat -> nat) (l : fops),
  Forall (Forall lbl_ok) l -> decode_fops (h5_table pad 0 (encode_fops l)) = Ok l.
Proof. exact thm_fops_h5. Qed.
Print Assumptions C15_h5_round_trip.
Example C15_ex : Forall (Forall lbl_ok) (fops_inserts [] ([LInt (-7); LStr "a b"] :: [] :: ex_ts)%string).
Proof.
  change (Forall (Forall lbl_ok) [[LInt (-7); LStr "a b"]; []; [LStr "up"; LInt 1]; [LStr "dn"; LInt 0]; [LStr "up"; LInt 0]]%string).
  repeat (apply Forall_cons || apply Forall_nil); cbn [lbl_ok no_nul]; try lia; repeat split; discriminate.
Qed.

(** C15, the two restrictions are needed: integers are written as int, so 2^32 comes
    back as 0 and two different indices become one. *)
Theorem C15_wide_integers_refuted :
  exists l : fops, NoDup l /\ forall pad, exists l', decode_fops (h5_table pad 0 (encode_fops l)) = Ok l' /\ l' <> l /\ ~ NoDup l'.
Proof. exact cex_h5_wide. Qed.
Print Assumptions C15_wide_integers_refuted.
Theorem C15_nul_characters_refuted :
  exists l : fops, forall pad, exists l', decode_fops (h5_table pad 0 (encode_fops l)) = Ok l' /\ l' <> l.
Proof. exact cex_h5_nul. Qed.
Print Assumptions C15_nul_characters_refuted.

(** C18.  Full space of n <= 30 orbitals: the space holds exactly the 2^n Fock states,
    index and state maps are mutually inverse bijections onto 0 .. 2^n - 1 and calls
    outside the space throw. *)
Theorem C18_full_space_index_bijection :
  forall n d, n <= 30 -> hs_dim n = Ok d ->
  d = (2 ^ Z.of_nat n)%Z /\
  (forall f, hs_has d f = true <-> (f < 2 ^ N.of_nat n)%N) /\
  (forall f, (f < 2 ^ N.of_nat n)%N -> exists i, hs_index d f = Ok i /\ (0 <= i < d)%Z /\ hs_fock d i = Ok f) /\
  (forall i, (0 <= i < d)%Z -> exists f, hs_fock d i = Ok f /\ (f < 2 ^ N.of_nat n)%N /\ hs_index d f = Ok i) /\
  (forall f, (2 ^ N.of_nat n <= f)%N -> hs_index d f = Throw) /\
  (forall i, (d <= i)%Z -> hs_fock d i = Throw).
Proof. exact thm_hs_bijection. Qed.
Print Assumptions C18_full_space_index_bijection.
Example C18_ex_full : hs_dim 30 = Ok 1073741824%Z.
Proof. vm_compute. reflexivity. Qed.

(** C18.  The bound 30 is sharp: with 31 orbitals every valid index is rejected, and with
    32 orbitals the space has dimension 0. *)
Theorem C18_31_orbitals_refuted :
  (exists d, hs_dim 31 = Ok d /\ forall i, (0 <= i)%Z -> hs_fock d i = Throw) /\
  (exists d, hs_dim 32 = Ok d /\ d = 0%Z /\ forall f, hs_has d f = false).
Proof. exact cex_hs_31. Qed.
Print Assumptions C18_31_orbitals_refuted.

(** C18.  The Fock state built from a set of indices (orbitals 0..30) occupies exactly them. *)
Theorem C18_fock_state_of_a_set_of_indices :
  forall (l : fops) (is_ : list indices),
  Forall (fun i => exists p, fops_at l i = Ok p /\ p <= 30) is_ -> NoDup is_ ->
  exists g, hs_fock_of l is_ 0%N = Ok g /\
    forall k, N.testbit g (N.of_nat k) = true <-> exists i, In i is_ /\ fops_at l i = Ok k.
Proof. exact thm_hs_fock_of. Qed.
Print Assumptions C18_fock_state_of_a_set_of_indices.
Example C18_ex_set : hs_fock_of (fops_inserts [] ex_ts) [[LStr "up"; LInt 0]; [LStr "up"; LInt 1]]%string 0 = Ok 5%N.
Proof. vm_compute. reflexivity. Qed.

(** C18.  For orbital 31 the int shift sets 33 bits instead of one, and from 32 on it is
    undefined. *)
Theorem C18_fock_state_of_orbital_31_refuted :
  exists (l : fops) (i j : indices), fops_at l i = Ok 31 /\ fops_at l j = Ok 32 /\
    hs_fock_of l [i] 0%N = Ok (2 ^ 64 - 2 ^ 31)%N /\ hs_fock_of l [j] 0%N = UB.
Proof. exact cex_shift_31. Qed.
Print Assumptions C18_fock_state_of_orbital_31_refuted.

(** C18.  A subspace filled with distinct Fock states numbers them 0 .. size-1 in order
    of insertion, both maps are mutually inverse, and saving then loading restores it. *)
Theorem C18_subspace_index_bijection :
  forall (idx : Z) (fs : list N), NoDup fs ->
  let s := sub_adds (sub_new idx) fs in
  sub_size s = List.length fs /\ sub_index s = idx /\ sub_states s = fs /\
  (forall f, sub_has s f = true <-> In f fs) /\
  (forall f i, sub_at s f = Ok i <-> sub_fock s i = Ok f) /\
  (forall f, In f fs -> exists i, sub_at s f = Ok i /\ i < sub_size s) /\
  (forall i, i < sub_size s -> exists f, sub_fock s i = Ok f /\ In f fs) /\
  sub_h5_read (sub_h5_write s) = s.
Proof. exact thm_sub_bijection. Qed.
Print Assumptions C18_subspace_index_bijection.
Example C18_ex_sub : NoDup [5; 3; 6]%N /\ map (sub_at (sub_adds (sub_new 2) [5; 3; 6]%N)) [3; 6; 5]%N = [Ok 1; Ok 2; Ok 0].
Proof. split; [repeat constructor; simpl; intuition discriminate|vm_compute; reflexivity]. Qed.

(** C18.  Adding a state twice is not detected: size counts it twice, and after saving and
    loading the numbering of later states has changed. *)
Theorem C18_duplicate_insertion_refuted :
  exists (fs : list N) (f : N), let s := sub_adds (sub_new 0) fs in
    sub_at s f = Ok 2 /\ sub_fock s 2 = Ok f /\ sub_at (sub_h5_read (sub_h5_write s)) f = Ok 1.
Proof. exact cex_sub_dup. Qed.
Print Assumptions C18_duplicate_insertion_refuted.
