(** C56: slice_inf, slice_sup and slice_array of the Python mpi module. *)
From Coq Require Import ZArith List Bool Lia.
From Verif Require Import MpiSlice MpiSlice_proofs.
Import ListNotations.
Local Open Scope Z_scope.

(** C56.  For every number of ranks and every (possibly empty) range imin..imax: every index is
    in the slice of exactly one rank, the slices are consecutive in rank order, none leaves the
    range, and their lengths are equal up to 1. *)
Theorem C56_slices_partition :
  forall size imin imax, 1 <= size -> imin - 1 <= imax ->
  (forall x, imin <= x <= imax -> exists r, 0 <= r < size /\ slice_inf size r imin imax <= x <= slice_sup size r imin imax) /\
  (forall x r r', 0 <= r < size -> 0 <= r' < size ->
     slice_inf size r imin imax <= x <= slice_sup size r imin imax ->
     slice_inf size r' imin imax <= x <= slice_sup size r' imin imax -> r = r') /\
  (forall r x, 0 <= r < size -> slice_inf size r imin imax <= x <= slice_sup size r imin imax -> imin <= x <= imax) /\
  (forall r, 0 <= r -> r + 1 < size -> slice_inf size (r + 1) imin imax = slice_sup size r imin imax + 1) /\
  (forall r r', 0 <= r < size -> 0 <= r' < size ->
     0 <= slice_sup size r imin imax - slice_inf size r imin imax + 1 /\
     Z.abs ((slice_sup size r imin imax - slice_inf size r imin imax) - (slice_sup size r' imin imax - slice_inf size r' imin imax)) <= 1).
Proof.
  intros size imin imax Hs Hm. split; [exact (slice_cover size imin imax Hs Hm)|].
  split; [intros x r r' H H' A B; exact (slice_unique size imin imax Hs Hm x r r' (proj1 H) (proj1 H') A B)|].
  split; [intros r x H A; pose proof (slice_bounds size imin imax Hs Hm r H); cbv beta in *; lia|].
  split; [intros r _ _; exact (slice_next size imin imax Hs Hm r)|].
  intros r r' H H'. split; [|exact (slice_len_diff size imin imax Hs Hm r r')].
  pose proof (slice_bounds size imin imax Hs Hm r H). cbv beta in *. lia.
Qed.
Print Assumptions C56_slices_partition.

(** slice_array: the pieces of the ranks, put together in rank order, are the array. *)
Theorem C56_slice_array :
  forall (A : Type) size (l : list A), 1 <= size ->
  concat (map (fun r => slice_array size (Z.of_nat r) l) (seq 0 (Z.to_nat size))) = l.
Proof. intros A size l Hs. rewrite <- flat_map_concat_map. exact (slices_concat size l Hs). Qed.
Print Assumptions C56_slice_array.

(** 11 entries over 4 ranks; more ranks than entries; an empty array *)
Example C56_ex :
  map (fun r => (slice_inf 4 r 5 15, slice_sup 4 r 5 15)) [0; 1; 2; 3] = [(5, 7); (8, 10); (11, 13); (14, 15)] /\
  map (fun r => slice_array 3 r [10; 20]) [0; 1; 2] = [[10]; [20]; []] /\ slice_array 3 1 ([] : list Z) = [].
Proof. vm_compute. auto. Qed.
