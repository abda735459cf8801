(** C54: flattening data is invertible. *)
From Coq Require Import ZArith List Bool Lia.
From Verif Require Import Base GfSym GfSymSpec Flatten FlattenSpec Flatten_proofs.
Import ListNotations.
Local Open Scope nat_scope.

(** flatten_2d<N>(a) is a matrix with one row per index of dimension N; unflatten_2d<N> into an array of the shape of a gives a
    back, for every rank, shape and N *)
Theorem C54_round_trip {V : Type} (N : nat) (a : arr V) (nrows : nat) :
  full a -> nth_error (a_sh a) N = Some nrows -> 0 < nrows ->
  exists b, flatten_2d N a = Ok b /\ full b /\ (exists ncols, a_sh b = [nrows; ncols] /\ nrows * ncols = size (a_sh a)) /\ unflatten_2d N (a_sh a) b = Ok a.
Proof.
  intros F En Hn. destruct (unflatten_flatten N a nrows F En Hn) as (b & E & U). destruct (flatten_ok N a nrows F En Hn) as (t & sh' & Es & E' & Est & Ft & _).
  rewrite E in E'. injection E' as ->. eexists. split; [exact E|]. unfold full in *. rewrite Est in Ft. cbn [a_dat a_sh size] in *. split; [lia|]. split; [|exact U].
  exists (size sh'). split; [reflexivity|]. pose proof (swap0_size N _ _ Es) as Z. cbn [size] in Z. exact Z.
Qed.
Print Assumptions C54_round_trip.

(** conversely, every matrix with the right number of elements is the flattening of the array unflatten_2d makes of it *)
Theorem C54_round_trip_back {V : Type} (N : nat) (sh : list nat) (b : arr V) (nrows ncols : nat) :
  full b -> nth_error sh N = Some nrows -> 0 < nrows -> a_sh b = [nrows; ncols] -> size sh = nrows * ncols ->
  exists a, unflatten_2d N sh b = Ok a /\ a_sh a = sh /\ full a /\ flatten_2d N a = Ok b.
Proof. apply flatten_unflatten. Qed.
Print Assumptions C54_round_trip_back.

(** where each element goes: a(q) is in row q[N], at the row-major position of the remaining subscripts, with q[0] in the place of
    q[N] *)
Theorem C54_elements {V : Type} (N : nat) (a : arr V) (nrows : nat) (q : list nat) (i : nat) :
  full a -> nth_error (a_sh a) N = Some nrows -> 0 < nrows -> subscript (a_sh a) q -> nth_error q N = Some i ->
  exists b x, flatten_2d N a = Ok b /\ a_at a q = Ok x /\ a_at b [i; rank (others N (a_sh a)) (others N q)] = Ok x.
Proof.
  intros F En Hn Hq Hi. destruct (flatten_ok N a nrows F En Hn) as (t & sh' & Es & E & Est & Ft & _ & V'). eexists. destruct (at_ok a q F Hq) as (x & Ex & _). exists x. split; [exact E|]. split; [exact Ex|].
  destruct (swap0_ok N q) as (q' & Eq & _); [rewrite (subscript_len _ _ Hq); apply nth_error_Some; congruence|].
  destruct (swap0_others N _ _ Eq) as (i' & Ei & ->). rewrite Hi in Ei. injection Ei as <-.
  destruct (swap0_others N _ _ Es) as (n' & En' & Z). injection Z as _ ->. rewrite (V' q i _ Hq Eq). exact Ex.
Qed.
Print Assumptions C54_elements.

(** for N = 0 and N = 1 the other dimensions are in the original order *)
Theorem C54_order {V : Type} (N : nat) (a : arr V) (nrows : nat) (q : list nat) (i : nat) :
  N <= 1 -> full a -> nth_error (a_sh a) N = Some nrows -> 0 < nrows -> subscript (a_sh a) q -> nth_error q N = Some i ->
  exists b x, flatten_2d N a = Ok b /\ a_at a q = Ok x /\ a_at b [i; rank (without N (a_sh a)) (without N q)] = Ok x.
Proof. intros HN F En Hn Hq Hi. rewrite <- !others_without by exact HN. exact (C54_elements N a nrows q i F En Hn Hq Hi). Qed.
Print Assumptions C54_order.

(** finding: not for N = 2, although the documentation says so for every N *)
Theorem C54_order_refuted : exists (a : arr nat) b q x y, full a /\ flatten_2d 2 a = Ok b /\ subscript (a_sh a) q /\ nth_error q 2 = Some 0 /\
  a_at a q = Ok x /\ a_at b [0; rank (without 2 (a_sh a)) (without 2 q)] = Ok y /\ x <> y.
Proof.
  exists (mkArr [2; 2; 1] [10; 11; 12; 13]), (mkArr [1; 4] [10; 12; 11; 13]), [0; 1; 0], 11, 12.
  repeat split; try reflexivity; [repeat constructor|discriminate].
Qed.
Print Assumptions C54_order_refuted.

(** an empty dimension N: division by zero *)
Theorem C54_empty_dimension {V : Type} (N : nat) (a : arr V) : nth_error (a_sh a) N = Some 0 -> flatten_2d N a = UB.
Proof. intros E. unfold flatten_2d. rewrite E. reflexivity. Qed.
Print Assumptions C54_empty_dimension.

Example C54_ex : let a := mkArr [2; 3; 2] [0; 1; 2; 3; 4; 5; 6; 7; 8; 9; 10; 11] in
  full a /\ nth_error (a_sh a) 1 = Some 3 /\ 0 < 3 /\ subscript (a_sh a) [1; 2; 0] /\ nth_error [1; 2; 0] 1 = Some 2 /\
  flatten_2d 1 a = Ok (mkArr [3; 4] [0; 1; 6; 7; 2; 3; 8; 9; 4; 5; 10; 11]) /\ size [2; 3; 2] = 3 * 4.
Proof. cbn zeta. repeat split; repeat constructor. Qed.
