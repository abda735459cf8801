(** Model of c++/triqs/hilbert_space/fundamental_operator_set.{hpp,cpp} and
    hilbert_space.hpp : index sets, Fock spaces and their subspaces. *)
From Coq Require Import ZArith NArith List Bool String Ascii Lia DecimalString.
From Verif Require Import Base Indices.
Import ListNotations.

(** ---- fundamental_operator_set ---- *)

(** fundamental_operator_set.hpp:55-58 : the container is a vector of index tuples *)
Definition fops : Type := list indices.

(** std::find followed by std::distance *)
Fixpoint find_pos (l : fops) (t : indices) : option nat :=
  match l with
  | [] => None
  | i :: l' => if ieqb i t then Some O else option_map S (find_pos l' t)
  end.

(** fundamental_operator_set.hpp:124  has_indices *)
Definition fops_has (l : fops) (t : indices) : bool :=
  match find_pos l t with Some _ => true | None => false end.

(** fundamental_operator_set.hpp:131-135  operator[] : throws when absent *)
Definition fops_at (l : fops) (t : indices) : res nat :=
  match find_pos l t with Some p => Ok p | None => Throw end.

(** fundamental_operator_set.hpp:106-111  insert *)
Definition fops_insert (l : fops) (t : indices) : fops := if fops_has l t then l else l ++ [t].

(** fundamental_operator_set.hpp:117  size (int, sizes below 2^31) *)
Definition fops_size (l : fops) : nat := List.length l.

(** fundamental_operator_set.hpp:80-82 : construction from a std::set (in its order) and,
    for a history of insert calls, the state reached *)
Definition fops_inserts (l : fops) (ts : list indices) : fops := fold_left fops_insert ts l.

(** fundamental_operator_set.hpp:94-97 : from gf_struct, (block, 0) ... (block, size-1) *)
Definition gf_struct_indices (g : list (string * nat)) : list indices :=
  flat_map (fun bs => map (fun k => [LStr (fst bs); LInt (Z.of_nat k)]) (seq 0 (snd bs))) g.
Definition fops_of_gf_struct (g : list (string * nat)) : fops := fops_inserts [] (gf_struct_indices g).

(** fundamental_operator_set.hpp:71-74 : from a vector of ints, pairs (i, j), j < v[i] *)
Definition vec_int_indices (v : list nat) : list indices :=
  flat_map (fun in_ => map (fun j => [LInt (Z.of_nat (fst in_)); LInt (Z.of_nat j)]) (seq 0 (snd in_)))
           (combine (seq 0 (List.length v)) v).
Definition fops_of_vec (v : list nat) : fops := fops_inserts [] (vec_int_indices v).

(** ---- HDF5 coding of a fundamental_operator_set ---- *)

(** conversion long -> int of the visitor's argument (modulo 2^32) *)
Definition to_int32 (z : Z) : Z := ((z + 2 ^ 31) mod 2 ^ 32 - 2 ^ 31)%Z.

(** std::to_string(int) : decimal *)
Definition to_string (z : Z) : string := NilZero.string_of_int (Z.to_int z).
(** std::stoi on a complete decimal number; anything else (which to_string never
    produces) is treated as a throw *)
Definition stoi (s : string) : res Z :=
  match NilZero.int_of_string s with Some d => Ok (Z.of_int d) | None => Throw end.

(** the character string seen through a NUL-terminated C string *)
Fixpoint c_str (s : string) : string :=
  match s with
  | EmptyString => EmptyString
  | String a s' => if Ascii.eqb a Ascii.zero then EmptyString else String a (c_str s')
  end.

(** fundamental_operator_set.cpp:29-32  variant_visitor *)
Definition encode_lbl (x : lbl) : string :=
  match x with
  | LInt z => String "i" (to_string (to_int32 z))
  | LStr s => String "s" s
  end.

(** fundamental_operator_set.cpp:35-41  string_to_variant (never called on an empty string) *)
Definition decode_lbl (s : string) : res lbl :=
  match s with
  | String a s' =>
      if Ascii.eqb a "i" then (do z <- stoi (c_str s') ; Ok (LInt z))
      else if Ascii.eqb a "s" then Ok (LStr (c_str s'))
      else Throw
  | EmptyString => Throw
  end.

(** fundamental_operator_set.cpp:44-52  to_vec_vec_string *)
Definition encode_fops (f : fops) : list (list string) := map (map encode_lbl) f.

(** The h5 library stores a vector of vectors of strings as a rectangular table of
    NUL-terminated strings: every row comes back with trailing empty strings.
    [pad k] is the number of empty strings appended to row k (library behaviour, arbitrary). *)
Fixpoint h5_table (pad : nat -> nat) (k : nat) (v : list (list string)) : list (list string) :=
  match v with
  | [] => []
  | r :: v' => (map c_str r ++ repeat EmptyString (pad k)) :: h5_table pad (S k) v'
  end.

(** fundamental_operator_set.cpp:54-59  to_indices : empty strings are skipped *)
Fixpoint to_indices (r : list string) : res indices :=
  match r with
  | [] => Ok []
  | EmptyString :: r' => to_indices r'
  | s :: r' => do x <- decode_lbl s ; do xs <- to_indices r' ; Ok (x :: xs)
  end.

(** fundamental_operator_set.cpp:64-66 and 73-77 *)
Fixpoint decode_fops (v : list (list string)) : res fops :=
  match v with
  | [] => Ok []
  | r :: v' => do i <- to_indices r ; do is_ <- decode_fops v' ; Ok (i :: is_)
  end.

(** ---- hilbert_space ---- *)

(** hilbert_space.hpp:50 : dim = int(1ull << size); the shift is undefined from 64 on *)
Definition hs_dim (n : nat) : res Z := if (n <? 64)%nat then Ok (to_int32 (2 ^ Z.of_nat n)) else UB.

(** the int dim converted to uint64 in the comparisons f < dim, f >= dim *)
Definition dim_u64 (dim : Z) : Z := wrap64 dim.

(** hilbert_space.hpp:80  has_state *)
Definition hs_has (dim : Z) (f : N) : bool := (Z.of_N f <? dim_u64 dim)%Z.
(** hilbert_space.hpp:87-90  get_state_index (the result is converted to int) *)
Definition hs_index (dim : Z) (f : N) : res Z :=
  if (dim_u64 dim <=? Z.of_N f)%Z then Throw else Ok (to_int32 (Z.of_N f)).
(** hilbert_space.hpp:97-100  get_fock_state (an int is compared with an int; a negative
    index wraps to a large uint64) *)
Definition hs_fock (dim i : Z) : res N :=
  if (dim <=? i)%Z then Throw else Ok (Z.to_N (wrap64 i)).

(** 1 << p on int, converted to uint64: undefined from 32 on; 1 << 31 is INT_MIN *)
Definition shift1_int (p : nat) : res N :=
  if (p <? 31)%nat then Ok (2 ^ N.of_nat p)%N
  else if (p =? 31)%nat then Ok (2 ^ 64 - 2 ^ 31)%N else UB.
(** hilbert_space.hpp:108-112  get_fock_state(fops, set of indices) *)
Fixpoint hs_fock_of (l : fops) (is_ : list indices) (f : N) : res N :=
  match is_ with
  | [] => Ok f
  | i :: is' => do p <- fops_at l i ; do b <- shift1_int p ; hs_fock_of l is' ((f + b) mod 2 ^ 64)%N
  end.

(** ---- sub_hilbert_space ---- *)

(** hilbert_space.hpp:247-255.  boost flat_map<fock_state_t, int> is an association list in
    which [insert] keeps an existing entry. *)
Record sub_hs : Type := mkSub { sub_index : Z; sub_states : list N; sub_map : list (N * nat) }.

Fixpoint nfind (f : N) (m : list (N * nat)) : option nat :=
  match m with
  | [] => None
  | (g, i) :: m' => if N.eqb g f then Some i else nfind f m'
  end.
Definition ninsert (f : N) (i : nat) (m : list (N * nat)) : list (N * nat) :=
  match nfind f m with Some _ => m | None => m ++ [(f, i)] end.

(** hilbert_space.hpp:155 *)
Definition sub_new (index : Z) : sub_hs := mkSub index [] [].
(** hilbert_space.hpp:174-178  add_fock_state *)
Definition sub_add (s : sub_hs) (f : N) : sub_hs :=
  mkSub (sub_index s) (sub_states s ++ [f]) (ninsert f (List.length (sub_states s)) (sub_map s)).
(** hilbert_space.hpp:184 *)
Definition sub_size (s : sub_hs) : nat := List.length (sub_states s).
(** hilbert_space.hpp:194 *)
Definition sub_eqb (s t : sub_hs) : bool :=
  (sub_index s =? sub_index t)%Z &&
  (if list_eq_dec N.eq_dec (sub_states s) (sub_states t) then true else false).
(** hilbert_space.hpp:211 : dereferences end() when absent *)
Definition sub_at (s : sub_hs) (f : N) : res nat :=
  match nfind f (sub_map s) with Some i => Ok i | None => UB end.
(** hilbert_space.hpp:218 *)
Definition sub_has (s : sub_hs) (f : N) : bool :=
  match nfind f (sub_map s) with Some _ => true | None => false end.
(** hilbert_space.hpp:225 : unchecked vector access *)
Definition sub_fock (s : sub_hs) (i : nat) : res N :=
  match nth_error (sub_states s) i with Some f => Ok f | None => UB end.
(** hilbert_space.hpp:270-274, 282-289 : the file holds the index and the states; reading
    rebuilds the map, numbering by the current size of the map *)
Definition sub_h5_write (s : sub_hs) : Z * list N := (sub_index s, sub_states s).
Definition sub_h5_read (w : Z * list N) : sub_hs :=
  mkSub (fst w) (snd w) (fold_left (fun m f => ninsert f (List.length m) m) (snd w) []).

(** a history of add_fock_state calls *)
Definition sub_adds (s : sub_hs) (fs : list N) : sub_hs := fold_left sub_add fs s.
