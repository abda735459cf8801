(** Model of c++/triqs/hilbert_space/space_partition.hpp : automatic partition of a Hilbert space.

    The class works on the indices 0..size-1 of the basis states.  An operator is seen only
    through the sequence of (final index, amplitude) pairs which foreach visits in op(|i>), so
    an operator is here a function from i to that sequence ([ImpOp.v] models operator()
    itself; [imp_cols] of [Partition_props.v] connects the two).

    boost::disjoint_sets_with_storage is an external library, represented by its contract: a
    labelling of the elements by the representative of their set.  Which of the two
    representatives survives a link (it depends on ranks) is the arbitrary function [choose];
    which representatives remain after compress_sets / normalize_sets is the arbitrary
    function [norm], constrained by [norm_ok] below.  Every statement quantifies over both. *)
From Coq Require Import List Arith Bool Lia.
From Verif Require Import Base.
Import ListNotations.

(** the representative of each element, by position; an element beyond the storage is its own
    representative *)
Definition labels : Type := list nat.
(** find_set *)
Definition rep (l : labels) (x : nat) : nat := nth x l x.

Section Partition.
  (** amplitude_t and triqs::utility::is_zero on it (utility/numeric_ops.hpp:36-49) *)
  Variable A : Type.
  Variable is_zero : A -> bool.
  (** which representative survives: true keeps the second one *)
  Variable choose : labels -> nat -> nat -> bool.
  (** compress_sets followed by normalize_sets *)
  Variable norm : labels -> labels.

  (** what foreach(op(|i>), ...) visits, in order *)
  Definition cols : Type := nat -> list (nat * A).

  (** boost disjoint_sets_with_storage(n): n singletons (line 68) *)
  Definition singletons (n : nat) : labels := seq 0 n.

  (** boost link(x, y): the sets of x and y are united *)
  Definition relabel (a b : nat) (l : labels) : labels := map (fun r => if r =? a then b else r) l.
  Definition link (l : labels) (x y : nat) : labels :=
    let a := rep l x in
    let b := rep l y in
    if a =? b then l else if choose l a b then relabel a b l else relabel b a l.

  (** matrix_element_map_t : std::map<pair, value>, an association list with unique keys *)
  Definition elems : Type := list ((nat * nat) * A).
  Definition key_eqb (p q : nat * nat) : bool := (fst p =? fst q) && (snd p =? snd q).
  Fixpoint e_get (m : elems) (k : nat * nat) : option A :=
    match m with
    | [] => None
    | (k', a) :: m' => if key_eqb k' k then Some a else e_get m' k
    end.
  (** map[k] = a *)
  Fixpoint e_put (m : elems) (k : nat * nat) (a : A) : elems :=
    match m with
    | [] => [(k, a)]
    | (k', a') :: m' => if key_eqb k' k then (k', a) :: m' else (k', a') :: e_put m' k a
    end.

  (** the members of the class (lines 268-276).  representative_to_index is held as the list of
      its keys in the order of insertion: the value of a key is its position *)
  Record sp : Type := mkSp { sp_dim : nat; subspaces : labels; matrix_elements : elems; rep_index : list nat }.

  (** lines 256-266 : _update_index *)
  Definition index_step (l : labels) (ks : list nat) (n : nat) : list nat :=
    if existsb (Nat.eqb (rep l n)) ks then ks else ks ++ [rep l n].
  Definition update_index (s : sp) : sp :=
    let l := norm (subspaces s) in
    mkSp (sp_dim s) l (matrix_elements s) (fold_left (index_step l) (seq 0 (sp_dim s)) []).

  (** representative_to_index[r]; operator[] gives 0 for an absent key *)
  Fixpoint pos_of (ks : list nat) (r : nat) : option nat :=
    match ks with
    | [] => None
    | k :: ks' => if k =? r then Some 0 else option_map S (pos_of ks' r)
    end.
  Definition index_of (ks : list nat) (r : nat) : nat := match pos_of ks r with Some p => p | None => 0 end.

  (** lines 76-85 : the lambda mapping *)
  Definition mapping (store : bool) (i : nat) (st : labels * elems) (fa : nat * A) : labels * elems :=
    let '(l, m) := st in
    let '(f, a) := fa in
    if is_zero a then st
    else (let i_s := rep l i in
          let f_s := rep l f in
          if negb (i_s =? f_s) then link l i_s f_s else l,
          if store then e_put m (i, f) a else m).

  (** lines 67-101 : the constructor, Phase I.  [hyb] is None when Hyb.is_empty(). *)
  Definition phase1_step (store : bool) (h : cols) (hyb : option cols) (st : labels * elems) (i : nat) : labels * elems :=
    let st1 := fold_left (mapping store i) (h i) st in
    match hyb with
    | None => st1
    | Some hy => fold_left (mapping store i) (hy i) st1
    end.
  Definition sp_new (size : nat) (h : cols) (store : bool) (hyb : option cols) : sp :=
    let '(l, m) := fold_left (phase1_step store h hyb) (seq 0 size) (singletons size, []) in
    update_index (mkSp size l m []).

  (** lines 128-141 : fill_conn; a multimap is the list of its entries in insertion order *)
  Definition conns : Type := list (nat * nat).
  Definition fill_conn (store : bool) (l : labels) (op : cols) (st : conns * elems) (i : nat) : conns * elems :=
    fold_left (fun (st : conns * elems) (fa : nat * A) =>
                 let '(cn, m) := st in
                 if is_zero (snd fa) then st
                 else (cn ++ [(rep l i, rep l (fst fa))], if store then e_put m (i, fst fa) (snd fa) else m))
              (op i) st.

  (** multimap::find (the entry inserted first) and erase of the found entry *)
  Fixpoint c_find (k : nat) (cn : conns) : option nat :=
    match cn with
    | [] => None
    | (k', v) :: cn' => if k' =? k then Some v else c_find k cn'
    end.
  Fixpoint c_erase (k : nat) (cn : conns) : conns :=
    match cn with
    | [] => []
    | (k', v) :: cn' => if k' =? k then cn' else (k', v) :: c_erase k cn'
    end.
  (** *std::begin : the entry inserted first among those with the smallest key *)
  Fixpoint c_begin (cn : conns) : option (nat * nat) :=
    match cn with
    | [] => None
    | (k, v) :: cn' => match c_begin cn' with
                       | Some (k', v') => if k' <? k then Some (k', v') else Some (k, v)
                       | None => Some (k, v)
                       end
    end.

  (** the state of the traversal: subspaces, Cd_connections, C_connections *)
  Record zst : Type := mkZ { z_lab : labels; z_cd : conns; z_c : conns }.
  Definition z_side (up : bool) (z : zst) : conns := if up then z_cd z else z_c z.

  (** lines 161-179 : zigzag_traversal.  The first recursive call is the nested traversal
      (line 177), the second one is the next turn of the while loop (line 166).  [fuel] bounds
      the depth; None : exhausted. *)
  Fixpoint zigzag (fuel : nat) (lower upper : nat) (i : nat) (up : bool) (z : zst) : option zst :=
    match fuel with
    | O => None
    | S fuel' =>
        match c_find i (z_side up z) with
        | None => Some z
        | Some f =>
            let l := link (z_lab z) f (if up then upper else lower) in
            let z1 := if up then mkZ l (c_erase i (z_cd z)) (z_c z) else mkZ l (z_cd z) (c_erase i (z_c z)) in
            match zigzag fuel' lower upper f (negb up) z1 with
            | None => None
            | Some z2 => zigzag fuel' lower upper i up z2
            end
        end
    end.

  (** lines 150-183 : while (!Cd_connections.empty()) *)
  Definition z_count (z : zst) : nat := length (z_cd z) + length (z_c z).
  Fixpoint zz_loop (fuel : nat) (z : zst) : option zst :=
    match fuel with
    | O => None
    | S fuel' =>
        match c_begin (z_cd z) with
        | None => Some z
        | Some (lower, upper) =>
            match zigzag (S (z_count z)) lower upper lower true z with
            | None => None
            | Some z' => zz_loop fuel' z'
            end
        end
    end.

  (** lines 116-189 : merge_subspaces.  The two operators are filled in the same loop over i
      (line 124); as they write to different containers this is done here one after the other. *)
  Definition merge_subspaces (s : sp) (cd c : cols) (store : bool) : option (sp * (elems * elems)) :=
    let '(cn_cd, m_cd) := fold_left (fill_conn store (subspaces s) cd) (seq 0 (sp_dim s)) ([], []) in
    let '(cn_c, m_c) := fold_left (fill_conn store (subspaces s) c) (seq 0 (sp_dim s)) ([], []) in
    let z := mkZ (subspaces s) cn_cd cn_c in
    match zz_loop (S (length cn_cd)) z with
    | None => None
    | Some z' => Some (update_index (mkSp (sp_dim s) (z_lab z') (matrix_elements s) (rep_index s)), (m_cd, m_c))
    end.

  (** line 195 *)
  Definition n_subspaces (s : sp) : nat := length (rep_index s).
  (** line 215 *)
  Definition lookup_basis_state (s : sp) (i : nat) : nat := index_of (rep_index s) (rep (subspaces s) i).
  (** line 221 *)
  Definition get_matrix_elements (s : sp) : elems := matrix_elements s.

  (** lines 229-253 : find_mappings; the std::set is a list without duplicates *)
  Definition set_insert (p : nat * nat) (m : list (nat * nat)) : list (nat * nat) :=
    if existsb (key_eqb p) m then m else m ++ [p].
  Definition find_mappings (s : sp) (op : cols) (diagonal_only : bool) : list (nat * nat) :=
    fold_left (fun m i =>
      fold_left (fun m (fa : nat * A) =>
                   if is_zero (snd fa) then m
                   else let i_s := rep (subspaces s) i in
                        let f_s := rep (subspaces s) (fst fa) in
                        if negb diagonal_only || (i_s =? f_s)
                        then set_insert (index_of (rep_index s) i_s, index_of (rep_index s) f_s) m
                        else m)
                (op i) m)
      (seq 0 (sp_dim s)) [].

  (** a sequence of merges, as in atom_diag/impl/worker.cpp:66-74 *)
  Fixpoint merges (s : sp) (ops : list (cols * cols)) : option sp :=
    match ops with
    | [] => Some s
    | (cd, c) :: ops' => match merge_subspaces s cd c true with
                         | Some (s', _) => merges s' ops'
                         | None => None
                         end
    end.
End Partition.
Arguments mkSp {A}. Arguments sp_dim {A}. Arguments subspaces {A}. Arguments matrix_elements {A}. Arguments rep_index {A}.
Arguments n_subspaces {A}. Arguments lookup_basis_state {A}. Arguments get_matrix_elements {A}. Arguments e_get {A}.
