(** Model of the atom_diag constructor that takes quantum numbers
    (c++/triqs/atom_diag/impl/worker.cpp:129-252, impl/atom_diag.cpp:36-41).

    Eigenvalues and quantum numbers (double in the code) are the ordered type of [energy_ops].
    Parameters: [q_real] and [q_complex] are std::real and the test |imag| > 1e-10 of line 158;
    [q_lt x y] is x < y - 1e-8 (lines 138, 140). *)
From Coq Require Import ZArith NArith List Arith Bool.
From Verif Require Import Base Indices Scalar Fock OpModel Hilbert State ImpOp Partition Partition_imp AtomDiag.
Import ListNotations.

Section AtomQn.
  Context (S : scalar_ops) (E : energy_ops S).
  Local Open Scope K_scope.
  Variable eigen : mat S -> list E * mat S.
  Variable q_real : S -> E.
  Variable q_complex : S -> bool.
  Variable q_lt : E -> E -> bool.

  (** worker.cpp:136-144 : lt_dbl; the vectors always have the same size *)
  Fixpoint qn_lt (v1 v2 : list E) : bool :=
    match v1, v2 with
    | x :: v1', y :: v2' => if q_lt x y then true else if q_lt y x then false else qn_lt v1' v2'
    | _, _ => false
    end.

  (** worker.cpp:147 : map_qn_n.  The n-th key put into the map gets the value n, so that the map
      is the list of its keys in the order of insertion (which is also the member
      quantum_numbers).  A lookup finds the key equivalent to q.  With tolerances that are not
      transitive the order is not a strict weak one, and std::map is undefined: not modelled, the
      first equivalent key is taken. *)
  Definition qn_equiv (q k : list E) : bool := negb (qn_lt q k) && negb (qn_lt k q).
  Fixpoint qn_find (q : list E) (keys : list (list E)) : option nat :=
    match keys with
    | [] => None
    | k :: keys' => if qn_equiv q k then Some O else option_map Datatypes.S (qn_find q keys')
    end.
  (** map_qn_n[q] : a missing key is inserted with the value 0 *)
  Definition qn_at (q : list E) (keys : list (list E)) : nat := match qn_find q keys with Some n => n | None => O end.

  (** worker.cpp:150-162 : the expectation values in the state st.  The imperative operators of
      lines 150-151 are made anew for every state. *)
  Definition qn_one (l : fops) (st : state S) (op : omap S) : res E :=
    do r <- imp_run l op st ;
    do y <- st_dot st r ;
    if q_complex y then Throw else Ok (q_real y).
  Definition get_qn (l : fops) (qns : list (omap S)) (st : state S) : res (list E) := mapM (qn_one l st) qns.

  (** worker.cpp:166-188 : one turn of the loop over the states r; on the full space the Fock
      state of index r is r *)
  Definition split_step (l : fops) (qns : list (omap S)) (d : Z) (acc : res (list (list E) * list sub_hs)) (r : nat)
    : res (list (list E) * list sub_hs) :=
    do ks <- acc ;
    do st <- st_basis S false (Full d) r ;
    do q <- get_qn l qns st ;
    let '(keys, subs) := match qn_find q (fst ks) with
                         | Some _ => ks
                         | None => (fst ks ++ [q], snd ks ++ [sub_new (Z.of_nat (length (snd ks)))])
                         end in
    match nth_error subs (qn_at q keys) with
    | None => UB
    | Some _ => Ok (keys, upd (qn_at q keys) (fun h => sub_add h (N.of_nat r)) subs)
    end.

  (** worker.cpp:222-234 and 236-248 : one entry of creation_map / annihilation_map for the state
      st; the connection matrix is filled with the same values.  The index of subspace number n
      is n (line 181). *)
  Definition conn_step (l : fops) (qns : list (omap S)) (keys : list (list E)) (op : omap S) (before : list E) (st : state S) (row : list Z)
    : res (list Z) :=
    do t <- imp_run l op st ;
    do after <- get_qn l qns t ;
    do n2 <- st_dot t t ;
    if kisz n2 then Ok row
    else
      let origin := qn_at before keys in
      let target := Z.of_nat (qn_at after keys) in
      match nth_error row origin with
      | None => UB
      | Some c => if (c =? -1)%Z then Ok (upd origin (fun _ => target) row)
                  else if (c =? target)%Z then Ok row else Throw
      end.
  (** worker.cpp:215-249 : the loop over the states r for one orbital *)
  Definition conn_state (l : fops) (qns : list (omap S)) (d : Z) (keys : list (list E)) (o : indices)
    (acc : res (list Z * list Z)) (r : nat) : res (list Z * list Z) :=
    do rows <- acc ;
    do st <- st_basis S false (Full d) r ;
    do before <- get_qn l qns st ;
    do cd <- conn_step l qns keys (op_c_dag S o) before st (fst rows) ;
    do c <- conn_step l qns keys (op_c S o) before st (snd rows) ;
    Ok (cd, c).
  (** worker.cpp:192-250 *)
  Definition conn_rows (l : fops) (qns : list (omap S)) (d : Z) (keys : list (list E)) (nb : nat) (o : indices) : res (list Z * list Z) :=
    fold_left (conn_state l qns d keys o) (seq 0 (Z.to_nat d)) (Ok (repeat (-1)%Z nb, repeat (-1)%Z nb)).

  (** worker.cpp:129-252 *)
  Definition partition_with_qn (l : fops) (h : omap S) (qns : list (omap S)) : res (atom S E) :=
    do d <- hs_dim (length l) ;
    do ks <- fold_left (split_step l qns d) (seq 0 (Z.to_nat d)) (Ok ([], [])) ;
    do rows <- mapM (conn_rows l qns d (fst ks) (length (snd ks))) l ;
    complete S E eigen l h d (snd ks) (map fst rows) (map snd rows) (fst ks).

  (** atom_diag.cpp:36-41 *)
  Definition atom_diag_qn (h : omap S) (l : fops) (qns : list (omap S)) : res (atom S E) := partition_with_qn l h qns.
End AtomQn.
