(** Model of c++/triqs/atom_diag : exact diagonalization of a many-body Hamiltonian
    (atom_diag.hpp, impl/atom_diag.cpp, impl/worker.cpp).

    The matrix element type scalar_t is any [scalar_ops]; eigenvalues (double in the code) are
    any ordered type with an embedding into the scalars ([energy_ops]); arithmetic is exact.
    The LAPACK based nda::linalg::eigenelements is the arbitrary function [eigen]; what is
    assumed of it is said in AtomDiagSpec.v.  nda matrices are functions of two indices
    together with their shape. *)
From Coq Require Import ZArith NArith List Arith Bool.
From Verif Require Import Base Indices Scalar Fock OpModel Hilbert State ImpOp Partition Partition_imp.
Import ListNotations.

Record energy_ops (S : scalar_ops) : Type := mkEnergy {
  En :> Type;
  e_lt : En -> En -> bool;
  e_add : En -> En -> En;
  e_sub : En -> En -> En;
  (** worker.cpp:295, 315 : energy_split * spn *)
  e_split : nat -> En;
  e_emb : En -> S }.
Arguments e_lt {S _}. Arguments e_add {S _}. Arguments e_sub {S _}. Arguments e_split {S} _ _. Arguments e_emb {S _}.

Record mat (S : scalar_ops) : Type := mkMat { m_rows : nat; m_cols : nat; m_at : nat -> nat -> S }.
Arguments mkMat {S}. Arguments m_rows {S}. Arguments m_cols {S}. Arguments m_at {S}.

Fixpoint mapM {A B : Type} (f : A -> res B) (l : list A) : res (list B) :=
  match l with
  | [] => Ok []
  | x :: l' => do y <- f x ; do ys <- mapM f l' ; Ok (y :: ys)
  end.
(** l with its positions *)
Definition enum {A : Type} (l : list A) : list (nat * A) := combine (seq 0 (length l)) l.
(** container[i] = x; out of range is not modelled (nothing happens) *)
Fixpoint upd {A : Type} (i : nat) (u : A -> A) (l : list A) : list A :=
  match l, i with
  | [], _ => []
  | x :: l', O => u x :: l'
  | x :: l', S i' => x :: upd i' u l'
  end.

Section AtomDiag.
  Context (S : scalar_ops) (E : energy_ops S).
  Local Open Scope K_scope.

  (** matrix product and dagger (nda) *)
  Definition m_mul (a b : mat S) : mat S :=
    mkMat (m_rows a) (m_cols b) (fun i j => ksum (map (fun k => m_at a i k * m_at b k j) (seq 0 (m_cols a)))).
  Definition m_dag (a : mat S) : mat S := mkMat (m_cols a) (m_rows a) (fun i j => kconj (m_at a j i)).

  (** atom_diag.hpp:76-81 : eigensystem_t *)
  Record eigsys : Type := mkEig { evals : list E; umat : mat S }.

  Variable eigen : mat S -> list E * mat S.
  Variable choose : labels -> nat -> nat -> bool.
  Variable norm : labels -> labels.

  (** sub_hilbert_space::set_index *)
  Definition set_index (i : nat) (s : sub_hs) : sub_hs := mkSub (Z.of_nat i) (sub_states s) (sub_map s).

  (** ---- worker.cpp:281-367 : complete() ---- *)

  (** lines 301-309 : column i of h_matrix *)
  Definition h_column (l : fops) (h : omap S) (sp : sub_hs) (i : nat) : res (list S) :=
    do st <- st_basis S false (Sub sp) i ;
    do r <- imp_run l h st ;
    Ok (match st_amps r with AVec v => v | AMap _ => [] end).
  Definition h_matrix (l : fops) (h : omap S) (sp : sub_hs) : res (mat S) :=
    do cs <- mapM (h_column l h sp) (seq 0 (sub_size sp)) ;
    Ok (mkMat (sub_size sp) (sub_size sp) (fun j i => nth j (nth i cs []) k0)).

  (** lines 311-315 : the entry of eign_map for one subspace; eigenvalues[0] of an empty block
      is out of range *)
  Definition em_key : Type := En S E * nat.
  Definition diag_block (l : fops) (h : omap S) (ks : nat * sub_hs) : res (em_key * eigsys) :=
    do m <- h_matrix l h (snd ks) ;
    let '(ev, u) := eigen m in
    match ev with
    | [] => UB
    | e0 :: _ => Ok ((e_add e0 (e_split E (fst ks)), fst ks), mkEig ev u)
    end.
  (** line 313 : gs_energy, None is infinity *)
  Definition gs_step (g : option E) (b : em_key * eigsys) : option E :=
    match evals (snd b) with
    | [] => g
    | e0 :: _ => match g with None => Some e0 | Some x => if e_lt e0 x then Some e0 else Some x end
    end.
  (** std::map ordered by (double, int) *)
  Definition em_lt (a b : em_key) : bool :=
    if e_lt (fst a) (fst b) then true else if e_lt (fst b) (fst a) then false else (snd a <? snd b)%nat.
  Fixpoint em_insert (x : em_key * eigsys) (m : list (em_key * eigsys)) : list (em_key * eigsys) :=
    match m with
    | [] => [x]
    | y :: m' => if em_lt (fst x) (fst y) then x :: m else if em_lt (fst y) (fst x) then y :: em_insert x m' else m
    end.
  (** lines 331-335 : remap_connection of one row; [ord] lists the old indices in the new order,
      remap[i] is the position of i in it *)
  Definition remap_row (ord : list nat) (row : list Z) : list Z :=
    fold_left (fun r (ic : nat * Z) =>
                 upd (index_of ord (fst ic))
                     (fun _ => if (snd ic =? -1)%Z then (-1)%Z else Z.of_nat (index_of ord (Z.to_nat (snd ic)))) r)
              (enum row) row.

  (** lines 256-277 : make_op_matrix *)
  Definition op_column (l : fops) (d : Z) (op : omap S) (from to : sub_hs) (i : nat) : res (list (nat * S)) :=
    do f <- sub_fock from i ;
    do st <- st_basis S true (Full d) (N.to_nat f) ;
    do r <- imp_run l op st ;
    do p <- st_project true (Sub to) r ;
    Ok (st_entries p).
  Definition make_op_matrix (l : fops) (d : Z) (subs : list sub_hs) (es : list eigsys) (op : omap S) (from to : nat) : res (mat S) :=
    match nth_error subs from, nth_error subs to, nth_error es from, nth_error es to with
    | Some sf, Some st, Some ef, Some et =>
        do cs <- mapM (op_column l d op sf st) (seq 0 (sub_size sf)) ;
        let M := mkMat (sub_size st) (sub_size sf)
                       (fun j i => match a_find j (nth i cs []) with Some a => a | None => k0 end) in
        Ok (m_mul (m_mul (m_dag (umat et)) M) (umat ef))
    | _, _, _, _ => UB
    end.
  (** lines 353-361 : make_c_mat; a default-constructed matrix is None *)
  Definition make_c_mat (l : fops) (d : Z) (subs : list sub_hs) (es : list eigsys) (op : omap S) (row : list Z) : res (list (option (mat S))) :=
    mapM (fun bc : nat * Z =>
            if (snd bc =? -1)%Z then Ok None
            else do m <- make_op_matrix l d subs es op (fst bc) (Z.to_nat (snd bc)) ; Ok (Some m)) (enum row).

  (** the members of atom_diag (atom_diag.hpp:315-331); the full Hilbert space is its dimension,
      gs_energy is None for infinity, vacuum_subspace_index is None when never assigned *)
  Record atom : Type := mkAtom {
    a_h : omap S; a_fops : fops; a_dim : Z;
    a_subs : list sub_hs; a_eigs : list eigsys;
    a_cdconn : list (list Z); a_cconn : list (list Z);
    a_cdmats : list (list (option (mat S))); a_cmats : list (list (option (mat S)));
    a_gs : option E; a_qn : list (list E);
    a_first : list nat; a_vac_index : option nat; a_vac : list S }.

  (** atom_diag.cpp:71-77 *)
  Fixpoint first_from (k : nat) (dims : list nat) : list nat :=
    match dims with
    | [] => []
    | n :: dims' => k :: first_from (k + n) dims'
    end.
  Definition fill_first (es : list eigsys) : list nat := first_from 0 (map (fun e => length (evals e)) es).

  (** atom_diag.cpp:81-91 *)
  Definition vacuum_block (subs : list sub_hs) : option nat :=
    match filter (fun ks : nat * sub_hs => sub_has (snd ks) 0) (enum subs) with
    | [] => None
    | ks :: _ => Some (fst ks)
    end.
  Definition compute_vacuum (d : Z) (subs : list sub_hs) (es : list eigsys) (first : list nat) : option nat * list S :=
    match vacuum_block subs with
    | None => (None, repeat k0 (Z.to_nat d))
    | Some b =>
        let e := nth b es (mkEig [] (mkMat 0 0 (fun _ _ => k0))) in
        let f := nth b first O in
        (Some b, map (fun p => if (f <=? p)%nat && (p <? f + length (evals e))%nat then m_at (m_dag (umat e)) (p - f) 0 else k0)
                     (seq 0 (Z.to_nat d)))
    end.

  (** worker.cpp:281-367 followed by atom_diag.cpp:49-50 *)
  Definition complete (l : fops) (h : omap S) (d : Z) (subs : list sub_hs) (cdconn cconn : list (list Z)) (qn : list (list E)) : res atom :=
    do _ <- imp_terms l h ;
    do bs <- mapM (diag_block l h) (enum subs) ;
    let gs := fold_left gs_step bs None in
    let em := fold_left (fun m b => em_insert b m) bs [] in
    let ord := map (fun x => snd (fst x)) em in
    let subs' := map (fun ko : nat * nat => set_index (fst ko) (nth (snd ko) subs (sub_new 0))) (enum ord) in
    let cdconn' := map (remap_row ord) cdconn in
    let cconn' := map (remap_row ord) cconn in
    let shift (x : E) : E := match gs with Some g => e_sub x g | None => x end in
    let es := map (fun x => mkEig (map shift (evals (snd x))) (umat (snd x))) em in
    do cm <- mapM (fun nx : nat * indices => make_c_mat l d subs' es (op_c S (snd nx)) (nth (fst nx) cconn' [])) (enum l) ;
    do cdm <- mapM (fun nx : nat * indices => make_c_mat l d subs' es (op_c_dag S (snd nx)) (nth (fst nx) cdconn' [])) (enum l) ;
    let first := fill_first es in
    let '(vi, v) := compute_vacuum d subs' es first in
    Ok (mkAtom h l d subs' es cdconn' cconn' cdm cm gs qn first vi v).

  (** ---- worker.cpp:49-125 : autopartition ---- *)

  (** worker.cpp:42-45 : the count is a size_t, so that a negative bound is a huge number *)
  Fixpoint pop (fuel : nat) (f : N) : nat :=
    match fuel with
    | O => O
    | Datatypes.S k => (if N.testbit f (N.of_nat k) then 1 else 0) + pop k f
    end.
  Definition count (f : N) : nat := pop 64 f.
  Definition fock_filter (n_min n_max : Z) (f : N) : bool :=
    (wrap64 n_min <=? Z.of_nat (count f))%Z && (Z.of_nat (count f) <=? wrap64 n_max)%Z.

  (** lines 64-75 *)
  Fixpoint merges_melem (s : sp S) (ops : list (cols S * cols S)) : option (sp S * list (elems S * elems S)) :=
    match ops with
    | [] => Some (s, [])
    | (cd, c) :: ops' =>
        match merge_subspaces S kisz choose norm s cd c true with
        | None => None
        | Some (s', me) => match merges_melem s' ops' with
                           | None => None
                           | Some (s'', mes) => Some (s'', me :: mes)
                           end
        end
    end.

  (** std::map order of the elements *)
  Definition key_lt (a b : nat * nat) : bool := (fst a <? fst b)%nat || ((fst a =? fst b)%nat && (snd a <? snd b)%nat).
  Fixpoint k_insert (x : (nat * nat) * S) (m : elems S) : elems S :=
    match m with
    | [] => [x]
    | y :: m' => if key_lt (fst x) (fst y) then x :: m else y :: k_insert x m'
    end.
  Definition sorted_elems (m : elems S) : elems S := fold_left (fun m x => k_insert x m) m [].

  (** lines 103-110, 111-118 : one row of a connection matrix; [kept] are the numbers of the
      subspaces which remain *)
  Definition conn_row (s : sp S) (kept : list nat) (m : elems S) : list Z :=
    fold_left (fun row (x : (nat * nat) * S) =>
                 match pos_of kept (lookup_basis_state s (fst (fst x))), pos_of kept (lookup_basis_state s (snd (fst x))) with
                 | Some bi, Some bf => upd bi (fun _ => Z.of_nat bf) row
                 | _, _ => row
                 end) (sorted_elems m) (repeat (-1)%Z (length kept)).

  (** lines 78-86 *)
  Definition fill_spaces (s : sp S) (n_min n_max : Z) : list sub_hs :=
    fold_left (fun hs i => if fock_filter n_min n_max (N.of_nat i) then upd (lookup_basis_state s i) (fun h => sub_add h (N.of_nat i)) hs else hs)
              (seq 0 (sp_dim s)) (map (fun k => sub_new (Z.of_nat k)) (seq 0 (n_subspaces s))).

  Definition autopartition (l : fops) (h hyb : omap S) (n_min n_max : Z) : res atom :=
    do d <- hs_dim (length l) ;
    do _ <- imp_terms l h ;
    do _ <- imp_terms l hyb ;
    let s0 := sp_new S kisz choose norm (Z.to_nat d) (imp_cols S l h d) false
                     (match hyb with [] => None | _ => Some (imp_cols S l hyb d) end) in
    match merges_melem s0 (map (fun o => (imp_cols S l (op_c_dag S o) d, imp_cols S l (op_c S o) d)) l) with
    | None => UB
    | Some (s, mes) =>
        let spaces := filter (fun h => negb (sub_size h =? 0)%nat) (fill_spaces s n_min n_max) in
        let kept := map (fun h => Z.to_nat (sub_index h)) spaces in
        let cd := map (fun me => conn_row s kept (fst me)) mes in
        let c := map (fun me => conn_row s kept (snd me)) mes in
        complete l h d (map (fun ks : nat * sub_hs => set_index (fst ks) (snd ks)) (enum spaces)) cd c []
    end.

  (** the constructors (atom_diag.cpp:46-67); INT_MAX is the default of n_max (worker.hpp:41) *)
  Definition atom_diag_auto (h : omap S) (l : fops) : res atom := autopartition l h [] 0 (2 ^ 31 - 1).
  Definition atom_diag_hyb (h hyb : omap S) (l : fops) : res atom := autopartition l h hyb 0 (2 ^ 31 - 1).
  Definition atom_diag_filter (h : omap S) (l : fops) (n_min n_max : Z) : res atom := autopartition l h [] n_min n_max.

  (** ---- observers, atom_diag.hpp:171-290 ---- *)
  Definition n_blocks (a : atom) : nat := length (a_eigs a).
  Definition dim_of (a : atom) (b : nat) : res nat :=
    match nth_error (a_eigs a) b with Some e => Ok (length (evals e)) | None => UB end.
  Definition flatten_subspace_index (a : atom) (b i : nat) : res nat :=
    match nth_error (a_first a) b with Some f => Ok (f + i)%nat | None => UB end.
  Definition index_range_of_subspace (a : atom) (b : nat) : res (nat * nat) :=
    match nth_error (a_first a) b, nth_error (a_eigs a) b with
    | Some f, Some e => Ok (f, (f + length (evals e))%nat)
    | _, _ => UB
    end.
End AtomDiag.
