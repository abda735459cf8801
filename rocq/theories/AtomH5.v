(** Model of the HDF5 archives of atom_diag (c++/triqs/atom_diag/impl/atom_diag.cpp:186-249,
    atom_diag.hpp:95-104).

    Simplifications: a group of the file is a record of its datasets; numbers, arrays and vectors
    of them come back as they were written (h5 library, nda); errors of the library are not
    modelled.  A std::vector of objects is read by resizing it and reading every element, so
    that nothing of the old vector stays.  vacuum_subspace_index, when never assigned, is None and is
    stored as such (the code stores an unspecified number).  The Hamiltonian is stored as in OpH5.v;
    [to_roc] and [of_roc] are the conversions of its coefficients. *)
From Coq Require Import String Ascii ZArith NArith List Bool Arith.
From Verif Require Import Base Indices Scalar Fock OpModel Hilbert RealOrComplex OpH5 AtomDiag.
Import ListNotations.
Local Open Scope nat_scope.

Section AtomH5.
  Context (S : scalar_ops) (E : energy_ops S).
  Variable to_roc : S -> roc.
  Variable of_roc : roc -> res S.
  (** the padding of the table of strings (Hilbert.v) *)
  Variable pad : nat -> nat.
  (** the order in which get_all_dataset_names lists a group (h5 library) *)
  Variable listing : list (string * mat S) -> list (string * mat S).

  Definition table : Type := list (list (option (mat S))).
  Definition group : Type := list (string * mat S).

  (** the datasets of the group; None is an object that is not in the file *)
  Record atom_file : Type := mkFile {
    f_fops : list (list string); f_h : option h5_dataset; f_dim : Z;
    f_subs : list (Z * list N); f_eigs : list (eigsys S E);
    f_cdconn : list (list Z); f_cconn : list (list Z);
    f_c : group; f_cd : group;
    f_gs : option E; f_vac_index : option nat; f_vac : list S; f_qn : option (list (list E)) }.

  (** nda: is_empty() *)
  Definition is_empty (m : mat S) : bool := (m_rows m =? 0) || (m_cols m =? 0).
  (** atom_diag.cpp:204 : the name of a dataset; [int] indices *)
  Definition cell_name (i j : nat) : string :=
    (to_string (to_int32 (Z.of_nat i)) ++ String " " (to_string (to_int32 (Z.of_nat j))))%string.
  (** atom_diag.cpp:199-205 *)
  Definition write_cell (i : nat) (jm : nat * option (mat S)) : group :=
    match snd jm with
    | Some m => if is_empty m then [] else [(cell_name i (fst jm), m)]
    | None => []
    end.
  Definition write_sparse (t : table) : group :=
    flat_map (fun ir => flat_map (write_cell (fst ir)) (enum (snd ir))) (enum t).

  (** atom_diag.cpp:186-212 *)
  Definition atom_h5_write (a : atom S E) : res atom_file :=
    do h <- h5_write to_roc (a_h S E a) ;
    Ok (mkFile (encode_fops (a_fops S E a)) (Some h) (a_dim S E a)
               (map sub_h5_write (a_subs S E a)) (a_eigs S E a) (a_cdconn S E a) (a_cconn S E a)
               (write_sparse (a_cmats S E a)) (write_sparse (a_cdmats S E a))
               (a_gs S E a) (a_vac_index S E a) (a_vac S E a) (Some (a_qn S E a))).

  (** std::getline(ss, item, ' ') : the item and what is left *)
  Fixpoint getline (s : string) : string * string :=
    match s with
    | EmptyString => (EmptyString, EmptyString)
    | String c s' => if Ascii.eqb c " " then (EmptyString, s')
                     else let '(x, y) := getline s' in (String c x, y)
    end.
  (** atom_diag.cpp:231-236 : one dataset; an index out of range is undefined *)
  Definition read_cell (t : table) (d : string * mat S) : res table :=
    let '(item1, rest) := getline (fst d) in
    let '(item2, _) := getline rest in
    do i <- stoi item1 ;
    do j <- stoi item2 ;
    if (i <? 0)%Z || (j <? 0)%Z then UB
    else match nth_error t (Z.to_nat i) with
         | None => UB
         | Some row => if Z.to_nat j <? length row
                       then Ok (upd (Z.to_nat i) (upd (Z.to_nat j) (fun _ => Some (snd d))) t)
                       else UB
         end.
  (** vector::resize(n, x) *)
  Definition resize {A} (n : nat) (x : A) (v : list A) : list A := firstn n v ++ repeat x (n - length v).
  (** extent(1) of a connection matrix; it does not matter if there are no rows *)
  Definition extent1 (c : list (list Z)) : nat := match c with [] => 0 | r :: _ => length r end.
  (** atom_diag.cpp:227-238 *)
  Definition read_sparse (cdconn : list (list Z)) (g : group) (t : table) : res table :=
    fold_left (fun r d => do t <- r ; read_cell t d) (listing g)
              (Ok (resize (length cdconn) (repeat None (extent1 cdconn)) t)).

  (** atom_diag.cpp:216-249; [old] is the object read into *)
  Definition atom_h5_read (f : atom_file) (old : atom S E) : res (atom S E) :=
    do l <- decode_fops (h5_table pad 0 (f_fops f)) ;
    do h <- match f_h f with Some d => h5_read of_roc pad d | None => Ok (a_h S E old) end ;
    do cm <- read_sparse (f_cdconn f) (f_c f) (a_cmats S E old) ;
    do cdm <- read_sparse (f_cdconn f) (f_cd f) (a_cdmats S E old) ;
    Ok (mkAtom S E h l (f_dim f) (map sub_h5_read (f_subs f)) (f_eigs f) (f_cdconn f) (f_cconn f) cdm cm
               (f_gs f) (match f_qn f with Some q => q | None => a_qn S E old end)
               (fill_first S E (f_eigs f)) (f_vac_index f) (f_vac f)).

  (** atom_diag.hpp:128 : a default-constructed object *)
  Definition atom_default : atom S E := mkAtom S E [] [] 0 [] [] [] [] [] [] None [] [] None [].
End AtomH5.
