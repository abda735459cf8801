(** Model of the functions of atom_diag which turn a many-body operator into matrices of the
    eigenbasis: atom_diag::get_matrix_element_of_monomial and get_op_mat (impl/atom_diag.cpp),
    trace_rho_op, act and quantum_number_eigenvalues (impl/functions.cpp).

    As in AtomDiag.v scalars are exact and matrices are functions with a shape.  A matrix
    product or sum of the wrong shape, and an index out of range, are undefined (nda checks them
    in debug builds only). *)
From Coq Require Import ZArith NArith List Arith Bool.
From Verif Require Import Base Indices Scalar Fock OpModel Hilbert State ImpOp AtomDiag.
Import ListNotations.

Section Ops.
  Context (S : scalar_ops) (E : energy_ops S).
  Local Open Scope K_scope.
  Notation atom := (atom S E).
  Notation mat := (mat S).

  Definition m_zeros (r c : nat) : mat := mkMat r c (fun _ _ => k0).
  (** m(i, j) = x *)
  Definition m_set (m : mat) (i j : nat) (x : S) : res mat :=
    if (i <? m_rows m)%nat && (j <? m_cols m)%nat
    then Ok (mkMat (m_rows m) (m_cols m) (fun i' j' => if (i' =? i)%nat && (j' =? j)%nat then x else m_at m i' j'))
    else UB.
  Definition m_prod (a b : mat) : res mat := if (m_cols a =? m_rows b)%nat then Ok (m_mul S a b) else UB.
  Definition m_scale (c : S) (a : mat) : mat := mkMat (m_rows a) (m_cols a) (fun i j => c * m_at a i j).
  Definition m_plus (a b : mat) : res mat :=
    if (m_rows a =? m_rows b)%nat && (m_cols a =? m_cols b)%nat
    then Ok (mkMat (m_rows a) (m_cols a) (fun i j => m_at a i j + m_at b i j)) else UB.
  Definition m_trace (a : mat) : res S :=
    if (m_rows a =? m_cols a)%nat then Ok (ksum (map (fun i => m_at a i i) (seq 0 (m_rows a)))) else UB.

  (** eigensystems[b].unitary_matrix (atom_diag.hpp:199) *)
  Definition unitary_of (a : atom) (b : nat) : res mat :=
    match nth_error (a_eigs S E a) b with Some e => Ok (umat S E e) | None => UB end.

  (** ---- atom_diag.cpp:106-140 : get_matrix_element_of_monomial ---- *)

  (** lines 119-133 : the image state j of the state number i of block B, with amplitude x; the
      pair is (m, Bp), m is None while empty.  Only the first subspace that has j counts. *)
  Definition me_visit (a : atom) (b i : nat) (r : res (option mat * Z)) (jx : nat * S) : res (option mat * Z) :=
    do mb <- r ;
    match find (fun sp => sub_has sp (N.of_nat (fst jx))) (a_subs S E a) with
    | None => Ok mb
    | Some sp =>
        if (sub_index sp <? 0)%Z then UB
        else
          do m <- match fst mb with
                  | Some m => Ok m
                  | None => do n' <- dim_of S E a (Z.to_nat (sub_index sp)) ; do n <- dim_of S E a b ; Ok (m_zeros n' n)
                  end ;
          do k <- sub_at sp (N.of_nat (fst jx)) ;
          do m' <- m_set m k i (snd jx) ;
          Ok (Some m', sub_index sp)
    end.
  (** lines 113-134 : the loop over the Fock states of block B.  [mono] is the operator
      many_body_op_t(1.0, op_vec) (line 108). *)
  Definition me_state (a : atom) (mono : omap S) (b : nat) (r : res (option mat * Z)) (kf : nat * N) : res (option mat * Z) :=
    do mb <- r ;
    do st <- st_basis S true (Full (a_dim S E a)) (N.to_nat (snd kf)) ;
    do t <- imp_run (a_fops S E a) mono st ;
    fold_left (me_visit a b (fst kf)) (st_entries t) (Ok mb).
  (** lines 106-140; a matrix is returned only with a block number other than -1 *)
  Definition get_matrix_element_of_monomial (a : atom) (m : monomial) (b : nat) : res (Z * option mat) :=
    do _ <- imp_terms (a_fops S E a) (op_raw (k1 : S) m) ;
    match nth_error (a_subs S E a) b with
    | None => UB
    | Some sp =>
        do mb <- fold_left (me_state a (op_raw (k1 : S) m) b) (enum (sub_states sp)) (Ok (None, (-1)%Z)) ;
        match snd mb, fst mb with
        | Z0, Some M | Zpos _, Some M =>
            do u' <- unitary_of a (Z.to_nat (snd mb)) ;
            do u <- unitary_of a b ;
            do p <- m_prod (m_dag S u') M ;
            do q <- m_prod p u ;
            Ok (snd mb, Some q)
        | _, _ => Ok (snd mb, None)
        end
    end.

  (** ---- atom_diag.cpp:144-177 : get_op_mat; connection and block_mat of each block.  The
      CHECK_ISSUE833 diagnostic (lines 163-174) is not modelled. ---- *)
  Definition op_mat_step (a : atom) (b : nat) (r : res (Z * option mat)) (t : monomial * S) : res (Z * option mat) :=
    do cm <- r ;
    do bm <- get_matrix_element_of_monomial a (fst t) b ;
    match snd bm with
    | None => Ok cm
    | Some M =>
        if (fst cm =? -1)%Z then Ok (fst bm, Some (m_scale (snd t) M))
        else if negb (fst cm =? fst bm)%Z then Throw
        else match snd cm with
             | None => UB
             | Some M0 => do M1 <- m_plus M0 (m_scale (snd t) M) ; Ok (fst cm, Some M1)
             end
    end.
  Definition op_mat_block (a : atom) (op : omap S) (b : nat) : res (Z * option mat) :=
    fold_left (op_mat_step a b) op (Ok ((-1)%Z, None)).
  Definition get_op_mat (a : atom) (op : omap S) : res (list (Z * option mat)) :=
    mapM (op_mat_block a op) (seq 0 (n_blocks S E a)).

  (** ---- functions.cpp:99-112 : act ---- *)
  (** v(range(f, f + length w)) += w *)
  Definition v_add_at (f : nat) (w v : list S) : list S :=
    map (fun p => let x := nth p v k0 in if (f <=? p)%nat && (p <? f + length w)%nat then x + nth (p - f) w k0 else x) (seq 0 (length v)).
  Definition act_block (a : atom) (st : list S) (t : monomial * S) (r : res (list S)) (b : nat) : res (list S) :=
    do v <- r ;
    do bm <- get_matrix_element_of_monomial a (fst t) b ;
    match snd bm with
    | None => Ok v
    | Some M =>
        do r' <- index_range_of_subspace S E a (Z.to_nat (fst bm)) ;
        do r0 <- index_range_of_subspace S E a b ;
        if (snd r' <=? length v)%nat && (snd r0 <=? length st)%nat && (m_rows M =? snd r' - fst r')%nat && (m_cols M =? snd r0 - fst r0)%nat
        then Ok (v_add_at (fst r')
                   (map (fun j => ksum (map (fun k => m_at (m_scale (snd t) M) j k * nth (fst r0 + k)%nat st k0) (seq 0 (m_cols M)))) (seq 0 (m_rows M))) v)
        else UB
    end.
  Definition act_op (a : atom) (op : omap S) (st : list S) : res (list S) :=
    fold_left (fun r t => fold_left (act_block a st t) (seq 0 (n_blocks S E a)) r) op (Ok (repeat k0 (length st))).

  (** ---- functions.cpp:66-94 : trace_rho_op ---- *)
  (** std::real *)
  Variable re : S -> S.
  (** lines 80-82 : max_element(abs(mat - dagger(mat))) == 0.0 *)
  Definition m_hermitian (m : mat) : res bool :=
    if (m_rows m =? m_cols m)%nat
    then Ok (forallb (fun i => forallb (fun j => kisz (m_at m i j - kconj (m_at m j i))) (seq 0 (m_cols m))) (seq 0 (m_rows m)))
    else UB.
  (** std::all_of stops at the first false *)
  Fixpoint all_hermitian (dm : list mat) : res bool :=
    match dm with
    | [] => Ok true
    | m :: dm' => do h <- m_hermitian m ; if h then all_hermitian dm' else Ok false
    end.
  Definition trace_term (a : atom) (b : nat) (rho : mat) (r : res S) (t : monomial * S) : res S :=
    do x <- r ;
    do bm <- get_matrix_element_of_monomial a (fst t) b ;
    match snd bm with
    | Some M => if (fst bm =? Z.of_nat b)%Z
                then do p <- m_prod M rho ; do tr <- m_trace p ; Ok (x + snd t * tr)
                else Ok x
    | None => Ok x
    end.
  Definition trace_block (a : atom) (op : omap S) (r : res S) (bm : nat * mat) : res S :=
    do x <- r ;
    do n <- dim_of S E a (fst bm) ;
    if negb (n =? m_rows (snd bm))%nat then Throw
    else fold_left (trace_term a (fst bm) (snd bm)) op (Ok x).
  (** is_op_hermitian(op) has tolerance 0 *)
  Definition trace_rho_op (a : atom) (dm : list mat) (op : omap S) : res S :=
    if negb (n_blocks S E a =? length dm)%nat then Throw
    else
      do x <- fold_left (trace_block a op) (enum dm) (Ok k0) ;
      if op_is_hermitian (fun _ => false) op
      then do h <- all_hermitian dm ; Ok (if h then re x else x)
      else Ok x.

  (** ---- functions.cpp:119-137 : quantum_number_eigenvalues; [small] is the test of
      is_almost_zero on a coefficient ---- *)
  Variable small : S -> bool.
  Definition commutes_with_h (a : atom) (op : omap S) : res bool :=
    match op_mul op (a_h S E a), op_mul (a_h S E a) op with
    | Some x, Some y => Ok (op_almost_zero small (op_sub x y))
    | _, _ => UB
    end.
  Definition qn_term (a : atom) (b n : nat) (r : res (list S)) (t : monomial * S) : res (list S) :=
    do v <- r ;
    do bm <- get_matrix_element_of_monomial a (fst t) b ;
    match snd bm with
    | Some M => if (fst bm =? Z.of_nat b)%Z
                then if (n <=? m_rows M)%nat && (n <=? m_cols M)%nat
                     then Ok (map (fun i => nth i v k0 + re (snd t * m_at M i i)) (seq 0 n))
                     else UB
                else Ok v
    | None => Ok v
    end.
  Definition qn_block (a : atom) (op : omap S) (b : nat) : res (list S) :=
    do n <- dim_of S E a b ;
    fold_left (qn_term a b n) op (Ok (repeat k0 n)).
  Definition quantum_number_eigenvalues (a : atom) (op : omap S) : res (list (list S)) :=
    do c <- commutes_with_h a op ;
    if negb c then Throw else mapM (qn_block a op) (seq 0 (n_blocks S E a)).
End Ops.
