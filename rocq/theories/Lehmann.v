(** Model of the atomic Green's functions (atom_diag/impl/gf.cpp).
    Numbers are exact: doubles are reals, [inj] converts a double to the scalar type of the
    diagonalization, [val] reads a scalar as a complex number (the values of every block_gf are
    complex).  std::exp, cosh, sqrt are the real functions, boost's cyl_bessel_i is a parameter. *)
From Coq Require Import ZArith NArith String List Bool Reals.
From Coquelicot Require Import Coquelicot.
From Verif Require Import Base Indices Scalar Hilbert AtomDiag RealAtom.
Import ListNotations.
Local Open Scope R_scope.

Definition gf_struct : Type := list (string * nat).

Section Lehmann.
  Context (S : scalar_ops) (inj : R -> S) (val : S -> C).
  Notation E := (RE S inj).
  Notation atom := (atom S E).

  (** the arguments of one call proc(bl, inner_index1, inner_index2, pole, residue) *)
  Record term := mkTerm { t_bl : nat; t_n1 : nat; t_n2 : nat; t_pole : R; t_res : S }.

  (** element access; undefined behaviour out of range *)
  Definition at_conn (conn : list (list Z)) (n b : nat) : res Z :=
    match nth_error conn n with Some row => match nth_error row b with Some c => Ok c | None => UB end | None => UB end.
  Definition at_mat (ms : list (list (option (mat S)))) (n b : nat) : res (mat S) :=
    match nth_error ms n with Some row => match nth_error row b with Some (Some m) => Ok m | _ => UB end | None => UB end.
  Definition at_list {A} (xs : list A) (i : nat) : res A := match nth_error xs i with Some x => Ok x | None => UB end.

  (** gf.cpp:53-57 : std::sort then std::binary_search is membership; pairs with a negative number
      match no state and are left out *)
  Definition is_excluded (excluded : list (nat * nat)) (A ia : nat) : bool :=
    existsb (fun p => (fst p =? A)%nat && (snd p =? ia)%nat) excluded.

  (** gf.cpp:59-74 : Gibbs weights; z runs over all the eigenstates, block by block *)
  Definition boltzmann (a : atom) (beta : R) : list (list R) :=
    map (fun es => map (fun x : R => exp (- beta * x)) (evals S E es)) (a_eigs S E a).
  Definition weights (a : atom) (beta : R) : list (list R) :=
    let ws := boltzmann a beta in
    let z := fold_left (fun z row => fold_left Rplus row z) ws 0 in
    map (map (fun w => w / z)) ws.

  (** gf.cpp:98 : std::abs(residue) < std::numeric_limits<double>::epsilon(), 2^-52 *)
  Definition eps : R := / 2 ^ 52.
  Definition negligible (r : S) : bool := if Rlt_dec (Cmod (val r)) eps then true else false.

  (** gf.cpp:94-99 : the term of the eigenstates ia of block A and ib of block B; get_eigenvalue is
      eigenvalues[i] of the block *)
  Definition pair_term (bl i1 i2 : nat) (mc mcd : mat S) (wa wb eva evb : list R) (ia ib : nat) : list term :=
    let residue := kmul (kmul (inj (nth ia wa 0 + nth ib wb 0)) (m_at mc ia ib)) (m_at mcd ib ia) in
    if negligible residue then [] else [mkTerm bl i1 i2 (nth ib evb 0 - nth ia eva 0) residue].

  (** gf.cpp:88-101 : the terms of one block A *)
  Definition block_terms (a : atom) (beta : R) (excluded : list (nat * nat)) (bl i1 i2 n1 n2 A : nat) : res (list term) :=
    do B <- at_conn (a_cdconn S E a) n2 A ;
    if (B =? -1)%Z then Ok [] else
    if (B <? 0)%Z then UB else
    let B := Z.to_nat B in
    do A' <- at_conn (a_cconn S E a) n1 B ;
    if negb (A' =? Z.of_nat A)%Z then Ok [] else
    do wa <- at_list (weights a beta) A ;
    do wb <- at_list (weights a beta) B ;
    do ea <- at_list (a_eigs S E a) A ;
    do eb <- at_list (a_eigs S E a) B ;
    do mc <- at_mat (a_cmats S E a) n1 B ;
    do mcd <- at_mat (a_cdmats S E a) n2 A ;
    Ok (flat_map (fun ia => if is_excluded excluded A ia then [] else
          flat_map (fun ib => if is_excluded excluded B ib then [] else
            pair_term bl i1 i2 mc mcd wa wb (evals S E ea) (evals S E eb) ia ib) (seq 0 (length (evals S E eb))))
          (seq 0 (length (evals S E ea)))).

  Fixpoint concatM {A B} (f : A -> res (list B)) (xs : list A) : res (list B) :=
    match xs with
    | [] => Ok []
    | x :: xs' => do r <- f x ; do rs <- concatM f xs' ; Ok (r ++ rs)
    end.

  (** gf.cpp:84-102; fops[{block, i}] throws when the orbital is absent *)
  Definition entry_terms (a : atom) (beta : R) (excluded : list (nat * nat)) (bl : nat) (name : string) (i1 i2 : nat) : res (list term) :=
    do n1 <- fops_at (a_fops S E a) [LStr name; LInt (Z.of_nat i1)] ;
    do n2 <- fops_at (a_fops S E a) [LStr name; LInt (Z.of_nat i2)] ;
    concatM (block_terms a beta excluded bl i1 i2 n1 n2) (seq 0 (n_blocks S E a)).

  (** gf.cpp:50-106 : the calls of proc, in order *)
  Definition lehmann_terms (a : atom) (beta : R) (gs : gf_struct) (excluded : list (nat * nat)) : res (list term) :=
    concatM (fun p => concatM (fun i1 => concatM (fun i2 => entry_terms a beta excluded (fst p) (fst (snd p)) i1 i2)
                                (seq 0 (snd (snd p)))) (seq 0 (snd (snd p)))) (enum gs).

  (** gf.hpp gf_lehmann_t : for each block an array of lists of (pole, residue) *)
  Definition lehmann_t : Type := list (nat * (nat -> nat -> list (R * S))).

  (** gf.cpp:119 : lehmann[bl](n1, n2).emplace_back(pole, residue) *)
  Definition emplace (g : lehmann_t) (t : term) : lehmann_t :=
    upd (t_bl t) (fun m => (fst m, fun i j => if ((i =? t_n1 t) && (j =? t_n2 t))%nat then snd m i j ++ [(t_pole t, t_res t)] else snd m i j)) g.
  (** gf.cpp:112-123 *)
  Definition atomic_g_lehmann (a : atom) (beta : R) (gs : gf_struct) (excluded : list (nat * nat)) : res lehmann_t :=
    do ts <- lehmann_terms a beta gs excluded ;
    Ok (fold_left emplace ts (map (fun bs => (snd bs, fun _ _ => [])) gs)).

  (** A block Green's function: its value for each block, target indices and mesh point.  G is the
      type of the values and [step] adds one term to the value at a mesh point. *)
  Section Fill.
    Context {P G : Type} (zero : G) (step : P -> R -> S -> G -> G).
    Definition bgf : Type := nat -> nat -> nat -> P -> G.
    (** make_term_proc : g = gf[bl](n1, n2); for (x : g.mesh()) g[x] += ... *)
    Definition proc (g : bgf) (bl n1 n2 : nat) (pole : R) (residue : S) : bgf := fun b i j x =>
      if ((b =? bl) && (i =? n1) && (j =? n2))%nat then step x pole residue (g b i j x) else g b i j x.
    (** a new block_gf holds zeros (nda sets complex arrays to zero) *)
    Definition new_gf : bgf := fun _ _ _ _ => zero.

    (** atomic_g_tau, _iw, _l, _w of an atom_diag: gf.cpp:195-200, 237-242, 285-290, 327-332 *)
    Definition atomic_g (a : atom) (beta : R) (gs : gf_struct) (excluded : list (nat * nat)) : res bgf :=
      do ts <- lehmann_terms a beta gs excluded ;
      Ok (fold_left (fun g t => proc g (t_bl t) (t_n1 t) (t_n2 t) (t_pole t) (t_res t)) ts new_gf).

    (** gf.cpp:144-157; g has the blocks of gf_struct; lehmann[bl](n1, n2) out of range is undefined *)
    Definition fill_entry (lh : lehmann_t) (bl n1 n2 : nat) (g : bgf) : res bgf :=
      do m <- at_list lh bl ;
      if ((n1 <? fst m) && (n2 <? fst m))%nat then Ok (fold_left (fun g pr => proc g bl n1 n2 (fst pr) (snd pr)) (snd m n1 n2) g) else UB.
    Fixpoint foldM {A} (f : A -> bgf -> res bgf) (xs : list A) (g : bgf) : res bgf :=
      match xs with [] => Ok g | x :: xs' => do g' <- f x g ; foldM f xs' g' end.
    Definition fill_block_gf (lh : lehmann_t) (gs : gf_struct) : res bgf :=
      foldM (fun p => foldM (fun n1 => foldM (fun n2 => fill_entry lh (fst p) n1 n2) (seq 0 (snd (snd p)))) (seq 0 (snd (snd p)))) (enum gs) new_gf.
  End Fill.

  (** gf.cpp:171-174 *)
  Definition tau_step (beta tau pole : R) (residue : S) (g : C) : C :=
    let w := Cdiv (Copp (val residue)) (RtoC (if Rlt_dec 0 pole then 1 + exp (- beta * pole) else exp (beta * pole) + 1)) in
    Cplus g (Cmult w (RtoC (if Rlt_dec 0 pole then exp (- tau * pole) else exp ((beta - tau) * pole)))).
  (** gf.cpp:217 *)
  Definition iw_step (iw : C) (pole : R) (residue : S) (g : C) : C := Cplus g (Cdiv (val residue) (Cminus iw (RtoC pole))).
  (** gf.cpp:307 *)
  Definition w_step (broadening w pole : R) (residue : S) (g : C) : C :=
    Cplus g (Cdiv (val residue) (Cminus (Cplus (RtoC w) (Cmult Ci (RtoC broadening))) (RtoC pole))).
  (** utility/legendre.cpp:58-61 *)
  Definition mod_cyl_bessel_i (cyl_bessel_i : R -> R -> R) (n : nat) (x : R) : R :=
    if Req_EM_T x 0 then (if (n =? 0)%nat then 1 else 0) else sqrt (PI / (2 * x)) * cyl_bessel_i (INR n + 0.5) x.
  (** gf.cpp:259-263; std::copysign(1, -x) is -1 for x = +0 *)
  Definition l_step (cyl_bessel_i : R -> R -> R) (beta : R) (l : nat) (pole : R) (residue : S) (g : C) : C :=
    let x := beta * pole / 2 in
    let w := - beta / (2 * cosh x) in
    Cplus g (Cmult (val residue) (RtoC (w * sqrt (2 * INR l + 1) * (if Nat.even l then 1 else if Rlt_dec x 0 then 1 else - 1) * mod_cyl_bessel_i cyl_bessel_i l (Rabs x)))).

  Definition atomic_g_tau (a : atom) (beta : R) gs excluded := atomic_g (RtoC 0) (tau_step beta) a beta gs excluded.
  Definition atomic_g_iw (a : atom) (beta : R) gs excluded := atomic_g (RtoC 0) iw_step a beta gs excluded.
  Definition atomic_g_l cyl_bessel_i (a : atom) (beta : R) gs excluded := atomic_g (RtoC 0) (l_step cyl_bessel_i beta) a beta gs excluded.
  Definition atomic_g_w (a : atom) (beta : R) gs (broadening : R) excluded := atomic_g (RtoC 0) (w_step broadening) a beta gs excluded.
  (** the overloads that take a Lehmann representation: gf.cpp:182-187, 225-229, 272-277, 315-319 *)
  Definition atomic_g_tau_of (lh : lehmann_t) gs (beta : R) := fill_block_gf (RtoC 0) (tau_step beta) lh gs.
  Definition atomic_g_iw_of (lh : lehmann_t) gs := fill_block_gf (RtoC 0) iw_step lh gs.
  Definition atomic_g_l_of cyl_bessel_i (lh : lehmann_t) gs (beta : R) := fill_block_gf (RtoC 0) (l_step cyl_bessel_i beta) lh gs.
  Definition atomic_g_w_of (lh : lehmann_t) gs (broadening : R) := fill_block_gf (RtoC 0) (w_step broadening) lh gs.
End Lehmann.
