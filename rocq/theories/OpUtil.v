(** Model of python/triqs/operators/util/op_struct.py, hamiltonians.py and observables.py.

    A Python Operator is an operator expression over the complex numbers (its value is
    [OpExpr.eval], the model of many_body_operator).  Python floats are exact numbers,
    numpy arrays are functions of their indices (an array smaller than n_orb, which raises
    IndexError, is not modelled), n_orb is a number (lines 28-35: a list is replaced by its
    length).  The optional dump files are not modelled. *)
From Coq Require Import ZArith String List Bool Reals DecimalString DecimalNat.
From Coquelicot Require Import Complex.
From Verif Require Import Base Indices Scalar Fock OpModel OpExpr RealAtom UMatrix.
Import ListNotations.

Notation op := (expr CS).
(** Operator() *)
Definition op_zero : op := EScal (RtoC 0 : CS).
Definition half : C := RtoC (1 / 2).

(** '%s' % n for a non-negative integer *)
Definition show (n : nat) : string := NilEmpty.string_of_uint (Nat.to_uint n).

(** ---- op_struct.py ---- *)
(** a Python dictionary from (spin, orbital) to the indices of an operator *)
Definition dict : Type := list (string * nat * indices).
Fixpoint find (d : dict) (s : string) (a : nat) : res indices :=
  match d with
  | [] => Throw (* KeyError *)
  | (s', a', i) :: d' => if (String.eqb s s' && (a =? a')%nat)%bool then Ok i else find d' s a
  end.
(** lines 23-56  get_mkind *)
Definition get_mkind (off_diag : option bool) (mapping : option dict) : res (string -> nat -> res indices) :=
  match mapping, off_diag with
  | None, None => Throw (* ValueError *)
  | None, Some true => Ok (fun sn on => Ok [LStr sn; LInt (Z.of_nat on)])
  | None, Some false => Ok (fun sn on => Ok [LStr (sn ++ "_" ++ show on); LInt 0])
  | Some d, _ => Ok (fun sn on => find d sn on)
  end.
(** lines 59-95  set_operator_structure *)
Definition set_operator_structure (spin_names : list string) (n_orb : nat) (off_diag : bool) : list (string * nat) :=
  if off_diag then map (fun sn => (sn, n_orb)) spin_names
  else map (fun so => ((fst so ++ "_" ++ show (snd so))%string, 1%nat)) (list_prod spin_names (seq 0 n_orb)).

(** ---- loops ---- *)
(** for x in l: body (the body may raise) *)
Fixpoint loop {A} (l : list A) (body : op -> A -> res op) (H : op) : res op :=
  match l with
  | [] => Ok H
  | x :: l' => do H' <- body H x ; loop l' body H'
  end.
Definition pairs {A} (l : list A) : list (A * A) := list_prod l l.
Definition quads (n : nat) : list (nat * nat * nat * nat) :=
  list_prod (list_prod (list_prod (seq 0 n) (seq 0 n)) (seq 0 n)) (seq 0 n).

(** ---- hamiltonians.py ---- *)
Definition imag_too_large (z : C) : bool := if Rlt_dec (/ 10 ^ 10) (Rabs (snd z)) then true else false.

(** lines 39-98  h_int_slater *)
Definition h_int_slater (spin_names : list string) (n_orb : nat) (U_matrix : tensor4)
    (off_diag : option bool) (mapping : option dict) (complex : bool) : res op :=
  do mkind <- get_mkind off_diag mapping ;
  loop (pairs spin_names) (fun H ss =>
    let (s1, s2) := ss in
    loop (quads n_orb) (fun H aaaa =>
      let '(a1, a2, a3, a4) := aaaa in
      let U_val := U_matrix a1 a2 a3 a4 in
      (* 84-85 *)
      if (imag_too_large U_val && negb complex)%bool then Throw (* RuntimeError *)
      else
        (* 87-88 *)
        do i1 <- mkind s1 a1 ; do i2 <- mkind s2 a2 ; do i4 <- mkind s2 a4 ; do i3 <- mkind s1 a3 ;
        Ok (EAdd H (EMul (EMul (EMul
          (EMulS (ECdag i1) (Cmult half (if complex then U_val else RtoC (fst U_val)) : CS)) (ECdag i2)) (EC i4)) (EC i3)))) H) op_zero.

(** lines 149-157 and 244-252 : the density-density terms *)
Definition density_loop (mkind : string -> nat -> res indices) (spin_names : list string) (n_orb : nat)
    (U Uprime : nat -> nat -> C) (H0 : op) : res op :=
  loop (pairs spin_names) (fun H ss =>
    let (s1, s2) := ss in
    loop (pairs (seq 0 n_orb)) (fun H aa =>
      let (a1, a2) := aa in
      let U_val := if String.eqb s1 s2 then U a1 a2 else Uprime a1 a2 in
      do i1 <- mkind s1 a1 ; do i2 <- mkind s2 a2 ;
      Ok (EAdd H (EMul (EMulS (EN i1) (Cmult half U_val : CS)) (EN i2)))) H) H0.

(** lines 201-260  h_int_density *)
Definition h_int_density (spin_names : list string) (n_orb : nat) (U Uprime : nat -> nat -> C)
    (off_diag : option bool) (mapping : option dict) : res op :=
  do mkind <- get_mkind off_diag mapping ;
  density_loop mkind spin_names n_orb U Uprime op_zero.

(** lines 100-199  h_int_kanamori *)
Definition h_int_kanamori (spin_names : list string) (n_orb : nat) (U Uprime : nat -> nat -> C) (J_hund : C)
    (off_diag : option bool) (mapping : option dict) : res op :=
  do mkind <- get_mkind off_diag mapping ;
  do H1 <- density_loop mkind spin_names n_orb U Uprime op_zero ;
  (* 167-174 : spin-flip terms *)
  do H2 <- loop (pairs spin_names) (fun H ss =>
    let (s1, s2) := ss in
    if String.eqb s1 s2 then Ok H else
    loop (pairs (seq 0 n_orb)) (fun H aa =>
      let (a1, a2) := aa in
      if (a1 =? a2)%nat then Ok H else
      do i1 <- mkind s1 a1 ; do i2 <- mkind s2 a1 ; do i3 <- mkind s2 a2 ; do i4 <- mkind s1 a2 ;
      Ok (EAdd H (EMul (EMul (EMul (EMulS (ECdag i1) (Cmult (Copp half) J_hund : CS)) (EC i2)) (ECdag i3)) (EC i4)))) H) H1 ;
  (* 184-191 : pair-hopping terms *)
  loop (pairs spin_names) (fun H ss =>
    let (s1, s2) := ss in
    if String.eqb s1 s2 then Ok H else
    loop (pairs (seq 0 n_orb)) (fun H aa =>
      let (a1, a2) := aa in
      if (a1 =? a2)%nat then Ok H else
      do i1 <- mkind s1 a1 ; do i2 <- mkind s2 a1 ; do i3 <- mkind s2 a2 ; do i4 <- mkind s1 a2 ;
      Ok (EAdd H (EMul (EMul (EMul (EMulS (ECdag i1) (Cmult half J_hund : CS)) (ECdag i2)) (EC i3)) (EC i4)))) H) H2.

(** lines 281-284 : the sets of the indices of the c and of the c_dag of a monomial are equal *)
Definition inds_of (d : bool) (m : monomial) : list indices :=
  map ind (filter (fun o => Bool.eqb (dag o) d) m).
Definition subset (l1 l2 : list indices) : bool := forallb (fun i => existsb (ieqb i) l2) l1.
Definition n_type (m : monomial) : bool :=
  subset (inds_of false m) (inds_of true m) && subset (inds_of true m) (inds_of false m).
(** lines 285-287 : reduce(operator.mul, [...], Operator(1)) *)
Definition mono_op {S : scalar_ops} (m : monomial) : expr S :=
  fold_left (fun e o => EMul e (if dag o then ECdag (ind o) else EC (ind o))) m (EScal k1).
(** lines 262-288  diagonal_part : iteration over the stored terms of H *)
Definition diagonal_part {S : scalar_ops} (H : omap S) : expr S :=
  fold_left (fun n_part mc => if n_type (fst mc) then EAdd n_part (EMulS (mono_op (fst mc)) (snd mc)) else n_part)
            H (EScal k0).

(** many_body_operator.hpp:328-333 and 340-345  real and imag (python Operator.real, Operator.imag) *)
Definition op_real (H : omap CS) : omap CS := op_transform (fun _ (c : CS) => RtoC (fst (c : C)) : CS) H.
Definition op_imag (H : omap CS) : omap CS := op_transform (fun _ (c : CS) => RtoC (snd (c : C)) : CS) H.
(** lines 290-310  make_operator_real *)
Definition make_operator_real (H : omap CS) (tol : R) : res (omap CS) :=
  if existsb (fun mc => if Rlt_dec tol (Rabs (snd (snd mc))) then true else false) H
  then Throw (* RuntimeError *) else Ok (op_real H).

(** ---- observables.py ---- *)
Inductive component : Type := CX | CY | CZ | CP | CM.   (* 'x', 'y', 'z', '+', '-' *)

(** lines 29-33  pauli_matrix; an index outside of the 2x2 array raises IndexError *)
Definition pauli (c : component) (i j : nat) : res C :=
  match i, j with
  | 0%nat, 0%nat => Ok (match c with CZ => RtoC 1 | _ => RtoC 0 end)
  | 0%nat, 1%nat => Ok (match c with CX => RtoC 1 | CY => Copp Ci | CZ => RtoC 0 | CP => RtoC 2 | CM => RtoC 0 end)
  | 1%nat, 0%nat => Ok (match c with CX => RtoC 1 | CY => Ci | CZ => RtoC 0 | CP => RtoC 0 | CM => RtoC 2 end)
  | 1%nat, 1%nat => Ok (match c with CZ => Copp (RtoC 1) | _ => RtoC 0 end)
  | _, _ => Throw
  end.

(** lines 45-76  N_op *)
Definition N_op (spin_names : list string) (n_orb : nat) (off_diag : option bool) (mapping : option dict) : res op :=
  do mkind <- get_mkind off_diag mapping ;
  loop (list_prod spin_names (seq 0 n_orb)) (fun N so =>
    do i <- mkind (fst so) (snd so) ; Ok (EAdd N (EN i))) op_zero.

(** lines 78-118  S_op *)
Definition S_op (c : component) (spin_names : list string) (n_orb : nat) (off_diag : option bool) (mapping : option dict) : res op :=
  do mkind <- get_mkind off_diag mapping ;
  loop (pairs (seq 0 (length spin_names))) (fun X nn =>
    let (n1, n2) := nn in
    loop (seq 0 n_orb) (fun X o =>
      do i1 <- mkind (nth n1 spin_names EmptyString) o ;
      do p <- pauli c n1 n2 ;
      do i2 <- mkind (nth n2 spin_names EmptyString) o ;
      Ok (EAdd X (EMul (EMulS (EMulS (ECdag i1) (half : CS)) (p : CS)) (EC i2)))) X) op_zero.

(** lines 120-149  S2_op; 0.5*(...) multiplies by a scalar *)
Definition square (z p m : op) : op := EAdd (EMul z z) (EMulS (EAdd (EMul p m) (EMul m p)) (half : CS)).
Definition S2_op (spin_names : list string) (n_orb : nat) (off_diag : option bool) (mapping : option dict) : res op :=
  do Sz <- S_op CZ spin_names n_orb off_diag mapping ;
  do Sp <- S_op CP spin_names n_orb off_diag mapping ;
  do Sm <- S_op CM spin_names n_orb off_diag mapping ;
  Ok (square Sz Sp Sm).

(** numpy.isclose(a, b) with its default tolerances *)
Definition isclose (a b : R) : bool := if Rle_dec (Rabs (a - b)) (/ 10 ^ 8 + / 10 ^ 5 * Rabs b) then true else false.
(** lines 197-202  L_melem_dict *)
Definition L_melem (l : R) (c : component) (m mp : R) : C :=
  let plus := RtoC (if isclose m (mp + 1) then sqrt (l * (l + 1) - mp * (mp + 1)) else 0) in
  let minus := RtoC (if isclose m (mp - 1) then sqrt (l * (l + 1) - mp * (mp - 1)) else 0) in
  match c with
  | CZ => RtoC (if isclose m mp then m else 0)
  | CP => plus
  | CM => minus
  | CX => Cmult half (Cplus plus minus)
  | CY => Cmult (Copp (Cmult half Ci)) (Cminus plus minus)
  end.
(** lines 197, 205  L_matrix in the spherical basis *)
Definition L_matrix (n_orb : nat) (c : component) (o1 o2 : nat) : C :=
  let l := ((INR n_orb - 1) / 2)%R in L_melem l c (INR o1 - l) (INR o2 - l).
(** lines 207-213 : the matrix T in use, if any; l = (n_orb-1)/2 is an integer when n_orb is odd *)
Definition L_basis (n_orb : nat) (basis : basis_t) (T : option (nat -> nat -> C)) : res (option (nat -> nat -> C)) :=
  match basis with
  | Cubic => if Nat.odd n_orb then do M <- spherical_to_cubic ((n_orb - 1) / 2) Triqs ; Ok (Some M) else Throw (* ValueError *)
  | Other => match T with None => Throw (* ValueError *) | Some M => Ok (Some M) end
  | Spherical => Ok T
  end.
(** line 213 : einsum("ij,jk,kl", conj T, L, T^t) *)
Definition rotate (n : nat) (T : nat -> nat -> C) (X : nat -> nat -> C) (i l : nat) : C :=
  csum_n n (fun j => csum_n n (fun k => Cmult (Cmult (Cconj (T i j)) (X j k)) (T l k))).
Definition rotate_opt (n : nat) (T : option (nat -> nat -> C)) (X : nat -> nat -> C) : nat -> nat -> C :=
  match T with Some M => rotate n M X | None => X end.

(** lines 151-220  L_op *)
Definition L_op (c : component) (spin_names : list string) (n_orb : nat) (off_diag : option bool) (mapping : option dict)
    (basis : basis_t) (T : option (nat -> nat -> C)) : res op :=
  do T' <- L_basis n_orb basis T ;
  let M := rotate_opt n_orb T' (L_matrix n_orb c) in
  do mkind <- get_mkind off_diag mapping ;
  loop spin_names (fun X sn =>
    loop (pairs (seq 0 n_orb)) (fun X oo =>
      let (o1, o2) := oo in
      do i1 <- mkind sn o1 ; do i2 <- mkind sn o2 ;
      Ok (EAdd X (EMul (EMulS (ECdag i1) (M o1 o2 : CS)) (EC i2)))) X) op_zero.

(** lines 222-261  L2_op *)
Definition L2_op (spin_names : list string) (n_orb : nat) (off_diag : option bool) (mapping : option dict)
    (basis : basis_t) (T : option (nat -> nat -> C)) : res op :=
  do Lz <- L_op CZ spin_names n_orb off_diag mapping basis T ;
  do Lp <- L_op CP spin_names n_orb off_diag mapping basis T ;
  do Lm <- L_op CM spin_names n_orb off_diag mapping basis T ;
  Ok (square Lz Lp Lm).

(** lines 263-303  LS_op *)
Definition LS_op (spin_names : list string) (n_orb : nat) (off_diag : option bool) (mapping : option dict)
    (basis : basis_t) (T : option (nat -> nat -> C)) : res op :=
  do Sz <- S_op CZ spin_names n_orb off_diag mapping ;
  do Sp <- S_op CP spin_names n_orb off_diag mapping ;
  do Sm <- S_op CM spin_names n_orb off_diag mapping ;
  do Lz <- L_op CZ spin_names n_orb off_diag mapping basis T ;
  do Lp <- L_op CP spin_names n_orb off_diag mapping basis T ;
  do Lm <- L_op CM spin_names n_orb off_diag mapping basis T ;
  Ok (EAdd (EMul Lz Sz) (EMulS (EAdd (EMul Lp Sm) (EMul Lm Sp)) (half : CS))).
