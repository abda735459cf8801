(** Model of c++/triqs/utility/real_or_complex.hpp : a number that is real or complex at run time.
    Doubles are rational numbers (no rounding, no infinities): a division by zero, which gives inf or nan in the code,
    is not given a meaning ([UB]). *)
From Coq Require Import List Bool QArith Qcanon Qcabs.
From Verif Require Import Base.
Import ListNotations.
Local Open Scope Qc_scope.

Notation double := Qc (only parsing).
(** std::complex<double> *)
Record dcomplex : Type := mkC { re : double; im : double }.

Inductive binop : Type := OpAdd | OpSub | OpMul | OpDiv.
Definition is0 (x : double) : bool := if Qc_eq_dec x 0 then true else false.

(** built-in double a OP b *)
Definition d_op (o : binop) (a b : double) : res double :=
  match o with
  | OpAdd => Ok (a + b) | OpSub => Ok (a - b) | OpMul => Ok (a * b)
  | OpDiv => if is0 b then UB else Ok (a / b)
  end.
(** std::complex<double>: a OP= y with y a double (standard library) *)
Definition c_op_d (o : binop) (a : dcomplex) (y : double) : res dcomplex :=
  match o with
  | OpAdd => Ok (mkC (re a + y) (im a)) | OpSub => Ok (mkC (re a - y) (im a)) | OpMul => Ok (mkC (re a * y) (im a * y))
  | OpDiv => if is0 y then UB else Ok (mkC (re a / y) (im a / y))
  end.
(** std::complex<double>: a OP= b (standard library) *)
Definition c_op (o : binop) (a b : dcomplex) : res dcomplex :=
  match o with
  | OpAdd => Ok (mkC (re a + re b) (im a + im b))
  | OpSub => Ok (mkC (re a - re b) (im a - im b))
  | OpMul => Ok (mkC (re a * re b - im a * im b) (re a * im b + im a * re b))
  | OpDiv => let n := re b * re b + im b * im b in
      if is0 n then UB else Ok (mkC ((re a * re b + im a * im b) / n) ((im a * re b - re a * im b) / n))
  end.

(** lines 36-37 *)
Record roc : Type := mkRoc { is_real : bool; val : dcomplex }.
(** line 40 *)
Definition roc_default : roc := mkRoc true (mkC 0 0).
(** line 41 *)
Definition roc_of_d (x : double) : roc := mkRoc true (mkC x 0).
(** line 42 *)
Definition roc_of_c (x : dcomplex) : roc := mkRoc false x.
(** line 46 *)
Definition to_complex (a : roc) : dcomplex := val a.
(** lines 48-51 *)
Definition to_double (a : roc) : res double := if is_real a then Ok (re (val a)) else Throw.
(** lines 53-56 *)
Definition roc_neg (a : roc) : roc := mkRoc (is_real a) (mkC (- re (val a)) (- im (val a))).
(** lines 61-64 *)
Definition roc_conj (a : roc) : roc := mkRoc (is_real a) (mkC (re (val a)) (- im (val a))).
(** numeric_ops.hpp lines 42-49 *)
Definition is_zero_d (x tol : double) : bool := if Qclt_le_dec (Qcabs x) tol then true else false.
Definition is_zero_c (x : dcomplex) (tol : double) : bool := is_zero_d (re x) tol && is_zero_d (im x) tol.
(** lines 66-70 *)
Definition roc_is_zero (a : roc) (tol : double) : res bool :=
  if is_real a then do d <- to_double a ; Ok (is_zero_d d tol) else Ok (is_zero_c (val a) tol).
(** line 83 : abs(_x - x._x) == 0 *)
Definition roc_eq (a b : roc) : bool :=
  let d := mkC (re (val a) - re (val b)) (im (val a) - im (val b)) in is0 (re d * re d + im d * im d).

(** lines 86-101, the three compound assignments *)
Definition roc_opc_d (o : binop) (a : roc) (y : double) : res roc := do x <- c_op_d o (val a) y ; Ok (mkRoc (is_real a) x).
Definition roc_opc_c (o : binop) (a : roc) (y : dcomplex) : res roc := do x <- c_op o (val a) y ; Ok (mkRoc false x).
Definition roc_opc (o : binop) (a y : roc) : res roc := do x <- c_op o (val a) (val y) ; Ok (mkRoc (is_real a && is_real y) x).
(** lines 110-113 *)
Definition roc_op (o : binop) (a b : roc) : res roc := roc_opc o a b.
(** lines 114-117 *)
Definition roc_op_c (o : binop) (a : roc) (b : dcomplex) : res roc := roc_opc_c o a b.
(** lines 118-121 *)
Definition roc_op_d (o : binop) (a : roc) (b : double) : res roc := roc_opc_d o a b.
(** line 122 *)
Definition c_op_roc (o : binop) (a : dcomplex) (b : roc) : res roc := do x <- c_op o a (to_complex b) ; Ok (roc_of_c x).
(** lines 123-128 *)
Definition d_op_roc (o : binop) (a : double) (b : roc) : res roc :=
  if is_real b then do y <- to_double b ; do x <- d_op o a y ; Ok (roc_of_d x)
  else do x <- c_op o (mkC a 0) (to_complex b) ; Ok (roc_of_c x).

(** a program computing with real_or_complex: every constructor is one call of the interface above *)
Inductive expr : Type :=
| Zero
| OfD (x : double)
| OfC (z : dcomplex)
| Neg (e : expr)
| Conj (e : expr)
| Bin (o : binop) (a b : expr)
| BinC (o : binop) (a : expr) (b : dcomplex)
| BinD (o : binop) (a : expr) (b : double)
| CBin (o : binop) (a : dcomplex) (b : expr)
| DBin (o : binop) (a : double) (b : expr).

Fixpoint run (e : expr) : res roc :=
  match e with
  | Zero => Ok roc_default
  | OfD x => Ok (roc_of_d x)
  | OfC z => Ok (roc_of_c z)
  | Neg e => do x <- run e ; Ok (roc_neg x)
  | Conj e => do x <- run e ; Ok (roc_conj x)
  | Bin o a b => do x <- run a ; do y <- run b ; roc_op o x y
  | BinC o a b => do x <- run a ; roc_op_c o x b
  | BinD o a b => do x <- run a ; roc_op_d o x b
  | CBin o a b => do y <- run b ; c_op_roc o a y
  | DBin o a b => do y <- run b ; d_op_roc o a y
  end.
