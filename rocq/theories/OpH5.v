(** Model of the HDF5 archives of many-body operators (c++/triqs/operators/many_body_operator.cpp:66-174,
    many_body_operator.hpp:101-112, 125-128, 143-148, 154-160).

    Simplifications: a dataset is the vector of records written to it together with the attribute
    that holds the fundamental_operator_set (the padding of the table of strings is that of
    Hilbert.v); errors of the HDF5 library are not modelled.  The field is_real is a bool stored
    as an int of the same offset: the byte read back is the byte written (little endian).  [double]
    is the type of RealOrComplex.v. *)
From Coq Require Import String ZArith List Bool Arith.
From Verif Require Import Base Indices Fock OpModel Hilbert RealOrComplex.
Import ListNotations.
Local Open Scope nat_scope.

(** std::map<monomial_t, A> as in OpModel.v, for any type of coefficients *)
Section Map.
  Context {A : Type}.
  Definition tmap : Type := list (monomial * A).
  Fixpoint t_find (m : monomial) (t : tmap) : option A :=
    match t with
    | [] => None
    | (m', c) :: t' => match mcmp m m' with Eq => Some c | Lt => None | Gt => t_find m t' end
    end.
  (** insert : keeps an existing element *)
  Fixpoint t_insert (m : monomial) (c : A) (t : tmap) : tmap :=
    match t with
    | [] => [(m, c)]
    | (m', c') :: t' => match mcmp m m' with
                        | Eq => t
                        | Lt => (m, c) :: t
                        | Gt => (m', c') :: t_insert m c t'
                        end
    end.
End Map.
Arguments tmap : clear implicits.

(** many_body_operator.hpp:154-160 *)
Definition make_fops {A} (op : tmap A) : fops := fold_left (fun f mc => fold_left (fun f c => fops_insert f (ind c)) (fst mc) f) op [].

(** many_body_operator.hpp:143-148 (and 125-128) : the conversion of a coefficient can throw *)
Definition op_convert {A B} (conv : A -> res B) (x : tmap A) : res (tmap B) :=
  fold_left (fun r y => do t <- r ; do c <- conv (snd y) ; Ok (t_insert (fst y) c t)) x (Ok []).

(** many_body_operator.cpp:31, 69-73 *)
Definition max_monomial_size : nat := 4.
Record h5_monomial : Type := mkH5m { hm_real : bool; hm_re : double; hm_im : double; hm_ops : list Z }.
Definition h5_dataset : Type := list h5_monomial * list (list string).

(** many_body_operator.cpp:101-105 : one c or c^dagger; [long] has 64 bits *)
Definition op_number (l : fops) (c : cop) : res Z :=
  do p <- fops_at l (ind c) ;
  let c_number := (Z.of_nat p + 1)%Z in
  Ok (if dag c then c_number else (- c_number)%Z).
Fixpoint op_numbers (l : fops) (m : monomial) : res (list Z) :=
  match m with
  | [] => Ok []
  | c :: m' => do x <- op_number l c ; do xs <- op_numbers l m' ; Ok (x :: xs)
  end.
(** many_body_operator.cpp:97-107 *)
Definition write_monomial (l : fops) (mc : monomial * roc) : res h5_monomial :=
  if max_monomial_size <? length (fst mc) then Throw
  else
    do xs <- op_numbers l (fst mc) ;
    Ok (mkH5m (is_real (snd mc)) (re (val (snd mc))) (im (val (snd mc))) (xs ++ repeat 0%Z (max_monomial_size - length xs))).
Fixpoint write_all (l : fops) (op : tmap roc) : res (list h5_monomial) :=
  match op with
  | [] => Ok []
  | mc :: op' => do y <- write_monomial l mc ; do ys <- write_all l op' ; Ok (y :: ys)
  end.
(** many_body_operator.cpp:88-129 *)
Definition h5_write_fops (op : tmap roc) (l : fops) : res h5_dataset :=
  do d <- write_all l op ; Ok (d, encode_fops l).
(** many_body_operator.hpp:102-104 : the operator is converted to real_or_complex coefficients *)
Definition h5_write {A} (to_roc : A -> roc) (op : tmap A) : res h5_dataset :=
  do x <- op_convert (fun c => Ok (to_roc c)) op ; h5_write_fops x (make_fops op).

(** many_body_operator.cpp:164-168 : [int i] takes the numbers modulo 2^32; an index beyond the
    table is undefined *)
Fixpoint read_ops (l : fops) (xs : list Z) : res monomial :=
  match xs with
  | [] => Ok []
  | x :: xs' => let i := to_int32 x in
                if (i =? 0)%Z then Ok []
                else match nth_error l (Z.to_nat (Z.abs i - 1)) with
                     | None => UB
                     | Some t => do m <- read_ops l xs' ; Ok (mkCop (0 <? i)%Z t :: m)
                     end
  end.
(** many_body_operator.cpp:163-171 *)
Definition read_step (l : fops) (r : res (tmap roc)) (mon : h5_monomial) : res (tmap roc) :=
  do t <- r ;
  do m <- read_ops l (hm_ops mon) ;
  Ok (t_insert m (if hm_real mon then roc_of_d (hm_re mon) else roc_of_c (mkC (hm_re mon) (hm_im mon))) t).
(** many_body_operator.cpp:133-172; [op] is the operator read into, [pad] the padding of the table *)
Definition h5_read_fops (pad : nat -> nat) (ds : h5_dataset) (op : tmap roc) : res (tmap roc * fops) :=
  do l <- decode_fops (h5_table pad 0 (snd ds)) ;
  do op' <- fold_left (read_step l) (fst ds) (Ok op) ;
  Ok (op', l).
(** many_body_operator.hpp:107-112 *)
Definition h5_read {A} (of_roc : roc -> res A) (pad : nat -> nat) (ds : h5_dataset) : res (tmap A) :=
  do x <- h5_read_fops pad ds [] ; op_convert of_roc (fst x).
