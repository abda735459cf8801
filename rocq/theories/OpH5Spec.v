(** What it means to store a many-body operator. *)
From Coq Require Import String ZArith QArith Qcanon List Bool Arith Sorted.
From Verif Require Import Base Indices Fock OpModel Hilbert Hilbert_proofs RealOrComplex OpH5.
Import ListNotations.
Local Open Scope nat_scope.

(** a std::map lists its keys in increasing order *)
Definition is_map {A} (t : tmap A) : Prop := StronglySorted (fun x y => mcmp (fst x) (fst y) = Lt) t.
(** what the archive has room for: at most four operators per monomial, indices made of 32-bit
    integers and of strings without NUL, and fewer than 2^31 of them *)
Definition short {A} (op : tmap A) : Prop := Forall (fun mc => length (fst mc) <= 4) op.
Definition labels_ok {A} (op : tmap A) : Prop := Forall (fun mc => Forall (fun c => Forall lbl_ok (ind c)) (fst mc)) op.
Definition few {A} (op : tmap A) : Prop := (Z.of_nat (list_sum (map (fun mc => length (fst mc)) op)) < 2 ^ 31)%Z.
(** the operator only uses indices of l *)
Definition inside {A} (l : fops) (op : tmap A) : Prop := Forall (fun mc => Forall (fun c => In (ind c) l) (fst mc)) op.
(** a coefficient that is flagged as real has no imaginary part (C51_real_flag: always so) *)
Definition proper (r : roc) : Prop := is_real r = true -> im (val r) = 0%Qc.
