(** The number that a Python object stands for. *)
From Coq Require Import ZArith Reals.
From Coquelicot Require Import Complex.
From Verif Require Import Matsubara PyMats.
(** i (2 n + 1) pi / beta for fermions, i 2 n pi / beta for bosons *)
Definition number (o : pyval) : C :=
  match o with
  | VF x | VP x => (0, match fr_stat x with Fermion => IZR (2 * fr_n x + 1) | Boson => IZR (2 * fr_n x) end * PI / fr_beta x)%R
  | VN c => c
  end.
(** a frequency or a mesh point at inverse temperature beta *)
Definition at_beta (o : pyval) (beta : R) : Prop := match o with VF x | VP x => fr_beta x = beta | VN _ => False end.
