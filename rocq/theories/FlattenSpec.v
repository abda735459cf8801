(** Specification vocabulary for flatten_2d. *)
From Coq Require Import List.
From Verif Require Import GfSym GfSymSpec Flatten.
Import ListNotations.

(** an array: one element per subscript *)
Definition full {V} (a : arr V) : Prop := length (a_dat a) = size (a_sh a).
(** the list without its element number N *)
Definition without {A} (N : nat) (l : list A) : list A := firstn N l ++ skipn (S N) l.
(** the list without its element number N, the first element taking its place *)
Definition others {A} (N : nat) (l : list A) : list A :=
  match N, l with
  | S n, x :: l' => firstn n l' ++ x :: skipn (S n) l'
  | _, _ => tl l
  end.
