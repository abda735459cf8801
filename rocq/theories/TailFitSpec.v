(** Specification of high-frequency expansions and of their fit *)
From Coq Require Import ZArith Reals List Bool Arith.
From Coquelicot Require Import Complex.
From Verif Require Import Base Matsubara Fourier FourierSpec LegGfSpec TailFit.
Import ListNotations.
Local Open Scope R_scope.

Fixpoint rsum (n : nat) (f : nat -> R) : R := match n with O => 0 | S k => rsum k f + f k end.

(** t_0 + t_1 / w + ... + t_(K-1) / w^(K-1), for component [c] *)
Definition expansion (K : nat) (t : nat -> nat -> C) (w : C) (c : nat) : C := total K (fun k => Cdiv (t k c) (power w k)).

(** the sum over points and components of the squared distances between values and expansion *)
Definition deviation (points : list (C * (nat -> C))) (n K : nat) (t : nat -> nat -> C) : R :=
  rsum (length points) (fun i => let (w, g) := nth i points (RtoC 0, fun _ => RtoC 0) in
    rsum n (fun c => Cmod (Cminus (expansion K t w c) (g c)) ^ 2)).

(** a least-squares solution X of A X = B among the X that satisfy P *)
Definition residual (rows cols n : nat) (A B X : nat -> nat -> C) : R :=
  rsum rows (fun i => rsum n (fun c => Cmod (Cminus (total cols (fun j => Cmult (A i j) (X j c))) (B i c)) ^ 2)).
Definition least_squares (P : (nat -> nat -> C) -> Prop) (rows cols n : nat) (A B X : nat -> nat -> C) : Prop :=
  P X /\ (forall Y, P Y -> residual rows cols n A B X <= residual rows cols n A B Y).
(** every row of Y, read as matrices of dimension d, is hermitian *)
Definition hermitian_rows (d : nat) (Y : nat -> nat -> C) : Prop :=
  forall j a b, (a < d)%nat -> (b < d)%nat -> Y j (a * d + b)%nat = Cconj (Y j (b * d + a)%nat).

(** what may happen to the tail fitter of a mesh: a fit (of either kind), or new parameters *)
Inductive use : Type :=
| UseFit (hermitian : bool) (n : nat) (g : data) (normalize : bool) (km : rows) (nk : nat) (inner : option nat)
| UseSet (fraction : R) (n_max : Z) (order : option Z).
Definition after_use smin solve (m : fmesh) (hd : handle) (u : use) : handle :=
  match u with
  | UseFit h n g nz km nk inner => Some (fst (fit smin solve h (get_tail_fitter hd) m n g nz km nk inner))
  | UseSet a b c => set_tail_fit_parameters a b c
  end.
Definition history smin solve (m : fmesh) (us : list use) : handle := fold_left (after_use smin solve m) us None.
(** the parameters set last, on a fitter that has not been used *)
Definition unused (us : list use) : handle :=
  fold_left (fun p u => match u with UseSet a b c => set_tail_fit_parameters a b c | _ => p end) us None.

(** [solve] returns least-squares solutions (without constraint), or hermitian ones that are the best among the hermitian ones *)
Definition solves_general (solve : bool -> cmat -> nat -> data -> option nat -> data * R) : Prop :=
  forall w n B, least_squares (fun _ => True) (m_rows w) (m_cols w) n (m_at w) B (fst (solve false w n B None)).
Definition solves_hermitian (solve : bool -> cmat -> nat -> data -> option nat -> data * R) : Prop :=
  forall d w B, least_squares (hermitian_rows d) (m_rows w) (m_cols w) (d * d) (m_at w) B (fst (solve true w (d * d)%nat B (Some d))).

(** the values at the frequencies with the given indices *)
Definition values_at (m : fmesh) (g : data) (idx : list Z) : list (C * (nat -> C)) := map (fun i => (fm_value m i, g (Z.to_nat (i - fm_first m)))) idx.
