(** Model of densities of states: python/triqs/dos/dos.py (lines 90-106, 179-182) and
    python/triqs/dos/hilbert_transform.py (lines 53-62, 126-155).

    Numbers are reals and complex numbers.  Simplifications: the Hilbert transform is that of a
    Green's function of one component at one frequency z, for a Sigma that does not depend on epsilon,
    without field and epsilon_hat and with an ordinary DOS (lines 185-186). *)
From Coq Require Import ZArith Reals List Bool.
From Coquelicot Require Import Complex.
From Verif Require Import Base MpiSlice.
Import ListNotations.
Local Open Scope R_scope.

Definition rsum (l : list R) : R := fold_left Rplus l 0.
(** a[i] for a numpy array: negative indices count from the end; out of range raises *)
Definition py_at (l : list R) (i : Z) : res R :=
  let j := if (i <? 0)%Z then (i + Z.of_nat (length l))%Z else i in
  if (j <? 0)%Z then Throw else match nth_error l (Z.to_nat j) with Some x => Ok x | None => Throw end.
(** dos.py:94-98 : the number of the first e > mu, or the number of points *)
Fixpoint first_above (mu : R) (eps : list R) : nat :=
  match eps with
  | [] => O
  | e :: eps' => if Rlt_dec mu e then O else S (first_above mu eps')
  end.
(** dos.py:90-106 *)
Definition density (eps rho : list R) (mu : R) : res R :=
  let ind := first_above mu eps in
  do e1 <- py_at eps 1 ;
  do e0 <- py_at eps 0 ;
  let de := e1 - e0 in
  do r0 <- py_at rho 0 ;
  do rl <- py_at rho (Z.of_nat ind - 1) ;
  let dens := (rsum (firstn ind rho) - r0 / 2 - rl / 2) * de in
  if (ind <? length eps)%nat then
    do el <- py_at eps (Z.of_nat ind - 1) ;
    do ri <- py_at rho (Z.of_nat ind) ;
    Ok (dens + (mu - el) * (rl + ri) / 2)
  else Ok dens.

(** dos.py:179-182 : the arrays of a DOSFromFunction; N = 1 divides by zero *)
Definition from_function (f : R -> R) (x_min x_max : R) (N : nat) : res (list R * list R) :=
  if (N =? 1)%nat then Throw
  else let r := (x_max - x_min) / (INR N - 1) in
       let eps := map (fun i => x_min + r * INR i) (seq 0 N) in
       Ok (eps, map f eps).

(** hilbert_transform.py:53-62 : the factor of point i; eps[1] raises when there is one point only *)
Definition width (eps : list R) (i : nat) : R :=
  let n := length eps in
  let e k := nth k eps 0 in
  if (i =? 0)%nat then e 1%nat - e 0%nat
  else if (i =? n - 1)%nat then e i - e (i - 1)%nat
  else (e (i + 1)%nat - e i) / 2 + (e i - e (i - 1)%nat) / 2.
Definition weights (eps rho : list R) : res (list R) :=
  if (length eps <? 2)%nat then Throw
  else let R0 := map (fun i => nth i rho 0 * width eps i) (seq 0 (length eps)) in
       Ok (map (fun x => x / rsum R0) R0).

(** hilbert_transform.py:136-151 : the sum of one rank, over its slices of the three arrays *)
Definition ht_term (z sigma : C) (mu eta : R) (acc : C) (de : R * R) : C :=
  Cplus acc (Cmult (Cinv (Cminus (Cminus (Cplus z (mu, eta)) sigma) (RtoC (snd de)))) (RtoC (fst de))).
Definition ht_rank (size rank : Z) (w eps : list R) (z sigma : C) (mu eta : R) : C :=
  fold_left (ht_term z sigma mu eta) (combine (slice_array size rank w) (slice_array size rank eps)) (RtoC 0).
(** line 154: all_reduce, every rank gets the sum over the ranks *)
Definition ht (size : Z) (w eps : list R) (z sigma : C) (mu eta : R) : C :=
  fold_left Cplus (map (fun r => ht_rank size (Z.of_nat r) w eps z sigma mu eta) (seq 0 (Z.to_nat size))) (RtoC 0).
