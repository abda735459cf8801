(** Model of python/triqs/utility/dichotomy.py (lines 24-119).
    Numbers are exact rationals.  The function to invert may have internal state: [f k x] is the
    value returned by its call number k, made at x.  Reports are not modelled. *)
From Coq Require Import ZArith QArith Qabs List Bool.
From Verif Require Import Base.
Local Open Scope Q_scope.

Definition Qltb (a b : Q) : bool := negb (Qle_bool b a).
(** np.sign *)
Definition qsign (x : Q) : Q := if Qltb 0 x then 1 else if Qltb x 0 then -(1) else 0.

Section Dichotomy.
  Variable f : nat -> Q -> Q.
  Variables (y_value precision delta_x eps : Q).

  (** lines 73-76; [todo] is max_loops + 1 - nbre_loop, [calls] the number of calls made *)
  Fixpoint find_bound (todo calls : nat) (x2 y2 : Q) : nat * nat * Q * Q :=
    match todo with
    | O => (todo, calls, x2, y2)
    | S todo' =>
        if Qltb 0 ((y2 - y_value) * eps) && Qltb precision (Qabs (y2 - y_value))
        then let x2' := x2 - eps * delta_x in find_bound todo' (S calls) x2' (f calls x2')
        else (todo, calls, x2, y2)
    end.

  (** lines 99-106; a division by zero raises (line 101) *)
  Fixpoint refine (todo calls : nat) (x1 y1 x2 y2 x yfound : Q) : res (nat * Q * Q) :=
    match todo with
    | O => Ok (calls, x, yfound)
    | S todo' =>
        if Qltb precision (Qabs (yfound - y_value)) then
          if Qeq_bool (y2 - y1) 0 then Throw
          else
            let x' := x1 + (x2 - x1) * (y_value - y1) / (y2 - y1) in
            let yf := f calls x' in
            if Qltb 0 ((y1 - y_value) * (yf - y_value))
            then refine todo' (S calls) x' yf x2 y2 x' yf
            else refine todo' (S calls) x1 y1 x' yf x' yf
        else Ok (calls, x, yfound)
    end.
End Dichotomy.

(** the whole function; the result is (x, y), or None for (None, None), and the number of calls *)
Definition dichotomy (f : nat -> Q -> Q) (x_init y_value precision delta_x : Q) (max_loops : Z) : res (option (Q * Q) * nat) :=
  let dx := Qabs delta_x in
  let y1 := f O x_init in
  let eps := qsign (y1 - y_value) in
  let '(todo, calls, x2, y2) := find_bound f y_value precision dx eps (Z.to_nat (max_loops + 1)) 1 x_init y1 in
  let '(x1', y1', x2', y2') := if Qltb x2 x_init then (x2, y2, x_init, y1) else (x_init, y1, x2, y2) in
  let '(x, yfound) := if Qltb (Qabs (y1' - y_value)) (Qabs (y2' - y_value)) then (x1', y1') else (x2', y2') in
  do r <- refine f y_value precision todo calls x1' y1' x2' y2' x yfound ;
  let '(calls', x', y') := r in
  Ok (if Qltb (Qabs (y' - y_value)) precision then Some (x', y') else None, calls').
