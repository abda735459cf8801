(** Model of c++/triqs/mesh/bases/linear.hpp (imtime, refreq, retime meshes), of imtime.hpp,
    and of the evaluation on product meshes, mesh/evaluate.hpp:96-116.

    Simplifications: [double] is R; [long] is Z.  Division by a zero step gives
    std::numeric_limits::infinity in the code: the inverse step is an option, [None] being
    infinity.  The EXPECTS checks are not executed in release builds and are not part of
    the model; what they require is a hypothesis of the theorems. *)
From Coq Require Import ZArith Reals List Bool Lia String.
From Verif Require Import Base Matsubara.
Import ListNotations.
Local Open Scope R_scope.

(** linear.hpp:40-55 *)
Record linear : Type := mkLin { li_L : Z; li_min : R; li_max : R; li_delta : R; li_dinv : option R }.
Definition li_make (a b : R) (n : Z) : linear :=
  let delta := if (n =? 1)%Z then 0 else (b - a) / (IZR n - 1) in
  mkLin n a b delta (if Req_EM_T delta 0 then None else Some (1 / delta)).

(** linear.hpp:112 *)
Definition li_valid (m : linear) (i : Z) : bool := (0 <=? i)%Z && (i <? li_L m)%Z.
(** linear.hpp:154-160 *)
Definition li_value (m : linear) (i : Z) : R :=
  if (li_L m =? 1)%Z then li_min m
  else let wr := IZR i / (IZR (li_L m) - 1) in li_min m * (1 - wr) + li_max m * wr.
(** linear.hpp:136-139, closest mesh point; the conversion of an infinite or NaN double to
    long is undefined behaviour: (x - xmin) * inf is inf or NaN *)
Definition li_closest (m : linear) (x : R) : res Z :=
  match li_dinv m with
  | None => UB
  | Some di => Ok (trunc ((x - li_min m) * di + 1 / 2))
  end.
(** linear.hpp:221-229 *)
Definition li_eval (m : linear) (f : Z -> R) (x : R) : res R :=
  match li_dinv m with
  | None => UB
  | Some di =>
      let x := Rmax x (li_min m) in
      let a := (x - li_min m) * di in
      let i := Z.min (trunc a) (li_L m - 2) in
      let w := Rmin (a - IZR i) 1 in
      Ok ((1 - w) * f i + w * f (i + 1)%Z)
  end.
(** linear.hpp:198-215 *)
Definition li_write (m : linear) : R * R * Z := (li_min m, li_max m, li_L m).
Definition li_read (h : R * R * Z) : linear := let '(a, b, n) := h in li_make a b n.

(** imtime.hpp:38-59 and 84-107 *)
Record imtime : Type := mkImtime { it_lin : linear; it_beta : R; it_stat : statistic }.
Definition it_make (beta : R) (s : statistic) (n : Z) : imtime := mkImtime (li_make 0 beta n) beta s.
Definition it_write (m : imtime) : R * string * Z :=
  (it_beta m, (if stat_eqb (it_stat m) Fermion then "F" else "B")%string, li_L (it_lin m)).
Definition it_read (h : R * string * Z) : imtime :=
  let '(b, s, n) := h in it_make b (if String.eqb s "F" then Fermion else Boson) n.

(** evaluate.hpp:96-110 : evaluation on a tuple of meshes.  The i-th argument stands for
    [fun g => evaluate(m_i, g, x_i)], the evaluation on one mesh at the given point. *)
Fixpoint ev_tuple {I} (es : list ((I -> R) -> R)) (f : list I -> R) : R :=
  match es with
  | [] => f []                                  (* not instantiated by the code *)
  | e1 :: [] => e1 (fun y1 => f [y1])
  | e1 :: es' => ev_tuple es' (fun ys => e1 (fun y1 => f (y1 :: ys)))
  end.

(** ---- specification ---- *)
(** an evaluation that is a weighted sum over finitely many indices *)
Definition wsum {I} (ws : list (R * I)) (g : I -> R) : R :=
  fold_right (fun wi r => fst wi * g (snd wi) + r) 0 ws.
(** all tuples with one entry of each list, with the product of the weights *)
Fixpoint tensor {I} (wss : list (list (R * I))) : list (R * list I) :=
  match wss with
  | [] => [(1, [])]
  | ws :: wss' => flat_map (fun wi => map (fun wj => (fst wi * fst wj, snd wi :: snd wj)) (tensor wss')) ws
  end.
