(** Specification of det_manip: the object stands for two lists u, v of equal length and the
    matrix f(u_i, v_j).  Nothing here refers to the functions of the model, only to its names
    of operations. *)
From mathcomp Require Import all_ssreflect all_algebra.
From Verif Require Import Base DetManip.
Set Implicit Arguments.
Unset Strict Implicit.
Unset Printing Implicit Defensive.
Import GRing.Theory.
Local Open Scope ring_scope.

Section ListEdits.
Variables (T : Type) (t0 : T).
Implicit Types l xs : seq T.
Definition insert_at p (x : T) l := take p l ++ x :: drop p l.
Definition delete_at p l := take p l ++ drop p.+1 l.
(** x replaces the element at position p *)
Definition replace_at p (x : T) l := take p l ++ x :: drop p.+1 l.
(** positions of the FINAL list: position ps_a holds xs_a, the others hold l in order *)
Definition insert_many (ps : seq nat) xs l :=
  mkseq (fun p => if p \in ps then nth t0 xs (index p ps) else nth t0 l (p - count (fun q => q < p)%N ps)) (size l + size ps).
(** positions of the INITIAL list *)
Definition delete_many (ps : seq nat) l := [seq nth t0 l p | p <- iota 0 (size l) & p \notin ps].
Definition exchange i j l := mkseq (fun p => nth t0 l (if p == i then j else if p == j then i else p)) (size l).
End ListEdits.

Section Spec.
Variables (F : fieldType) (X Y : Type) (x0 : X) (y0 : Y) (f : X -> Y -> F).
Notation lists := (seq X * seq Y)%type.
(** the matrix of two lists, its determinant *)
Definition mat (l : lists) : 'M[F]_(size l.1) := \matrix_(i, j) f (nth x0 l.1 i) (nth y0 l.2 j).
Definition Det (l : lists) : F := \det (mat l).

Definition spec_trial (t : trial X Y) (l : lists) : lists :=
  let (u, v) := l in
  match t with
  | TInsert i j x y => (insert_at i x u, insert_at j y v)
  | TInsertK i j x y => (insert_many x0 i x u, insert_many y0 j y v)
  | TRemove i j => (delete_at i u, delete_at j v)
  | TRemoveK i j => (delete_many x0 i u, delete_many y0 j v)
  | TChangeCol j y => (u, replace_at j y v)
  | TChangeRow i x => (replace_at i x u, v)
  | TChangeColRow i j x y => (replace_at i x u, replace_at j y v)
  | TRefill x y => (x, y)
  end.
(** roll: Up moves the first row to the end, Down the last row to the front; Left, Right the
    same for columns (documentation, det_manip.hpp:1309-1320) *)
Definition spec_op (o : op X Y) (l : lists) : lists :=
  match o with
  | OTry t accept => if accept then spec_trial t l else l
  | OSwapRow i j => (exchange x0 i j l.1, l.2)
  | OSwapCol i j => (l.1, exchange y0 i j l.2)
  | ORoll RUp => (rot 1 l.1, l.2)
  | ORoll RDown => (rotr 1 l.1, l.2)
  | ORoll RLeft => (l.1, rot 1 l.2)
  | ORoll RRight => (l.1, rotr 1 l.2)
  | ORoll RNone => l
  | OClear => ([::], [::])
  | ODeterminant => l
  | ORegenerate => l
  end.
Fixpoint spec_run (h : seq (op X Y)) (l : lists) : lists :=
  if h is o :: h' then spec_run h' (spec_op o l) else l.

(** arguments in range *)
Definition positions_ok (bound : nat) (ps : seq nat) : bool := uniq ps && all (fun p => p < bound)%N ps.
Definition trial_ok (t : trial X Y) (l : lists) : bool :=
  let n := size l.1 in
  match t with
  | TInsert i j _ _ => (i <= n)%N && (j <= n)%N
  | TInsertK i j x y => [&& (2 <= size i)%N, size j == size i, size x == size i, size y == size i,
                            positions_ok (n + size i) i & positions_ok (n + size i) j]
  | TRemove i j => (i < n)%N && (j < n)%N
  | TRemoveK i j => [&& (2 <= size i)%N, size j == size i, positions_ok n i & positions_ok n j]
  | TChangeCol j _ => (j < n)%N
  | TChangeRow i _ => (i < n)%N
  | TChangeColRow i j _ _ => (i < n)%N && (j < n)%N
  | TRefill x y => size x == size y
  end.
Definition op_ok (o : op X Y) (l : lists) : bool :=
  let n := size l.1 in
  match o with
  | OTry t _ => trial_ok t l
  | OSwapRow i j | OSwapCol i j => (i < n)%N && (j < n)%N
  | ORoll r => if r is RNone then true else (0 < n)%N
  | OClear | ODeterminant | ORegenerate => true
  end.
Fixpoint hist_ok (h : seq (op X Y)) (l : lists) : bool :=
  if h is o :: h' then op_ok o l && hist_ok h' (spec_op o l) else true.
(** every matrix the object goes through is invertible *)
Fixpoint hist_regular (h : seq (op X Y)) (l : lists) : bool :=
  (Det l != 0) && (if h is o :: h' then hist_regular h' (spec_op o l) else true).
(** values the operations return: a try returns the ratio of the determinants, whether it is
    accepted or not; a roll the factor it multiplies the determinant with *)
Definition spec_result (o : op X Y) (l : lists) : option F :=
  match o with
  | OTry t _ => Some (Det (spec_trial t l) / Det l)
  | ORoll _ => Some (Det (spec_op o l) / Det l)
  | ODeterminant => Some (Det l)
  | _ => None
  end.
Fixpoint spec_results (h : seq (op X Y)) (l : lists) : seq (option F) :=
  if h is o :: h' then spec_result o l :: spec_results h' (spec_op o l) else [::].

(** ---- observations on the object, through its public accessors ---- *)
Variable sing : F -> bool.
Variable deviates : nat -> (nat -> nat -> F) -> (nat -> nat -> F) -> bool.
(** the matrix f(get_x(i), get_y(j)) *)
Definition cur (s : state F X Y) : 'M[F]_(size_of s) := \matrix_(i, j) f (get_x x0 s i) (get_y y0 s j).
Definition same_observations (s s' : state F X Y) : Prop :=
  [/\ size_of s' = size_of s, (forall i, get_x x0 s' i = get_x x0 s i), (forall j, get_y y0 s' j = get_y y0 s j),
      (forall i j, inverse_matrix s' i j = inverse_matrix s i j) &
      (forall d t, determinant x0 y0 f sing deviates s = Ok (d, t) -> exists t', determinant x0 y0 f sing deviates s' = Ok (d, t'))].
End Spec.
