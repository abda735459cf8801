(** Models of c++/triqs/mc_tools/mc_measure_set.hpp, c++/triqs/utility/buffered_function.hpp and
    c++/triqs/utility/signal_handler.cpp. *)
From Coq Require Import ZArith List Bool.
From Coq Require String.
Notation string := String.string.
From Verif Require Import Base Indices.
Import ListNotations.
Local Open Scope Z_scope.

(** ---- measure_set ---- *)
Section Measures.
Variable Sg : Type.     (* MCSignType *)
(** a registered measure: the object (identity of the insertion, signs it was given) and
    count_, mc_measure_set.hpp:70-90.  Timers and reports are not modelled. *)
Record meas : Type := mkMeas { me_id : nat; me_count : Z; me_seen : list Sg }.
(** std::map<std::string, measure>: list sorted by name; [ms_next] only names the objects *)
Record mset : Type := mkMset { ms_map : list (string * meas); ms_next : nat }.
Definition ms_empty : mset := mkMset [] 0.

Fixpoint ms_find (n : string) (l : list (string * meas)) : option meas :=
  match l with [] => None | (n', m) :: l' => if cmp_eqb str_cmp n n' then Some m else ms_find n l' end.
Fixpoint ms_emplace (n : string) (m : meas) (l : list (string * meas)) : list (string * meas) :=
  match l with
  | [] => [(n, m)]
  | (n', m') :: l' => if cmp_ltb str_cmp n n' then (n, m) :: l else (n', m') :: ms_emplace n m l'
  end.
Fixpoint ms_erase (n : string) (l : list (string * meas)) : list (string * meas) :=
  match l with [] => [] | (n', m) :: l' => if cmp_eqb str_cmp n n' then l' else (n', m) :: ms_erase n l' end.
(** measure::accumulate, mc_measure_set.hpp:82-88 *)
Definition me_accumulate (s : Sg) (m : meas) : meas := mkMeas (me_id m) (me_count m + 1) (me_seen m ++ [s]).

(** the iterator returned by the insertion of object [id] under name [n] is the pair (n, id) *)
Inductive mop : Type := MInsert (n : string) | MRemove (n : string) (id : nat) | MClear | MAccumulate (s : Sg).
(** what the caller sees; [MOCalls]: the accumulate() calls made, in order *)
Inductive mout : Type := MOItr (n : string) (id : nat) | MOThrow | MODone | MOCalls (l : list (nat * Sg)).

(** mc_measure_set.hpp:124-146; [None] : undefined behaviour (invalid iterator) *)
Definition ms_step (st : mset) (o : mop) : option (mset * mout) :=
  match o with
  | MInsert n =>
      match ms_find n (ms_map st) with
      | Some _ => Some (st, MOThrow)
      | None => Some (mkMset (ms_emplace n (mkMeas (ms_next st) 0 []) (ms_map st)) (S (ms_next st)), MOItr n (ms_next st))
      end
  | MRemove n id =>
      match ms_find n (ms_map st) with
      | Some m => if Nat.eqb (me_id m) id then Some (mkMset (ms_erase n (ms_map st)) (ms_next st), MODone) else None
      | None => None
      end
  | MClear => Some (mkMset [] (ms_next st), MODone)
  | MAccumulate s =>
      Some (mkMset (map (fun e => (fst e, me_accumulate s (snd e))) (ms_map st)) (ms_next st),
            MOCalls (map (fun e => (me_id (snd e), s)) (ms_map st)))
  end.
Fixpoint ms_run (ops : list mop) (st : mset) : option (mset * list mout) :=
  match ops with
  | [] => Some (st, [])
  | o :: ops' => match ms_step st o with
                 | None => None
                 | Some (st', x) => match ms_run ops' st' with None => None | Some (st'', xs) => Some (st'', x :: xs) end
                 end
  end.
(** mc_measure_set.hpp:148-152 *)
Definition ms_names (st : mset) : list string := map fst (ms_map st).

(** specification: a registry from names to (object, signs received since its insertion) *)
Definition registry : Type := string -> option (nat * list Sg).
Definition upd (r : registry) (n : string) (v : option (nat * list Sg)) : registry :=
  fun n' => if String.eqb n' n then v else r n'.
Definition reg_step (r : registry) (next : nat) (o : mop) : option (registry * nat) :=
  match o with
  | MInsert n => match r n with Some _ => Some (r, next) | None => Some (upd r n (Some (next, [])), S next) end
  | MRemove n id => match r n with
                    | Some (id', _) => if Nat.eqb id' id then Some (upd r n None, next) else None
                    | None => None
                    end
  | MClear => Some (fun _ => None, next)
  | MAccumulate s => Some (fun n => option_map (fun v => (fst v, snd v ++ [s])) (r n), next)
  end.
Fixpoint reg_run (ops : list mop) (r : registry) (next : nat) : option (registry * nat) :=
  match ops with
  | [] => Some (r, next)
  | o :: ops' => match reg_step r next o with None => None | Some (r', next') => reg_run ops' r' next' end
  end.
End Measures.

(** ---- buffered_function, utility/buffered_function.hpp:36-73 ---- *)
Section Buffered.
Variables (A G : Type) (gen : G -> A * G).   (* the function with its captured state *)
Record buf : Type := mkBuf { bf_index : Z; bf_buffer : list A; bf_gen : G }.
Fixpoint fill (n : nat) (g : G) : list A * G :=
  match n with
  | O => ([], g)
  | S n' => let (x, g) := gen g in let (l, g) := fill n' g in (x :: l, g)
  end.
(** the refill lambda *)
Definition bf_refill (b : buf) : buf := let (l, g) := fill (length (bf_buffer b)) (bf_gen b) in mkBuf 0 l g.
(** constructor; the vector of [size] elements is created, then filled *)
Definition bf_make (size : nat) (g : G) : buf := let (l, g) := fill size g in mkBuf 0 l g.
(** index > buffer.size() - 1, in size_t arithmetic *)
Definition bf_ready (b : buf) : buf :=
  if wrap64 (Z.of_nat (length (bf_buffer b)) - 1) <? bf_index b then bf_refill b else b.
Definition bf_at (b : buf) : res A :=
  match nth_error (bf_buffer b) (Z.to_nat (bf_index b)) with Some x => Ok x | None => UB end.
Definition bf_call (b : buf) : res (A * buf) :=
  let b := bf_ready b in
  match bf_at b with Ok x => Ok (x, mkBuf (bf_index b + 1) (bf_buffer b) (bf_gen b)) | Throw => Throw | UB => UB end.
Definition bf_preview (b : buf) : res (A * buf) :=
  let b := bf_ready b in match bf_at b with Ok x => Ok (x, b) | Throw => Throw | UB => UB end.

Inductive bop : Type := BCall | BPreview.
Fixpoint bf_run (ops : list bop) (b : buf) : res (list A) :=
  match ops with
  | [] => Ok []
  | o :: ops' => match (match o with BCall => bf_call b | BPreview => bf_preview b end) with
                 | Ok (x, b') => match bf_run ops' b' with Ok xs => Ok (x :: xs) | r => r end
                 | Throw => Throw
                 | UB => UB
                 end
  end.
(** specification: the stream of the function, and a cursor *)
Fixpoint stream (g : G) (i : nat) : A :=
  match i with O => fst (gen g) | S i' => stream (snd (gen g)) i' end.
Fixpoint cursor (s : nat -> A) (ops : list bop) (i : nat) : list A :=
  match ops with
  | [] => []
  | BCall :: ops' => s i :: cursor s ops' (S i)
  | BPreview :: ops' => s i :: cursor s ops' i
  end.
End Buffered.

(** ---- signal_handler.cpp ---- *)
(** signals_list, initialized, and whether the process has the handlers installed (they are
    installed by the first start() and never removed) *)
Record sigs : Type := mkSigs { sg_list : list Z; sg_init : bool; sg_handlers : bool }.
Definition sg_initial : sigs := mkSigs [] false false.
Inductive sop : Type :=
| SStart | SStop | SReceived (pop : bool) | SLast | SPop
| SDeliver (n : Z).        (* the system delivers one of the handled signals *)
Inductive sout : Type := SNone | SBool (b : bool) | SInt (n : Z) | SKilled.
(** signal_handler.cpp:36-65; [None]: undefined behaviour (back() or pop_back() of an empty vector).
    A signal delivered before any start() has its default action (SKilled). *)
Definition sg_step (s : sigs) (o : sop) : option (sigs * sout) :=
  match o with
  | SStart => if sg_init s then Some (s, SNone) else Some (mkSigs (sg_list s) true true, SNone)
  | SStop => Some (mkSigs [] false (sg_handlers s), SNone)
  | SReceived pop =>
      let r := negb (Nat.eqb (length (sg_list s)) 0) in
      Some ((if r && pop then mkSigs (removelast (sg_list s)) (sg_init s) (sg_handlers s) else s), SBool r)
  | SLast => match sg_list s with [] => None | _ => Some (s, SInt (last (sg_list s) 0)) end
  | SPop => match sg_list s with [] => None | _ => Some (mkSigs (removelast (sg_list s)) (sg_init s) (sg_handlers s), SNone) end
  | SDeliver n => if sg_handlers s then Some (mkSigs (sg_list s ++ [n]) (sg_init s) (sg_handlers s), SNone)
                  else Some (s, SKilled)
  end.
Fixpoint sg_run (ops : list sop) (s : sigs) : option (sigs * list sout) :=
  match ops with
  | [] => Some (s, [])
  | o :: ops' => match sg_step s o with
                 | None => None
                 | Some (s', x) => match sg_run ops' s' with None => None | Some (s'', xs) => Some (s'', x :: xs) end
                 end
  end.
(** specification: pairs of an operation and its answer, in order *)
Definition delivered (h : list (sop * sout)) : list Z :=
  flat_map (fun e => match e with (SDeliver n, SNone) => [n] | _ => [] end) h.
(** signals that were consumed: pop(), or received(true) answering true *)
Definition n_consumed (h : list (sop * sout)) : nat :=
  length (filter (fun e => match e with (SPop, _) => true | (SReceived true, SBool true) => true | _ => false end) h).
