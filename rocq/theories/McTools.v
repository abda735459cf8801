(** Model of c++/triqs/mc_tools/mc_generic.hpp (run, warmup, accumulate) and
    mc_move_set.hpp.

    The user's moves, measures, callbacks and the random generator act on an arbitrary
    world [W] (they may share any state); each of them may throw.  Signals are delivered by
    the environment: [arrive p] are the signals handled just before the p-th call of
    signal_handler::received().  Every call to user code is recorded in the trace, which is
    the observable behaviour of a run.

    Simplifications: [double] is R; the statistics are Z; reports, timers and percentages
    are not modelled; stop_callback does not throw (it is called outside of the try block);
    the mpi monitor is an oracle [emerg] saying whether another node requested a stop, polled
    after each cycle and once more at the end. *)
From Coq Require Import ZArith Reals List Bool Lia.
Import ListNotations.
Local Open Scope Z_scope.

(** ---- move probabilities: mc_move_set.hpp:286-300 ---- *)
Fixpoint sum_list (l : list R) : R := match l with [] => 0%R | x :: l' => (x + sum_list l')%R end.
(** u -> acc[u] += acc[u-1] *)
Fixpoint prefix_sums (a : R) (l : list R) : list R :=
  match l with [] => [] | x :: l' => (x + a)%R :: prefix_sums (x + a)%R l' end.
Fixpoint shift_last (l : list R) : list R :=
  match l with [] => [] | [x] => [(x + 1 / 1000)%R] | x :: l' => x :: shift_last l' end.
(** [proba] is Proba_Moves: a leading 0, then the weights of the moves *)
Definition normalise (proba : list R) : list R :=
  let acc := sum_list proba in shift_last (prefix_sums 0 (map (fun p => (p / acc)%R) proba)).
(** mc_move_set.hpp:191-195 : the loop stops at the first entry above u; [None] is a read
    past the end, or the decrement of 0 *)
Fixpoint first_above (u : R) (l : list R) : option nat :=
  match l with
  | [] => None
  | x :: l' => if Rle_dec x u then option_map S (first_above u l') else Some 0%nat
  end.
Definition pick (acc : list R) (u : R) : option nat :=
  match first_above u acc with Some (S k) => Some k | _ => None end.

Section Mc.
Variables (W Sg Ratio : Type) (smul : Sg -> Sg -> Sg).
(** mc_move_set.hpp:163-174, 203-211 : absolute value of the ratio and its sign; [None] when
    the ratio is not finite and an exception is thrown *)
Variable classify : Ratio -> option (R * Sg).

(** a user-supplied move; [None] / [false] : it throws *)
Record umove : Type := mkMove {
  um_weight : R;
  um_attempt : W -> option Ratio * W;
  um_accept : W -> option Sg * W;
  um_reject : W -> bool * W }.
Variable moves : list umove.
(** random_generator::operator() *)
Variable rng : W -> R * W.
(** measures in the order of their names, auxiliary measures, after_cycle_duty *)
Variable measures : list (Sg -> W -> bool * W).
Variable auxs : list (W -> bool * W).
Variable duty : option (W -> bool * W).
Variable stop_callback : W -> bool * W.
Variable arrive : nat -> list Z.
Variable emerg : nat -> bool.
Variables rethrow has_env : bool.

(** calls to user code *)
Inductive event : Type :=
| EDraw (u : R)                              (* a random number *)
| EAttempt (k : nat) (r : option Ratio)      (* attempt() of move k *)
| EAccept (k : nat) (a : option Sg)          (* accept() of move k *)
| EReject (k : nat) (ok : bool)              (* reject() of move k *)
| EDuty (ok : bool)
| EAux (j : nat) (ok : bool)
| EMeasure (j : nat) (s : Sg) (ok : bool)    (* accumulate(s) of measure j *)
| EStop (b : bool).                          (* stop_callback *)

(** mc_generic.hpp:424-438 and the state of the move set *)
Record mc : Type := mkMc {
  mc_w : W; mc_sign : Sg; mc_nmeas : Z; mc_cycle : Z; mc_config : Z;
  mc_prop : list Z; mc_acc : list Z;          (* NProposed, Naccepted of each move *)
  mc_sig : list Z;                            (* signals_list *)
  mc_polls : nat;
  mc_emergency : bool;                        (* this node requested a stop *)
  mc_trace : list event }.
Definition set_w (s : mc) (w : W) : mc :=
  mkMc w (mc_sign s) (mc_nmeas s) (mc_cycle s) (mc_config s) (mc_prop s) (mc_acc s) (mc_sig s) (mc_polls s) (mc_emergency s) (mc_trace s).
Definition log (e : event) (s : mc) : mc :=
  mkMc (mc_w s) (mc_sign s) (mc_nmeas s) (mc_cycle s) (mc_config s) (mc_prop s) (mc_acc s) (mc_sig s) (mc_polls s) (mc_emergency s) (mc_trace s ++ [e]).
Definition set_sign (s : mc) (x : Sg) : mc :=
  mkMc (mc_w s) x (mc_nmeas s) (mc_cycle s) (mc_config s) (mc_prop s) (mc_acc s) (mc_sig s) (mc_polls s) (mc_emergency s) (mc_trace s).
Definition set_nmeas (s : mc) (x : Z) : mc :=
  mkMc (mc_w s) (mc_sign s) x (mc_cycle s) (mc_config s) (mc_prop s) (mc_acc s) (mc_sig s) (mc_polls s) (mc_emergency s) (mc_trace s).
Definition set_cycle (s : mc) (x : Z) : mc :=
  mkMc (mc_w s) (mc_sign s) (mc_nmeas s) x (mc_config s) (mc_prop s) (mc_acc s) (mc_sig s) (mc_polls s) (mc_emergency s) (mc_trace s).
Definition set_config (s : mc) (x : Z) : mc :=
  mkMc (mc_w s) (mc_sign s) (mc_nmeas s) (mc_cycle s) x (mc_prop s) (mc_acc s) (mc_sig s) (mc_polls s) (mc_emergency s) (mc_trace s).
Definition set_prop (s : mc) (x : list Z) : mc :=
  mkMc (mc_w s) (mc_sign s) (mc_nmeas s) (mc_cycle s) (mc_config s) x (mc_acc s) (mc_sig s) (mc_polls s) (mc_emergency s) (mc_trace s).
Definition set_acc (s : mc) (x : list Z) : mc :=
  mkMc (mc_w s) (mc_sign s) (mc_nmeas s) (mc_cycle s) (mc_config s) (mc_prop s) x (mc_sig s) (mc_polls s) (mc_emergency s) (mc_trace s).
Definition set_sig (s : mc) (x : list Z) : mc :=
  mkMc (mc_w s) (mc_sign s) (mc_nmeas s) (mc_cycle s) (mc_config s) (mc_prop s) (mc_acc s) x (mc_polls s) (mc_emergency s) (mc_trace s).
Definition set_polls (s : mc) (x : nat) : mc :=
  mkMc (mc_w s) (mc_sign s) (mc_nmeas s) (mc_cycle s) (mc_config s) (mc_prop s) (mc_acc s) (mc_sig s) x (mc_emergency s) (mc_trace s).
Definition set_emergency (s : mc) (x : bool) : mc :=
  mkMc (mc_w s) (mc_sign s) (mc_nmeas s) (mc_cycle s) (mc_config s) (mc_prop s) (mc_acc s) (mc_sig s) (mc_polls s) x (mc_trace s).

(** signal_handler::received(false), signal_handler.cpp:58-63 *)
Definition received (s : mc) : bool * mc :=
  let l := mc_sig s ++ arrive (mc_polls s) in
  (negb (match l with [] => true | _ => false end), set_polls (set_sig s l) (S (mc_polls s))).

Fixpoint incr (l : list Z) (k : nat) : list Z :=
  match l, k with
  | [], _ => []
  | x :: l', O => (x + 1) :: l'
  | x :: l', S k' => x :: incr l' k'
  end.

(** how a piece of the cycle ends *)
Inductive how : Type := HOk | HSig | HExc.
Inductive outcome : Type := Out (h : how) (s : mc) | OUB.

Definition acc_sums : list R := normalise (0%R :: map um_weight moves).

(** one turn of the Metropolis loop, mc_generic.hpp:269-281, with move_set::attempt
    (mc_move_set.hpp:185-213), accept (220-232) and reject (236-239) *)
Definition metropolis (s : mc) : outcome :=
  let (sg, s) := received s in
  if sg then Out HSig s
  else match moves with
  | [] => Out HExc s                                         (* no move was registered *)
  | _ =>
      let (u, w) := rng (mc_w s) in
      let s := log (EDraw u) (set_w s w) in
      match pick acc_sums u with
      | None => OUB
      | Some k =>
          match nth_error moves k with
          | None => OUB
          | Some m =>
              let s := set_prop s (incr (mc_prop s) k) in    (* NProposed++ *)
              let (r, w) := um_attempt m (mc_w s) in
              let s := log (EAttempt k r) (set_w s w) in
              match r with
              | None => Out HExc s
              | Some r =>
                  match classify r with
                  | None => Out HExc s
                  | Some (ratio, try_sign) =>
                      let (v, w) := rng (mc_w s) in
                      let s := log (EDraw v) (set_w s w) in
                      if Rlt_dec v (Rmin 1 ratio) then
                        let s := set_acc s (incr (mc_acc s) k) in   (* Naccepted++ *)
                        let (a, w) := um_accept m (mc_w s) in
                        let s := log (EAccept k a) (set_w s w) in
                        match a with
                        | None => Out HExc s
                        | Some a =>
                            let s := set_sign s (smul (mc_sign s) (smul try_sign a)) in
                            Out HOk (set_config s (mc_config s + 1))
                        end
                      else
                        let (ok, w) := um_reject m (mc_w s) in
                        let s := log (EReject k ok) (set_w s w) in
                        if ok then Out HOk (set_config s (mc_config s + 1)) else Out HExc s
                  end
              end
          end
      end
  end.

(** for (int64_t k = 1; k <= length_cycle; k++) *)
Fixpoint metropolis_loop (n : nat) (s : mc) : outcome :=
  match n with
  | O => Out HOk s
  | S n' => match metropolis s with
            | Out HOk s' => metropolis_loop n' s'
            | o => o
            end
  end.

Fixpoint call_auxs (j : nat) (l : list (W -> bool * W)) (s : mc) : outcome :=
  match l with
  | [] => Out HOk s
  | f :: l' => let (ok, w) := f (mc_w s) in
               let s := log (EAux j ok) (set_w s w) in
               if ok then call_auxs (S j) l' s else Out HExc s
  end.
(** mc_measure_set.hpp:138-140 *)
Fixpoint call_measures (j : nat) (l : list (Sg -> W -> bool * W)) (s : mc) : outcome :=
  match l with
  | [] => Out HOk s
  | f :: l' => let (ok, w) := f (mc_sign s) (mc_w s) in
               let s := log (EMeasure j (mc_sign s) ok) (set_w s w) in
               if ok then call_measures (S j) l' s else Out HExc s
  end.

(** the try block, mc_generic.hpp:265-288 *)
Definition cycle (length_cycle : nat) (do_measure : bool) (s : mc) : outcome :=
  match metropolis_loop length_cycle s with
  | Out HOk s =>
      let d := match duty with
               | None => Out HOk s
               | Some f => let (ok, w) := f (mc_w s) in
                           let s := log (EDuty ok) (set_w s w) in
                           if ok then Out HOk s else Out HExc s
               end in
      match d with
      | Out HOk s =>
          if do_measure then
            let s := set_nmeas s (mc_nmeas s + 1) in
            match call_auxs 0 auxs s with
            | Out HOk s => call_measures 0 measures s
            | o => o
            end
          else Out HOk s
      | o => o
      end
  | o => o
  end.

Inductive run_result : Type :=
| RReturn (status : Z) (s : mc)
| RThrow (s : mc)      (* exception at the end: an exception occurred on some node *)
| RUB                  (* undefined behaviour *)
| RAbort (s : mc)      (* c.abort(2) *)
| ROutOfFuel.

Definition monitor : bool := rethrow && has_env.
Definition INT_MAX : Z := 2 ^ 31 - 1.

(** the catch clauses, mc_generic.hpp:289-301 *)
Definition catch (h : how) (s : mc) : run_result + mc :=
  match h with
  | HExc => if rethrow then (if has_env then inr (set_emergency s true) else inl RUB)   (* null node_monitor *)
            else inl (RAbort s)
  | _ => inr s
  end.
(** mc_generic.hpp:303-330 : the end of a cycle; [nc] is the int NC.  Either the run ends, or
    it continues with the next cycle *)
Definition end_of_cycle (n_cycles nc : Z) (s : mc) : run_result + mc :=
  if INT_MAX <=? nc then inl RUB                     (* NC + 1 overflows *)
  else
    let finished := (n_cycles <=? nc + 1) && negb (n_cycles <? 0) in
    let (b, w) := stop_callback (mc_w s) in
    let s := log (EStop b) (set_w s w) in
    let (rc, s) := if b then (false, s) else received s in   (* || does not evaluate the rest *)
    let stop := b || rc || finished in
    let em := monitor && (mc_emergency s || emerg (Z.to_nat nc)) in
    if stop || em then
      let s := set_cycle s (mc_cycle s + (nc + 1)) in
      let (st, s) := if finished then (0, s) else (let (rc, s) := received s in ((if rc then 2 else 1), s)) in
      let s := set_sig s [] in                     (* signal_handler::stop *)
      inl (if em || monitor && emerg (S (Z.to_nat nc)) then RThrow s else RReturn st s)
    else inr s.
(** mc_generic.hpp:262-317 : the main loop *)
Fixpoint main_loop (fuel : nat) (n_cycles : Z) (length_cycle : nat) (do_measure : bool) (nc : Z) (s : mc) : run_result :=
  match fuel with
  | O => ROutOfFuel
  | S fuel' =>
      match cycle length_cycle do_measure s with
      | OUB => RUB
      | Out h s =>
          match catch h s with
          | inl r => r
          | inr s => match end_of_cycle n_cycles nc s with
                     | inl r => r
                     | inr s => main_loop fuel' n_cycles length_cycle do_measure (nc + 1) s
                     end
          end
      end
  end.

(** mc_generic.hpp:243-262 *)
Definition zeros : list Z := map (fun _ => 0) moves.
Definition run (fuel : nat) (n_cycles : Z) (length_cycle : nat) (do_measure : bool) (s : mc) : run_result :=
  let s := set_acc (set_prop s zeros) zeros in              (* clear_statistics *)
  if n_cycles =? 0 then RReturn 0 s
  else main_loop fuel n_cycles length_cycle do_measure 0 (set_emergency (set_nmeas s 0) false).

(** mc_generic.hpp:128-133, 178-184, 186-191, 214-219 *)
Definition warmup_and_accumulate (fuel : nat) (n_warmup n_acc : Z) (length_cycle : nat) (sign_init : option Sg) (s : mc) : run_result :=
  let s := match sign_init with Some x => set_sign s x | None => s end in
  match run fuel n_warmup length_cycle false s with
  | RReturn st s' => if st =? 0 then run fuel n_acc length_cycle true s' else RReturn st s'
  | r => r
  end.

(** ---- specification: what can be observed ---- *)
(** one attempted move: a random number selects a move; its ratio is compared to a second one *)
Inductive step_trace : list event -> Prop :=
| st_accept u k r v a ratio sg :
    pick acc_sums u = Some k -> classify r = Some (ratio, sg) -> (v < Rmin 1 ratio)%R ->
    step_trace [EDraw u; EAttempt k (Some r); EDraw v; EAccept k (Some a)]
| st_reject u k r v ratio sg :
    pick acc_sums u = Some k -> classify r = Some (ratio, sg) -> ~ (v < Rmin 1 ratio)%R ->
    step_trace [EDraw u; EAttempt k (Some r); EDraw v; EReject k true].
(** a complete cycle: [len] attempted moves, the duty, all measures *)
Definition full_cycle (len : nat) (do_measure : bool) (t : list event) : Prop :=
  exists steps x, List.length steps = len /\ Forall step_trace steps /\
    t = concat steps ++ (match duty with Some _ => [EDuty true] | None => [] end) ++
        (if do_measure then map (fun j => EAux j true) (seq 0 (List.length auxs)) ++
                            map (fun j => EMeasure j x true) (seq 0 (List.length measures)) else []).
(** a cycle interrupted before one of its moves *)
Definition cut_cycle (len : nat) (t : list event) : Prop :=
  exists steps, (List.length steps < len)%nat /\ Forall step_trace steps /\ t = concat steps.

(** the sign of the configuration along a trace: (sign, sign of the last attempt) *)
Definition sign_step (st : Sg * option Sg) (e : event) : Sg * option Sg :=
  match e with
  | EAttempt _ (Some r) => (fst st, option_map snd (classify r))
  | EAccept _ (Some a) => match snd st with Some t => (smul (fst st) (smul t a), snd st) | None => st end
  | _ => st
  end.
Definition trace_sign (s0 : Sg) (t : list event) : Sg := fst (fold_left sign_step t (s0, None)).
(** number of events of a kind *)
Definition count (p : event -> bool) (t : list event) : Z := Z.of_nat (List.length (filter p t)).
Definition is_attempt (k : nat) (e : event) : bool := match e with EAttempt k' _ => Nat.eqb k k' | _ => false end.
Definition is_accept (k : nat) (e : event) : bool := match e with EAccept k' _ => Nat.eqb k k' | _ => false end.
Definition is_decided (e : event) : bool := match e with EAccept _ (Some _) | EReject _ true => true | _ => false end.
Definition is_measure (j : nat) (e : event) : bool := match e with EMeasure j' _ _ => Nat.eqb j j' | _ => false end.
(** a signal was pending at the beginning or arrived before the last poll *)
Definition signalled (s s' : mc) : Prop :=
  mc_sig s <> [] \/ exists p, (mc_polls s <= p < mc_polls s')%nat /\ arrive p <> [].
End Mc.

(** ---- ratios: mc_move_set.hpp:163-174 and 203-211 ---- *)
(** a double *)
Inductive dbl : Type := Fin (r : R) | PInf | NInf | NaN.
Definition sign_or_one (r : R) : R := if Rlt_dec (1 / 10 ^ 14) (Rabs r) then (r / Rabs r)%R else 1%R.
(** MCSignType = double *)
Definition classify_double (r : dbl) : option (R * R) :=
  match r with
  | Fin r => Some (Rabs r, sign_or_one r)
  | PInf => Some (100%R, 1%R)
  | NInf => Some (100%R, (-1)%R)
  | NaN => None
  end.
(** MCSignType = complex: real and imaginary part; [None] for a ratio that is not finite *)
Definition cabs (z : R * R) : R := sqrt (fst z * fst z + snd z * snd z).
Definition cmul (z w : R * R) : R * R := (fst z * fst w - snd z * snd w, fst z * snd w + snd z * fst w)%R.
Definition classify_complex (r : option (R * R)) : option (R * (R * R)) :=
  match r with
  | Some z => Some (cabs z, if Rlt_dec (1 / 10 ^ 14) (cabs z) then (fst z / cabs z, snd z / cabs z)%R else (1, 0)%R)
  | None => None
  end.

(** move::collect_statistics, mc_move_set.hpp:113-118 : [nodes] has (Naccepted, NProposed) of
    the move on each node; [None] is 0/0 = NaN *)
Definition acceptance_rate (nodes : list (Z * Z)) : option R :=
  let nacc := fold_left (fun a n => a + fst n) nodes 0 in
  let nprop := fold_left (fun a n => a + snd n) nodes 0 in
  if nprop =? 0 then None else Some (IZR nacc / IZR nprop)%R.
