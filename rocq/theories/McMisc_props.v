(** Properties C30 (measures), C31 and C61 (random numbers), C32 (buffered function), C52
    (signals). *)
From Coq Require Import ZArith Reals List Bool Sorted.
From Coq Require String.
From Flocq Require Import Core.Raux Core.Core.
From Verif Require Import Base Indices McMisc McMisc_proofs RandomInt.
Import ListNotations.
Local Open Scope Z_scope.

(** C30: after any history of insertions, removals, clears and accumulations the set holds the
    measures of the registry [reg_run] (name -> object and the signs accumulated since its
    insertion): each measure received exactly those signs and its count is their number.  The
    history is undefined behaviour exactly when an invalid iterator is removed. *)
Theorem C30_measures_follow_registry :
  forall (Sg : Type) (ops : list (mop Sg)),
    match ms_run Sg ops (ms_empty Sg), reg_run Sg ops (fun _ => None) 0 with
    | Some (st, _), Some (r, _) =>
        StronglySorted str_lt (ms_names Sg st) /\
        (forall n, In n (ms_names Sg st) <-> r n <> None) /\
        (forall n, ms_find Sg n (ms_map Sg st) = option_map (fun v => mkMeas Sg (fst v) (Z.of_nat (length (snd v))) (snd v)) (r n))
    | None, None => True
    | _, _ => False
    end.
Proof. exact thm_measures. Qed.
Print Assumptions C30_measures_follow_registry.

(** C30: one accumulation calls each registered measure exactly once, in increasing order of
    their names, with the sign *)
Theorem C30_accumulate_once_in_name_order :
  forall Sg ops st outs r next s,
    ms_run Sg ops (ms_empty Sg) = Some (st, outs) -> reg_run Sg ops (fun _ => None) 0 = Some (r, next) ->
    exists (ns : list string) (ids : list nat),
      StronglySorted str_lt ns /\ (forall n, In n ns <-> r n <> None) /\
      Forall2 (fun n id => exists l, r n = Some (id, l)) ns ids /\
      exists st', ms_step Sg st (MAccumulate Sg s) = Some (st', MOCalls Sg (map (fun id => (id, s)) ids)).
Proof. exact thm_accumulate. Qed.
Print Assumptions C30_accumulate_once_in_name_order.
Theorem C30_duplicate_names_throw :
  forall Sg ops st outs n, ms_run Sg ops (ms_empty Sg) = Some (st, outs) ->
    (In n (ms_names Sg st) -> ms_step Sg st (MInsert Sg n) = Some (st, MOThrow Sg)) /\
    (~ In n (ms_names Sg st) -> exists st' id, ms_step Sg st (MInsert Sg n) = Some (st', MOItr Sg n id) /\
       forall x, In x (ms_names Sg st') <-> x = n \/ In x (ms_names Sg st)).
Proof. exact thm_insert. Qed.
Print Assumptions C30_duplicate_names_throw.
Example C30_ex :
  let a := String.String (Ascii.ascii_of_nat 97) String.EmptyString in
  let b := String.String (Ascii.ascii_of_nat 98) String.EmptyString in
  exists st outs r next, ms_run Z [MInsert Z b; MAccumulate Z 1; MInsert Z a; MInsert Z b; MAccumulate Z (-1); MRemove Z b 0] (ms_empty Z) = Some (st, outs) /\
    reg_run Z [MInsert Z b; MAccumulate Z 1; MInsert Z a; MInsert Z b; MAccumulate Z (-1); MRemove Z b 0] (fun _ => None) 0 = Some (r, next) /\
    outs = [MOItr Z b 0; MOCalls Z [(0%nat, 1)]; MOItr Z a 1; MOThrow Z; MOCalls Z [(1%nat, -1); (0%nat, -1)]; MODone Z].
Proof. cbv zeta. eexists _, _, _, _. split; [vm_compute; reflexivity|]. split; [cbv; reflexivity|reflexivity]. Qed.

(** C31: rng(n) is in [0, n-1] for every n >= 1 and every double u in [0,1[ of the generator *)
Theorem C31_random_integers_in_range :
  forall (n : Z) (u : R), 1 <= n -> is_double u -> (0 <= u < 1)%R -> 0 <= rng_int n u <= n - 1.
Proof. exact thm_rng_int. Qed.
Print Assumptions C31_random_integers_in_range.
(** C31: and, for powers of two up to 2^53, every value is drawn for some u *)
Theorem C31_random_integers_reached :
  forall k j, 0 <= j -> 0 <= k < 2 ^ j -> j <= 53 -> exists u, is_double u /\ (0 <= u < 1)%R /\ rng_int (2 ^ j) u = k.
Proof. exact thm_rng_int_onto. Qed.
Print Assumptions C31_random_integers_reached.

(** C61: rng(x) is in [0, x[ for every normal x > 0 *)
Theorem C61_random_real_below_bound :
  forall x u, is_double x -> (bpow radix2 (-1021) <= x)%R -> is_double u -> (0 <= u < 1)%R -> (0 <= rng_upto x u < x)%R.
Proof. exact thm_rng_upto. Qed.
Print Assumptions C61_random_real_below_bound.
Example C61_ex : is_double 1000 /\ (bpow radix2 (-1021) <= 1000)%R.
Proof. exact normal_double_ex. Qed.
(** C61: rng(a,b) is in the closed interval, for intervals whose length is a double *)
Theorem C61_random_real_between :
  forall a b u, is_double a -> is_double b -> (a < b)%R -> is_double (b - a) -> is_double u -> (0 <= u < 1)%R -> (a <= rng_between a b u <= b)%R.
Proof. exact thm_rng_between. Qed.
Print Assumptions C61_random_real_between.
(** C61, refuted: the documented half-open interval [a,b[ : b can be returned *)
Theorem C61_random_real_below_b_refuted :
  exists a b u, is_double a /\ is_double b /\ (a < b)%R /\ is_double u /\ (0 <= u < 1)%R /\ rng_between a b u = b.
Proof. exact cex_rng_between. Qed.
Print Assumptions C61_random_real_below_b_refuted.

(** C32: for every buffer size >= 1, every function and every interleaving of calls and
    previews, the answers are those of a cursor on the stream of the function *)
Theorem C32_buffered_function_is_the_stream :
  forall (A G : Type) (gen : G -> A * G) g size ops, (1 <= size)%nat -> Z.of_nat size <= two64 ->
    bf_run A G gen ops (bf_make A G gen size g) = Ok (cursor A (stream A G gen g) ops 0).
Proof. exact thm_buffered. Qed.
Print Assumptions C32_buffered_function_is_the_stream.
(** C32: so the k-th call returns the k-th value, however previews are interleaved *)
Theorem C32_calls_return_consecutive_values :
  forall (A : Type) s ops i,
    map snd (filter (fun e => match fst e with BCall => true | BPreview => false end) (combine ops (cursor A s ops i))) =
    map s (seq i (length (filter (fun o => match o with BCall => true | BPreview => false end) ops))).
Proof. exact cursor_calls. Qed.
Print Assumptions C32_calls_return_consecutive_values.
Example C32_ex : (1 <= 1000)%nat /\ Z.of_nat 1000 <= two64.
Proof. split; [repeat constructor|vm_compute; discriminate]. Qed.
(** C32, refuted for size 0 (and a default-constructed object, documented to throw): the first
    access is out of range *)
Theorem C32_buffer_of_size_0_refuted :
  forall (A G : Type) (gen : G -> A * G) g o ops, bf_run A G gen (o :: ops) (bf_make A G gen 0 g) = UB.
Proof. exact thm_size0. Qed.
Print Assumptions C32_buffer_of_size_0_refuted.

(** C52: from an empty list and without stop(): received() answers true iff more signals were
    delivered than consumed; none is lost, none is reported twice *)
Theorem C52_signals_conserved :
  forall s0 ops s outs p,
    sg_list s0 = [] -> Forall (fun o => o <> SStop) ops -> sg_run ops s0 = Some (s, outs) ->
    exists s', sg_step s (SReceived p) = Some (s', SBool (n_consumed (combine ops outs) <? length (delivered (combine ops outs)))%nat) /\
      (n_consumed (combine ops outs) <= length (delivered (combine ops outs)))%nat.
Proof. exact thm_signals_conserved. Qed.
Print Assumptions C52_signals_conserved.
Example C52_ex : exists s outs, sg_run [SStart; SDeliver 2; SReceived true; SReceived true] sg_initial = Some (s, outs) /\ outs = [SNone; SNone; SBool true; SBool false].
Proof. eexists _, _. split; reflexivity. Qed.
(** C52: the most recent signal is reported first; consuming it restores what was pending *)
Theorem C52_most_recent_first :
  forall s n, sg_handlers s = true ->
    exists s1, sg_step s (SDeliver n) = Some (s1, SNone) /\ sg_step s1 SLast = Some (s1, SInt n) /\
      sg_step s1 SPop = Some (s, SNone) /\ sg_step s1 (SReceived true) = Some (s, SBool true) /\ sg_step s1 (SReceived false) = Some (s1, SBool true).
Proof. exact thm_signal_lifo. Qed.
Print Assumptions C52_most_recent_first.
(** C52: start is idempotent and keeps pending signals, stop forgets them *)
Theorem C52_start_stop :
  forall s,
    (exists s1, sg_step s SStart = Some (s1, SNone) /\ sg_list s1 = sg_list s /\ sg_step s1 SStart = Some (s1, SNone)) /\
    (exists s2, sg_step s SStop = Some (s2, SNone) /\ sg_step s2 (SReceived false) = Some (s2, SBool false) /\ sg_step s2 (SReceived true) = Some (s2, SBool false)).
Proof. exact thm_start_stop. Qed.
Print Assumptions C52_start_stop.
(** C52: once started, no handled signal kills the process any more, not even after stop() *)
Theorem C52_handlers_stay_installed :
  forall ops s s' outs, sg_handlers s = true -> sg_run ops s = Some (s', outs) -> sg_handlers s' = true /\ ~ In SKilled outs.
Proof. exact sg_handlers_keep. Qed.
Print Assumptions C52_handlers_stay_installed.
(** C52, refuted: signals outside of start/stop are not ignored: one delivered after stop() is
    seen by the next run *)
Theorem C52_only_between_start_and_stop_refuted :
  exists s outs, sg_run [SStart; SStop; SDeliver 2; SStart; SReceived false] sg_initial = Some (s, outs) /\ last outs SNone = SBool true.
Proof. exact cex_after_stop. Qed.
Print Assumptions C52_only_between_start_and_stop_refuted.
