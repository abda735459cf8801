(** Properties C27, C28, C29, C60: Monte Carlo runs.

    A run is observed through its trace: every call to user code and every random number.
    The moves, measures, callbacks and generator are arbitrary functions on an arbitrary
    world W, signals arrive at arbitrary times ([arrive]); see McTools.v.  Specification of
    the traces: [step_trace] (one attempted move), [full_cycle], [cut_cycle], [trace_sign]. *)
From Coq Require Import ZArith Reals List Bool.
From Verif Require Import McTools McTools_proofs.
Import ListNotations.
Local Open Scope Z_scope.

(** C27: the trace of a run that returns is a sequence of complete cycles of L attempted
    moves; only the last one can be cut short, and only by a signal.  current_cycle_number
    grows by the number NC of cycles, the measures were accumulated once per complete cycle,
    and the status says why the run ended *)
Theorem C27_run_structure_and_status :
  forall W Sg Ratio smul classify moves rng measures auxs duty stop_callback arrive emerg rethrow has_env fuel n L dm s st s',
    n <> 0 ->
    run W Sg Ratio smul classify moves rng measures auxs duty stop_callback arrive emerg rethrow has_env fuel n L dm s = RReturn _ _ _ st s' ->
    exists (full : list (list (event Sg Ratio))) (last : list (event Sg Ratio)) (b : bool),
      let NC := Z.of_nat (length full) + 1 in
      mc_trace _ _ _ s' = mc_trace _ _ _ s ++ concat (map (fun c => c ++ [EStop _ _ false]) full) ++ last ++ [EStop _ _ b] /\
      Forall (full_cycle W Sg Ratio classify moves measures auxs duty L dm) full /\
      (full_cycle W Sg Ratio classify moves measures auxs duty L dm last /\ mc_nmeas _ _ _ s' = (if dm then NC else 0) \/
       cut_cycle W Sg Ratio classify moves L last /\ signalled W Sg Ratio arrive s s' /\ mc_nmeas _ _ _ s' = if dm then NC - 1 else 0) /\
      mc_cycle _ _ _ s' = mc_cycle _ _ _ s + NC /\
      (0 < n -> NC <= n) /\
      (st = 0 /\ NC = n \/
       st = 1 /\ NC <> n /\ b = true /\ ~ signalled W Sg Ratio arrive s s' \/
       st = 2 /\ NC <> n /\ signalled W Sg Ratio arrive s s').
Proof. exact thm_run_structure. Qed.
Print Assumptions C27_run_structure_and_status.

(** C27: numbers: each measure is called nmeasures() times; without a signal a run of NC cycles
    decided exactly L*NC moves and, if measuring, accumulated NC times *)
Theorem C27_run_numbers :
  forall W Sg Ratio smul classify moves rng measures auxs duty stop_callback arrive emerg rethrow has_env fuel n L dm s st s',
    n <> 0 ->
    run W Sg Ratio smul classify moves rng measures auxs duty stop_callback arrive emerg rethrow has_env fuel n L dm s = RReturn _ _ _ st s' ->
    exists t, mc_trace _ _ _ s' = mc_trace _ _ _ s ++ t /\
      (forall j, (j < length measures)%nat -> count Sg Ratio (is_measure Sg Ratio j) t = mc_nmeas _ _ _ s') /\
      (dm = false -> mc_nmeas _ _ _ s' = 0) /\
      let NC := mc_cycle _ _ _ s' - mc_cycle _ _ _ s in
      (~ signalled W Sg Ratio arrive s s' -> count Sg Ratio (is_decided Sg Ratio) t = Z.of_nat L * NC /\ (dm = true -> mc_nmeas _ _ _ s' = NC)).
Proof. exact thm_run_numbers. Qed.
Print Assumptions C27_run_numbers.

(** C27: a run of n >= 0 cycles ends within n cycles *)
Theorem C27_run_terminates :
  forall W Sg Ratio smul classify moves rng measures auxs duty stop_callback arrive emerg rethrow has_env fuel n L dm s,
    0 <= n -> (Z.to_nat n <= fuel)%nat ->
    run W Sg Ratio smul classify moves rng measures auxs duty stop_callback arrive emerg rethrow has_env fuel n L dm s <> ROutOfFuel _ _ _.
Proof. exact thm_run_terminates. Qed.
Print Assumptions C27_run_terminates.

(** C27: with non-negative weights of positive sum and numbers in [0,1[, a run of at most
    INT_MAX cycles has no undefined behaviour, unless an exception is thrown while the run
    is asked to rethrow and there is no MPI environment *)
Theorem C27_run_safe :
  forall W Sg Ratio smul classify moves rng measures auxs duty stop_callback arrive emerg rethrow has_env fuel n L dm s,
    good_moves W Sg Ratio moves rng ->
    (no_throw W Sg Ratio classify moves measures auxs duty \/ rethrow = false \/ has_env = true) -> 0 <= n <= INT_MAX ->
    run W Sg Ratio smul classify moves rng measures auxs duty stop_callback arrive emerg rethrow has_env fuel n L dm s <> RUB _ _ _.
Proof. exact thm_run_safe. Qed.
Print Assumptions C27_run_safe.

(** C27: and it returns when user code does not throw (single node) *)
Theorem C27_run_returns :
  forall W Sg Ratio smul classify moves rng measures auxs duty stop_callback arrive emerg rethrow has_env fuel n L dm s,
    good_moves W Sg Ratio moves rng -> no_throw W Sg Ratio classify moves measures auxs duty ->
    rethrow && has_env = false -> 0 <= n <= INT_MAX -> (Z.to_nat n <= fuel)%nat ->
    exists st s', run W Sg Ratio smul classify moves rng measures auxs duty stop_callback arrive emerg rethrow has_env fuel n L dm s = RReturn _ _ _ st s'.
Proof. exact thm_run_returns. Qed.
Print Assumptions C27_run_returns.

(** the hypotheses above are met by a simulation with one move, one measure, 3 cycles of 2 moves *)
Example C27_ex :
  good_moves unit R dbl toy_moves (fun w => (0%R, w)) /\
  no_throw unit R dbl classify_double toy_moves [fun _ w => (true, w)] [] None /\
  exists st s', run unit R dbl Rmult classify_double toy_moves (fun w => (0%R, w)) [fun _ w => (true, w)] [] None (fun w => (false, w)) (fun _ => []) (fun _ => false) false false 3 3 2 true toy_state = RReturn _ _ _ st s'.
Proof. exact (conj toy_good (conj toy_no_throw toy_returns)). Qed.

(** C27: warmup_and_accumulate does not measure during the warmup and accumulates only if the
    warmup completed *)
Theorem C27_warmup_and_accumulate :
  forall W Sg Ratio smul classify moves rng measures auxs duty stop_callback arrive emerg rethrow has_env fuel nw na L si s st s',
    warmup_and_accumulate W Sg Ratio smul classify moves rng measures auxs duty stop_callback arrive emerg rethrow has_env fuel nw na L si s = RReturn _ _ _ st s' ->
    nw <> 0 -> na <> 0 ->
    let s0 := match si with Some x => set_sign _ _ _ s x | None => s end in
    exists stw sw,
      run W Sg Ratio smul classify moves rng measures auxs duty stop_callback arrive emerg rethrow has_env fuel nw L false s0 = RReturn _ _ _ stw sw /\
      (exists t, mc_trace _ _ _ sw = mc_trace _ _ _ s ++ t /\ forall j, (j < length measures)%nat -> count Sg Ratio (is_measure Sg Ratio j) t = 0) /\
      (stw <> 0 /\ st = stw /\ s' = sw \/
       stw = 0 /\ run W Sg Ratio smul classify moves rng measures auxs duty stop_callback arrive emerg rethrow has_env fuel na L true sw = RReturn _ _ _ st s').
Proof. exact thm_warmup. Qed.
Print Assumptions C27_warmup_and_accumulate.

(** C27, refuted parts: status 0 does not mean that every cycle was completed (a signal in the
    last cycle cuts it), *)
Theorem C27_status_0_means_complete_refuted :
  exists (moves : list (umove unit R dbl)) (measures : list (R -> unit -> bool * unit)) arrive s s',
    run unit R dbl Rmult classify_double moves (fun w => (0%R, w)) measures [] None (fun w => (false, w)) arrive (fun _ => false) true true 1 1 1 true s = RReturn _ _ _ 0 s' /\
    length measures = 1%nat /\ mc_trace _ _ _ s' = [EStop _ _ false] /\ mc_nmeas _ _ _ s' = 0.
Proof. exact cex_status. Qed.
Print Assumptions C27_status_0_means_complete_refuted.
(** an exception without MPI environment is undefined behaviour (null monitor), *)
Theorem C27_exception_reported_without_mpi_refuted :
  exists (moves : list (umove unit R dbl)) s,
    run unit R dbl Rmult classify_double moves (fun w => (0%R, w)) [] [] None (fun w => (false, w)) (fun _ => []) (fun _ => false) true false 1 1 1 true s = RUB _ _ _.
Proof. exact cex_null_monitor. Qed.
Print Assumptions C27_exception_reported_without_mpi_refuted.
(** and a run of more than INT_MAX cycles that nothing stops never returns: the int counter
    overflows *)
Theorem C27_more_than_int_max_cycles_refuted :
  forall W Sg Ratio smul classify moves rng measures auxs duty stop_callback arrive emerg rethrow has_env fuel n L dm s,
    (forall w, fst (stop_callback w) = false) -> (forall p, arrive p = []) ->
    (rethrow && has_env = false) -> mc_sig _ _ _ s = [] -> INT_MAX < n ->
    forall st s', run W Sg Ratio smul classify moves rng measures auxs duty stop_callback arrive emerg rethrow has_env fuel n L dm s <> RReturn _ _ _ st s'.
Proof. exact thm_run_overflow. Qed.
Print Assumptions C27_more_than_int_max_cycles_refuted.

(** C28: however the run ends, the final sign, and the sign given to every measure, is the
    initial sign times the product of (sign of the ratio * value of accept()) over the accepted
    moves so far; see [trace_sign] *)
Theorem C28_sign_is_running_product :
  forall W Sg Ratio smul classify moves rng measures auxs duty stop_callback arrive emerg rethrow has_env fuel n L dm s r s',
    run W Sg Ratio smul classify moves rng measures auxs duty stop_callback arrive emerg rethrow has_env fuel n L dm s = r -> final W Sg Ratio r s' ->
    exists t, mc_trace _ _ _ s' = mc_trace _ _ _ s ++ t /\
      mc_sign _ _ _ s' = trace_sign Sg Ratio smul classify (mc_sign _ _ _ s) t /\
      forall p j x ok q, t = p ++ EMeasure _ _ j x ok :: q -> x = trace_sign Sg Ratio smul classify (mc_sign _ _ _ s) p.
Proof. exact thm_run_sign. Qed.
Print Assumptions C28_sign_is_running_product.
(** C28: a ratio above the threshold is |r| times its sign (real and complex) *)
Theorem C28_ratio_is_modulus_times_sign :
  (forall r, (1 / 10 ^ 14 < Rabs r)%R ->
     exists s, classify_double (Fin r) = Some (Rabs r, s) /\ r = (Rabs r * s)%R /\ ((0 < r)%R -> s = 1%R) /\ ((r < 0)%R -> s = (-1)%R)) /\
  (forall z, (1 / 10 ^ 14 < cabs z)%R ->
     exists s, classify_complex (Some z) = Some (cabs z, s) /\ cabs s = 1%R /\ z = (cabs z * fst s, cabs z * snd s)%R).
Proof. exact (conj thm_classify_double thm_classify_complex). Qed.
Print Assumptions C28_ratio_is_modulus_times_sign.
Example C28_ratio_ex : (1 / 10 ^ 14 < Rabs (- (1 / 2)))%R.
Proof. rewrite Rabs_Ropp, Rabs_right; Lra.lra. Qed.
(** C28: infinite ratios are always accepted, with their sign; NaN throws *)
Theorem C28_infinite_ratios :
  forall v, (v < 1)%R ->
    classify_double PInf = Some (100%R, 1%R) /\ classify_double NInf = Some (100%R, (-1)%R) /\ classify_double NaN = None /\ (v < Rmin 1 100)%R.
Proof. exact thm_classify_inf. Qed.
Print Assumptions C28_infinite_ratios.
(** C28: a nested move set given as a move reports |r|: its outer sign is +1 *)
Theorem C28_nested_move_set : forall r, classify_double (Fin (Rabs r)) = Some (Rabs r, 1%R).
Proof. exact thm_nested. Qed.
Print Assumptions C28_nested_move_set.
(** C28, refuted below the threshold: a tiny negative ratio can be accepted with sign +1 *)
Theorem C28_sign_of_tiny_ratio_refuted :
  exists r v, (r < 0)%R /\ (0 <= v)%R /\ (v < Rmin 1 (Rabs r))%R /\ classify_double (Fin r) = Some (Rabs r, 1%R).
Proof. exact cex_tiny_ratio. Qed.
Print Assumptions C28_sign_of_tiny_ratio_refuted.

(** C29: the move selected by u is the one whose cumulative interval contains u;
    cum ws k = (w_0 + ... + w_(k-1)) / sum *)
Theorem C29_selected_iff_in_interval :
  forall ws u k, Forall (fun w => (0 <= w)%R) ws -> (0 < sum_list ws)%R -> (0 <= u < 1)%R ->
    (pick (normalise (0%R :: ws)) u = Some k <-> (k < length ws)%nat /\ (cum ws k <= u < cum ws (S k))%R).
Proof. exact thm_pick. Qed.
Print Assumptions C29_selected_iff_in_interval.
(** C29: the length of that interval is the normalised weight *)
Theorem C29_interval_is_weight :
  forall ws k, (k < length ws)%nat -> (cum ws (S k) - cum ws k = nth k ws 0 / sum_list ws)%R.
Proof. exact thm_pick_weight. Qed.
Print Assumptions C29_interval_is_weight.
(** C29: some move is always selected *)
Theorem C29_always_selects :
  forall ws u, Forall (fun w => (0 <= w)%R) ws -> (0 < sum_list ws)%R -> (0 <= u < 1)%R ->
    exists k, pick (normalise (0%R :: ws)) u = Some k /\ (k < length ws)%nat.
Proof. exact thm_pick_exists. Qed.
Print Assumptions C29_always_selects.
(** C29: even if rounding perturbs the cumulative table *)
Theorem C29_always_selects_with_rounding :
  forall acc u, (2 <= length acc)%nat -> nth 0 acc 0%R = 0%R -> (1 <= nth (length acc - 1) acc 0)%R -> (0 <= u < 1)%R ->
    exists k, pick acc u = Some k /\ (S k < length acc)%nat.
Proof. exact thm_pick_safe. Qed.
Print Assumptions C29_always_selects_with_rounding.
Example C29_ex : Forall (fun w => (0 <= w)%R) [1; 0; 3]%R /\ (0 < sum_list [1; 0; 3])%R.
Proof. split; [repeat constructor; Lra.lra|cbn; Lra.lra]. Qed.
(** C29: however the run ends, the statistics count the attempts and acceptances of this run *)
Theorem C29_statistics :
  forall W Sg Ratio smul classify moves rng measures auxs duty stop_callback arrive emerg rethrow has_env fuel n L dm s r s',
    run W Sg Ratio smul classify moves rng measures auxs duty stop_callback arrive emerg rethrow has_env fuel n L dm s = r -> final W Sg Ratio r s' ->
    exists t, mc_trace _ _ _ s' = mc_trace _ _ _ s ++ t /\
      mc_config _ _ _ s' = mc_config _ _ _ s + count Sg Ratio (is_decided Sg Ratio) t /\
      (forall k, (k < length moves)%nat ->
         nth_error (mc_prop _ _ _ s') k = Some (count Sg Ratio (is_attempt Sg Ratio k) t) /\
         nth_error (mc_acc _ _ _ s') k = Some (count Sg Ratio (is_accept Sg Ratio k) t)).
Proof. exact thm_run_counts. Qed.
Print Assumptions C29_statistics.
(** C29: the acceptance rate over all nodes is total accepted / total proposed, in [0,1] *)
Theorem C29_acceptance_rate :
  forall nodes, Forall (fun n => 0 <= fst n <= snd n) nodes -> Exists (fun n => 0 < snd n) nodes ->
    exists r, acceptance_rate nodes = Some r /\ (0 <= r <= 1)%R /\
      (r * IZR (fold_right (fun n a => snd n + a)%Z 0%Z nodes) = IZR (fold_right (fun n a => fst n + a)%Z 0%Z nodes))%R.
Proof. exact thm_acceptance_rate. Qed.
Print Assumptions C29_acceptance_rate.
Example C29_nodes_ex : Forall (fun n => 0 <= fst n <= snd n) [(1, 3); (0, 0)] /\ Exists (fun n => 0 < snd n) [(1, 3); (0, 0)].
Proof. split; [repeat constructor; discriminate|left; reflexivity]. Qed.

(** C60: Metropolis rule.  Every accept() of move k in the trace directly follows a draw u that
    selects k, the attempt of k with ratio r, and a draw v < min(1,|r|); every reject() the same
    with v >= min(1,|r|) *)
Theorem C60_metropolis_rule :
  forall W Sg Ratio smul classify moves rng measures auxs duty stop_callback arrive emerg rethrow has_env fuel n L dm s st s',
    n <> 0 ->
    run W Sg Ratio smul classify moves rng measures auxs duty stop_callback arrive emerg rethrow has_env fuel n L dm s = RReturn _ _ _ st s' ->
    exists t, mc_trace _ _ _ s' = mc_trace _ _ _ s ++ t /\
      forall p e q, t = p ++ e :: q ->
        let decided k (P : R -> R -> Prop) :=
          exists p' u r v ratio sg, p = p' ++ [EDraw _ _ u; EAttempt _ _ k (Some r); EDraw _ _ v] /\
            classify r = Some (ratio, sg) /\ pick (acc_sums W Sg Ratio moves) u = Some k /\ P v ratio in
        match e with
        | EAccept _ _ k _ => decided k (fun v ratio => (v < Rmin 1 ratio)%R)
        | EReject _ _ k _ => decided k (fun v ratio => ~ (v < Rmin 1 ratio)%R)
        | _ => True
        end.
Proof. exact thm_run_metropolis. Qed.
Print Assumptions C60_metropolis_rule.
