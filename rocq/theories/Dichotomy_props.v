(** C58: the root finder dichotomy of python/triqs/utility. *)
From Coq Require Import ZArith QArith Qabs List Bool Lia Lqa.
From Verif Require Import Base Dichotomy Dichotomy_proofs.
Local Open Scope Q_scope.

(** C58.  Whatever the function: a returned pair (x, y) is a value y that the function did
    return at x, closer to y_value than the precision.  The function is called at most
    max_loops + 2 times (once if max_loops < 0). *)
Theorem C58_returns_solution :
  forall (f : nat -> Q -> Q) x_init y_value precision delta_x max_loops r calls,
  dichotomy f x_init y_value precision delta_x max_loops = Ok (r, calls) ->
  (calls <= Z.to_nat (max_loops + 1) + 1)%nat /\
  forall x y, r = Some (x, y) -> Qabs (y - y_value) < precision /\ exists k, (k < calls)%nat /\ y = f k x.
Proof. exact dich_sound. Qed.
Print Assumptions C58_returns_solution.

(** With a precision >= 0 the run never divides by zero: there is always a result; x stays
    within (max_loops + 1) * delta_x of the starting point. *)
Theorem C58_always_returns :
  forall (f : nat -> Q -> Q) x_init y_value precision delta_x max_loops, 0 <= precision ->
  exists r calls, dichotomy f x_init y_value precision delta_x max_loops = Ok (r, calls) /\
  forall x y, r = Some (x, y) -> Qabs (x - x_init) <= inject_Z (Z.max 0 (max_loops + 1)) * Qabs delta_x.
Proof. exact dich_total. Qed.
Print Assumptions C58_always_returns.

(** Failure is reported only when all the loops have been used, or when the last value is
    exactly at distance [precision]. *)
Theorem C58_failure :
  forall (f : nat -> Q -> Q) x_init y_value precision delta_x max_loops calls,
  dichotomy f x_init y_value precision delta_x max_loops = Ok (None, calls) ->
  (calls = Z.to_nat (max_loops + 1) + 1)%nat \/
  exists k x, (k < calls)%nat /\ Qabs (f k x - y_value) == precision.
Proof. exact dich_failure. Qed.
Print Assumptions C58_failure.

(** The second case does happen: the exact solution of x = 1/2 is found at the third call and
    reported as a failure when the precision asked is 0. *)
Theorem C58_exact_solution_refuted :
  dichotomy (fun _ x => x) 0 (1 # 2) 0 1 1000 = Ok (None, 3%nat).
Proof. vm_compute. reflexivity. Qed.
Print Assumptions C58_exact_solution_refuted.

Example C58_ex : exists x y, dichotomy (fun _ x => x * x) 0 2 (1 # 100) 1 1000 = Ok (Some (x, y), 7%nat) /\ y == x * x.
Proof. eexists _, _. split; [vm_compute; reflexivity|]. vm_compute. reflexivity. Qed.
