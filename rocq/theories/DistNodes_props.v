(** Property C95: computing a stack of points with DistributionOnNodesOneStack on one process *)
From Coq Require Import List Bool Arith Lia.
From Verif Require Import Base DistNodes.
Import ListNotations.

(** what the documentation promises of the results for a list of points: None is skipped, any other point gives
    one result, computed on node 0, in the order of the points *)
Inductive answers {A B} (f : A -> res (option B)) : list (option A) -> list (nat * option B) -> Prop :=
| ans_end : answers f [] []
| ans_skip : forall s r, answers f s r -> answers f (None :: s) r
| ans_point : forall x y s r, f x = Ok y -> answers f s r -> answers f (Some x :: s) ((0, y) :: r).

Lemma run_from : forall (A B : Type) (f : A -> res (option B)) s fuel done, length s < fuel -> (forall x, f x <> UB) ->
  (exists r, run_one fuel f (mkDist (rev s) done) = Some (Ok (mkDist [] (done ++ r))) /\ answers f s r) \/
  (run_one fuel f (mkDist (rev s) done) = Some Throw /\ exists pre x post r, s = pre ++ Some x :: post /\ answers f pre r /\ f x = Throw).
Proof.
  intros A B f s. induction s as [|p s IH]; intros fuel done Hf U; (destruct fuel as [|k]; [cbn in Hf; lia|]).
  - left. exists []. cbn. rewrite app_nil_r. split; [reflexivity|constructor].
  - assert (F : finished (@mkDist A B (rev (p :: s)) done) = false) by (unfold finished; cbn; destruct (rev s); reflexivity).
    assert (X : next_point (@mkDist A B (rev (p :: s)) done) = Ok (p, mkDist (rev s) done)) by (unfold next_point; cbn [d_left d_result]; rewrite rev_involutive; reflexivity).
    assert (Hk : length s < k) by (cbn in Hf; lia). cbn [run_one]. rewrite F, X. destruct p as [x|].
    + destruct (f x) as [v| |] eqn:E.
      * unfold treate; cbn [d_left d_result]. destruct (IH k (done ++ [(0, v)]) Hk U) as [(r & H & K)|(H & pre & x' & post & r & K1 & K2 & K3)].
        -- left. exists ((0, v) :: r). rewrite H, <- app_assoc. split; [reflexivity|constructor; assumption].
        -- right. split; [exact H|]. exists (Some x :: pre), x', post, ((0, v) :: r). subst s. split; [reflexivity|]. split; [constructor; assumption|exact K3].
      * right. split; [reflexivity|]. exists [], x, s, []. split; [reflexivity|]. split; [constructor|exact E].
      * destruct (U x E).
    + destruct (IH k done Hk U) as [(r & H & K)|(H & pre & x' & post & r & K1 & K2 & K3)].
      * left. exists r. split; [exact H|constructor; exact K].
      * right. split; [exact H|]. exists (None :: pre), x', post, r. subst s. split; [reflexivity|]. split; [constructor; exact K2|exact K3].
Qed.

(** C95: run terminates; every point other than None is computed exactly once and its result is recorded in the order
    of the stack, unless the function raises on a point that is reached: then run raises.  Afterwards the list that the
    caller passed is empty. *)
Theorem C95_run : forall (A B : Type) (f : A -> res (option B)) (stack : list (option A)) fuel, length stack < fuel -> (forall x, f x <> UB) ->
  (exists d, run_one fuel f (make_dist stack) = Some (Ok d) /\ answers f stack (d_result d) /\ d_left d = []) \/
  (run_one fuel f (make_dist stack) = Some Throw /\ exists pre x post r, stack = pre ++ Some x :: post /\ answers f pre r /\ f x = Throw).
Proof.
  intros A B f stack fuel Hf U. destruct (run_from A B f stack fuel [] Hf U) as [(r & H & K)|H]; [left|right; exact H].
  eexists. split; [exact H|]. split; [exact K|reflexivity].
Qed.
Print Assumptions C95_run.

(** C95: a function that does not raise on the points of the stack is computed on all of them *)
Theorem C95_all_points : forall (A B : Type) (g : A -> option B) (points : list A) fuel, length points < fuel ->
  exists d, run_one fuel (fun x => Ok (g x)) (make_dist (map Some points)) = Some (Ok d) /\ d_result d = map (fun x => (0, g x)) points.
Proof.
  intros A B g points fuel Hf. destruct (C95_run A B (fun x => Ok (g x)) (map Some points) fuel) as [(d & H & K & _)|(_ & pre & x & post & r & _ & _ & E)]; [rewrite map_length; exact Hf|discriminate| |discriminate E].
  exists d. split; [exact H|]. clear H Hf. revert K. generalize (d_result d). induction points as [|x l IH]; intros r K; inversion K; subst; [reflexivity|]. cbn. f_equal; [congruence|apply IH; assumption].
Qed.
Print Assumptions C95_all_points.

(** The class says that a result None is ignored; it is recorded. *)
Theorem C95_none_ignored_refuted : exists (f : nat -> res (option nat)) (stack : list (option nat)) d,
  run_one 5 f (make_dist stack) = Some (Ok d) /\ In (0, None) (d_result d).
Proof. exists (fun _ => Ok None), [Some 1], (mkDist [] [(0, None)]). split; [reflexivity|left; reflexivity]. Qed.
Print Assumptions C95_none_ignored_refuted.

(** a stack with None in the middle *)
Example dist_example : run_one 4 (fun x => Ok (Some (x + 1))) (make_dist [Some 7; None; Some 9]) = Some (Ok (mkDist [] [(0, Some 8); (0, Some 10)])).
Proof. reflexivity. Qed.
(** a function that raises on 9 *)
Example dist_example_throw : run_one 4 (fun x => if x =? 9 then Throw else Ok (Some x)) (make_dist [Some 7; None; Some 9]) = Some Throw.
Proof. reflexivity. Qed.
