(** Properties C16, C17 : imperative_operator computes the action of the operator.
    [meaning (mode l) e] is the linear map of the expression when index number k of the
    fundamental operator set l is mode k (OpExpr.v, Fock.v). *)
From Coq Require Import ZArith NArith List Bool Lia.
From Verif Require Import Base Indices Scalar Fock OpModel OpExpr Hilbert State StateSpec ImpOp ImpOp_run ImpOp_thms ScalarInst.
Import ListNotations.

(** C16.  Full space of at most 17 orbitals, any operator expression over its indices,
    any state, both storage kinds: the call succeeds and the result is the exact image,
    sign included. *)
Theorem C16_full_space_action :
  forall (S : scalar_ops) (L : scalar_laws S) (l : fops) (e : expr S) (st : state S) (d : Z),
  length l <= 17 -> (forall i, uses e i -> In i l) -> hs_dim (length l) = Ok d -> st_ok st -> st_sp st = Full d ->
  exists op r, eval e = Some op /\ imp_run l op st = Ok r /\ st_ok r /\ st_sp r = Full d /\
    forall g, amplitude r g = amp (meaning (mode l) e (st_vec st)) g.
Proof. exact thm_full_space. Qed.
Print Assumptions C16_full_space_action.

(** C16.  The same on a subspace that every term of the operator maps into itself. *)
Theorem C16_subspace_action :
  forall (S : scalar_ops) (L : scalar_laws S) (l : fops) (e : expr S) (st : state S) (op : omap S),
  length l <= 17 -> (forall i, uses e i -> In i l) -> eval e = Some op -> st_ok st ->
  (forall f, In f (basis (st_sp st)) -> (f < 2 ^ 64)%N) ->
  maps_into S l op (st_sp st) (st_sp st) ->
  exists r, imp_run l op st = Ok r /\ st_ok r /\ st_sp r = st_sp st /\
    forall g, amplitude r g = amp (meaning (mode l) e (st_vec st)) g.
Proof. exact thm_subspace. Qed.
Print Assumptions C16_subspace_action.

(** C16.  The same from one subspace to the one its connection map names. *)
Theorem C16_mapped_subspace_action :
  forall (S : scalar_ops) (L : scalar_laws S) (l : fops) (e : expr S) (op : omap S) (hmap : list Z) (subs : list sub_hs)
    (s s' : sub_hs) (n : nat) (st : state S),
  length l <= 17 -> (forall i, uses e i -> In i l) -> eval e = Some op -> st_ok st -> st_sp st = Sub s ->
  (0 <= sub_index s)%Z -> nth_error hmap (Z.to_nat (sub_index s)) = Some (Z.of_nat n) -> nth_error subs n = Some s' ->
  space_ok (Sub s') -> (forall f, In f (basis (Sub s)) -> (f < 2 ^ 64)%N) -> maps_into S l op (Sub s) (Sub s') ->
  exists r, imp_run_map l op hmap subs st = Ok r /\ st_ok r /\ st_sp r = Sub s' /\
    forall g, amplitude r g = amp (meaning (mode l) e (st_vec st)) g.
Proof. exact thm_mapped. Qed.
Print Assumptions C16_mapped_subspace_action.

(** C16.  An operator with an index outside the fundamental operator set is rejected. *)
Theorem C16_unknown_index_throws :
  forall (S : scalar_ops) (L : scalar_laws S) (l : fops) (e : expr S) (op : omap S) (st : state S) m c i d,
  length l <= 64 -> eval e = Some op -> In (m, c) op -> In (mkCop d i) m -> ~ In i l -> imp_run l op st = Throw.
Proof. exact thm_missing. Qed.
Print Assumptions C16_unknown_index_throws.

Definition l3 : fops := map orb (seq 0 3).
(** i c+_0 c_2 + n_1 c+_2 c_0 - 3 *)
Definition e3 : expr GS :=
  ESubS (EAdd (EMulS (EMul (ECdag (orb 0)) (EC (orb 2))) ((0, 1)%Z : GS))
              (EMul (EN (orb 1)) (EMul (ECdag (orb 2)) (EC (orb 0))))) ((3, 0)%Z : GS).
Definition v3 : state GS := mkState (Full 8) (AVec ([(0, 0); (0, 0); (0, 0); (2, 0); (1, 1); (0, 0); (1, 0); (0, 0)]%Z : list GS)).
Example C16_ex : length l3 <= 17 /\ (forall i, uses e3 i -> In i l3) /\ hs_dim (length l3) = Ok 8%Z /\ st_ok v3 /\ st_sp v3 = Full 8 /\
  (match eval e3 with Some op => imp_run l3 op v3 | None => UB end =
   Ok (mkState (Full 8) (AVec ([(0, 0); (-1, 1); (0, 0); (-6, -1); (-3, -3); (0, 0); (-5, 0); (0, 0)]%Z : list GS)))).
Proof.
  split; [apply Nat.leb_le; reflexivity|]. split.
  { assert (H : forall k, (k = 0 \/ k = 1 \/ k = 2) -> In (orb k) l3) by (intros k [->|[->| ->]]; vm_compute; auto).
    intros i Hu. unfold e3 in Hu. cbn [uses] in Hu. intuition (subst; apply H; auto). }
  split; [reflexivity|]. split; [split; [exists 3; split; [lia|reflexivity]|reflexivity]|]. split; [reflexivity|].
  vm_compute; reflexivity.
Qed.

(** C17.  For every number of orbitals from 18 on there is an operator and a state with a
    wrong sign: c_17 on |16, 17> gives + instead of -. *)
Theorem C17_beyond_17_orbitals_refuted :
  forall n, 18 <= n ->
  exists (l : fops) (e : expr ZS) (op : omap ZS) (st r : state ZS) (g : N),
    length l = n /\ NoDup l /\ (forall i, uses e i -> In i l) /\ eval e = Some op /\ st_ok st /\
    (forall f, In f (basis (st_sp st)) -> (f < 2 ^ 18)%N) /\ maps_into ZS l op (st_sp st) (st_sp st) /\
    imp_run l op st = Ok r /\ amplitude r g = 1%Z /\ amp (meaning (mode l) e (st_vec st)) g = (-1)%Z.
Proof. exact cex_18. Qed.
Print Assumptions C17_beyond_17_orbitals_refuted.

(** C17.  What does hold up to 64 orbitals: the sign is right on every space whose Fock
    states occupy only the first 16 orbitals. *)
Theorem C17_low_occupations_partial :
  forall (S : scalar_ops) (L : scalar_laws S) (l : fops) (op : omap S) (st : state S),
  length l <= 64 -> op_ok S l op -> st_ok st ->
  (forall f, In f (basis (st_sp st)) -> (f < 2 ^ 64)%N /\ ((f < 2 ^ 16)%N \/ length l <= 17)) ->
  maps_into S l op (st_sp st) (st_sp st) ->
  exists r, imp_run l op st = Ok r /\ st_ok r /\ st_sp r = st_sp st /\
    forall g, amplitude r g = amp (apply (mode l) op (st_vec st)) g.
Proof. exact thm_imp_run. Qed.
Print Assumptions C17_low_occupations_partial.

(** C16.  The action is only right for normal-ordered monomials: the constructor taking a
    raw monomial gives c c+ the meaning of another operator. *)
Theorem C16_raw_monomial_refuted :
  exists (l : fops) (m : monomial) (st r : state ZS) (g : N), length l = 1 /\ st_ok st /\
    imp_run l (op_raw (S := ZS) 1%Z m) st = Ok r /\
    amplitude r g <> amp (apply (mode l) (op_raw (S := ZS) 1%Z m) (st_vec st)) g.
Proof. exact cex_raw_order. Qed.
Print Assumptions C16_raw_monomial_refuted.
