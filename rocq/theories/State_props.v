(** Property C19 : states as vectors. [amplitude st g] is the coefficient of Fock state g. *)
From Coq Require Import ZArith NArith List Bool Lia.
From Verif Require Import Base Indices Scalar Fock Hilbert State StateSpec State_proofs ScalarInst.
Import ListNotations.
Local Open Scope K_scope.

(** C19.  Sum, difference, multiples: amplitudes combine Fock state by Fock state, for both
    storage kinds; the space is unchanged. *)
Theorem C19_addition :
  forall (S : scalar_ops) (L : scalar_laws S) (s t : state S),
  st_ok s -> st_ok t -> st_sp t = st_sp s -> same_kind s t ->
  exists r, st_add s t = Ok r /\ st_ok r /\ st_sp r = st_sp s /\
    forall g, amplitude r g = amplitude s g + amplitude t g.
Proof. exact thm_st_add. Qed.
Print Assumptions C19_addition.
Theorem C19_subtraction :
  forall (S : scalar_ops) (L : scalar_laws S) (s t : state S),
  st_ok s -> st_ok t -> st_sp t = st_sp s -> same_kind s t ->
  exists r, st_sub s t = Ok r /\ st_ok r /\ st_sp r = st_sp s /\
    forall g, amplitude r g = amplitude s g - amplitude t g.
Proof. exact thm_st_sub. Qed.
Print Assumptions C19_subtraction.
Theorem C19_scaling :
  forall (S : scalar_ops) (L : scalar_laws S) (x : S) (s : state S), st_ok s ->
  st_ok (st_scale x s) /\ st_sp (st_scale x s) = st_sp s /\
  forall g, amplitude (st_scale x s) g = amplitude s g * x.
Proof. exact thm_st_scale. Qed.
Print Assumptions C19_scaling.

(** C19.  dot_product is the sum over the Fock states of the space of
    conj(first) * second; both storage kinds agree on it. *)
Theorem C19_dot_product :
  forall (S : scalar_ops) (L : scalar_laws S) (s t : state S),
  st_ok s -> st_ok t -> st_sp t = st_sp s -> same_kind s t ->
  st_dot s t = Ok (ksum (map (fun g => kconj (amplitude s g) * amplitude t g) (basis (st_sp s)))).
Proof. exact thm_st_dot. Qed.
Print Assumptions C19_dot_product.

(** C19.  project keeps the amplitude of every Fock state of the target space and drops
    the others.  A target which is a full space must contain the source space. *)
Theorem C19_projection :
  forall (S : scalar_ops) (L : scalar_laws S) (k : bool) (target : space) (st : state S),
  st_ok st -> space_ok target ->
  (match target with Full _ => forall f, In f (basis (st_sp st)) -> In f (basis target) | Sub _ => True end) ->
  exists r, st_project k target st = Ok r /\ st_ok r /\ st_sp r = target /\
    (forall g, In g (basis target) -> amplitude r g = amplitude st g) /\
    (forall g, ~ In g (basis target) -> amplitude r g = k0).
Proof. exact thm_st_project. Qed.
Print Assumptions C19_projection.

(** C19.  Without that condition the projection of a larger full space onto a smaller
    one writes out of bounds. *)
Theorem C19_projection_to_smaller_full_space_refuted :
  exists (d d' : Z) (st : state ZS), hs_dim 2 = Ok d /\ hs_dim 1 = Ok d' /\ st_sp st = Full d /\ st_ok st /\
    st_project false (Full d') st = UB.
Proof.
  exists 4%Z, 2%Z, (mkState (Full 4) (AVec ([1; 2; 3; 4]%Z : list ZS))).
  split; [reflexivity|]. split; [reflexivity|]. split; [reflexivity|]. split; [|vm_compute; reflexivity].
  split; [exists 2; split; [lia|reflexivity]|reflexivity].
Qed.
Print Assumptions C19_projection_to_smaller_full_space_refuted.

(** Two states which meet the hypotheses: 2 orbitals, map and vector storage. *)
Definition ex_sub : sub_hs := sub_adds (sub_new 0) [1; 2; 3]%N.
Definition ex_s : state GS := mkState (Sub ex_sub) (AMap [(2, (1, 1)%Z : GS); (0, (0, 2)%Z : GS)]%nat).
Definition ex_t : state GS := mkState (Sub ex_sub) (AMap [(1, (5, 0)%Z : GS); (2, (-1, -1)%Z : GS)]%nat).
Example C19_ex : st_ok ex_s /\ st_ok ex_t /\ st_sp ex_t = st_sp ex_s /\ same_kind ex_s ex_t /\
  st_add ex_s ex_t = Ok (mkState (Sub ex_sub) (AMap [(0, (0, 2)%Z : GS); (1, (5, 0)%Z : GS)]%nat)) /\
  st_dot ex_s ex_t = Ok ((-2, 0)%Z : GS).
Proof.
  assert (H : space_ok (Sub ex_sub)).
  { exists 0%Z, [1; 2; 3]%N. split; [repeat constructor; simpl; intuition discriminate|reflexivity]. }
  split; [|split; [|split; [|split; [|split]]]].
  - split; [exact H|]. split; [repeat constructor; simpl; intuition discriminate|repeat constructor].
  - split; [exact H|]. split; [repeat constructor; simpl; intuition discriminate|repeat constructor].
  - reflexivity.
  - exact I.
  - vm_compute. reflexivity.
  - vm_compute. reflexivity.
Qed.
