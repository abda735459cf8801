(** C47 : the continued fraction of pade_approximant. *)
From Coq Require Import List Arith Bool Lia QArith Qcanon.
From Verif Require Import Base Pade Pade_proofs.
Import ListNotations.
Local Open Scope nat_scope.

(** Wherever the fraction has a value at a given point, it is the given value, for every given point that comes before
    the truncation of the fraction (no coefficient before that of the point is small).  The arithmetic is any field. *)
Theorem C47_interpolates : forall (K : field_ops) (small : K -> bool) (zs us a : list K) (j : nat) (v : K),
  field_laws K -> pade K small zs us = Ok a -> j < length zs ->
  (forall p, p < j -> small (nth p a f0) = false) ->
  p_eval K zs a (nth j zs f0) = Ok v -> v = nth j us f0.
Proof. intros K small zs us a j v L Ha Hj Hs H. exact (loop_at K L small zs us a j Ha Hj Hs v H). Qed.
Print Assumptions C47_interpolates.

(** The constructor throws as soon as the first point is repeated, or a later value is zero. *)
Theorem C47_rejects : forall (K : field_ops) (small : K -> bool) (zs us : list K) (j : nat),
  field_laws K -> length zs <= length us -> small (nth 0 us f0) = false -> 1 <= j < length zs ->
  nth j us f0 = f0 \/ nth j zs f0 = nth 0 zs f0 -> pade K small zs us = Throw.
Proof.
  intros K small zs us j L Hl Hs Hj H. unfold pade. destruct (Nat.ltb_spec (length us) (length zs)); [lia|].
  destruct (length zs - 1) as [|n] eqn:E; [lia|]. cbn [g_rows]. rewrite nth_firstn' by lia.
  change (1 - 1) with 0. rewrite Hs.
  enough (G : g_row K zs (firstn (length zs) us) 1 = Throw) by (rewrite G; reflexivity).
  assert (T : g_entry K zs (firstn (length zs) us) 1 j = Throw).
  { unfold g_entry. destruct (Nat.ltb_spec j 1); [lia|]. rewrite !nth_firstn' by lia. change (1 - 1) with 0. unfold gdiv.
    destruct (feqb (nth j us f0) f0) eqn:E1; [reflexivity|]. cbn [bind].
    destruct H as [H|H]; [apply (feqb_false K L) in E1; contradiction|]. rewrite H.
    replace (feqb (fsub (nth 0 zs f0) (nth 0 zs f0)) f0) with true; [reflexivity|]. symmetry. apply (fl_eqb K L).
    destruct (fl_field K L) as [R _ _ _]. destruct R. rewrite Rsub_def. apply Ropp_def. }
  unfold g_row. assert (I : In j (seq 0 (length zs))) by (apply in_seq; lia). revert I.
  assert (NU : forall x, g_entry K zs (firstn (length zs) us) 1 x <> UB).
  { intros x. unfold g_entry, gdiv. destruct (x <? 1); [discriminate|]. destruct (feqb _ _); cbn [bind]; [discriminate|]. destruct (feqb _ _); discriminate. }
  generalize (seq 0 (length zs)). induction l as [|x l IH]; intros I; [destruct I|]. cbn [mapR].
  destruct (g_entry K zs (firstn (length zs) us) 1 x) eqn:Ex; cbn [bind].
  - destruct I as [->|I]; [congruence|]. rewrite (IH I). reflexivity.
  - reflexivity.
  - destruct (NU x Ex).
Qed.
Print Assumptions C47_rejects.

(** rational numbers *)
Definition Qc_ops : field_ops := {| F := Qc; f0 := 0%Qc; f1 := 1%Qc; fadd := Qcplus; fmul := Qcmult; fsub := Qcminus; fopp := Qcopp; fdiv := Qcdiv;
  finv := Qcinv; feqb := fun x y => if Qc_eq_dec x y then true else false |}.
Lemma Qc_laws : field_laws Qc_ops.
Proof. split; [exact Qcft|]. intros x y. cbn. destruct (Qc_eq_dec x y); split; congruence. Qed.
Definition is_zero_Qc (x : Qc) : bool := if Qc_eq_dec x 0%Qc then true else false.

(** Beyond a small coefficient the values are lost: the points 0, 1 with the values 0, 1 give the zero function. *)
Theorem C47_after_truncation_refuted : exists (K : field_ops) (small : K -> bool) (zs us a : list K) (v : K),
  field_laws K /\ (forall x, small x = true <-> x = f0) /\ pade K small zs us = Ok a /\ length zs = 2 /\
  p_eval K zs a (nth 1 zs f0) = Ok v /\ v <> nth 1 us f0.
Proof.
  exists Qc_ops, is_zero_Qc, [0%Qc; 1%Qc], [0%Qc; 1%Qc], [0%Qc; 0%Qc], 0%Qc. split; [exact Qc_laws|]. split; [|split; [|split; [|split]]].
  - intros x. unfold is_zero_Qc. cbn. destruct (Qc_eq_dec x 0%Qc); split; congruence.
  - vm_compute. reflexivity.
  - reflexivity.
  - vm_compute. reflexivity.
  - discriminate.
Qed.
Print Assumptions C47_after_truncation_refuted.

(** the values of 1/(1+z) and a fourth value off this function: the fraction has all four coefficients and takes the
    four values *)
Example C47_ex : let q := fun n d => Q2Qc (Qmake n d) in
  let zs : list Qc_ops := map (fun n => q n 1%positive) [0; 1; 2; 4]%Z in
  let us : list Qc_ops := [q 1%Z 1%positive; q 1%Z 2%positive; q 1%Z 4%positive; q 7%Z 1%positive] in
  exists a, pade Qc_ops is_zero_Qc zs us = Ok a /\ existsb is_zero_Qc a = false /\
  map (fun z => match p_eval Qc_ops zs a z with Ok v => Some (this v) | _ => None end) zs = map (fun u : Qc => Some (this u)) us.
Proof. eexists. split; [vm_compute; reflexivity|]. split; vm_compute; reflexivity. Qed.
