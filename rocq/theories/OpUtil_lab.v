(** Proofs: the labels chosen by get_mkind and set_operator_structure. *)
From Coq Require Import ZArith String Ascii List Bool Reals Lia DecimalString DecimalNat.
From Verif Require Import Base Indices Scalar OpModel OpExpr RealAtom UMatrix OpUtil OpUtilSpec.
Import ListNotations.

Definition mark : ascii := "_"%char.
Fixpoint has (c : ascii) (s : string) : bool := match s with EmptyString => false | String a t => (Ascii.eqb a c || has c t)%bool end.
Lemma has_app c s t : has c (s ++ t)%string = (has c s || has c t)%bool.
Proof. induction s as [|a s IH]; cbn; [reflexivity|]. rewrite IH, Bool.orb_assoc. reflexivity. Qed.
Lemma has_uint d : has mark (NilEmpty.string_of_uint d) = false.
Proof. induction d as [|d IH|d IH|d IH|d IH|d IH|d IH|d IH|d IH|d IH|d IH]; cbn; try rewrite IH; reflexivity. Qed.
Lemma split_mark s s' x x' : has mark x = false -> has mark x' = false -> (s ++ String mark x = s' ++ String mark x')%string -> s = s' /\ x = x'.
Proof.
  intros Hx Hx'. revert s'. induction s as [|a s IH]; intros [|a' s'] E; cbn in E.
  - injection E as ->. auto.
  - injection E as Ea Ex. rewrite Ex, has_app in Hx. cbn in Hx. rewrite Bool.orb_true_r in Hx. discriminate.
  - injection E as Ea Ex. rewrite <- Ex, has_app in Hx'. cbn in Hx'. rewrite Bool.orb_true_r in Hx'. discriminate.
  - injection E as -> E. destruct (IH s' E) as [-> ->]. auto.
Qed.
Lemma show_inj n m : show n = show m -> n = m.
Proof.
  intros E. apply Unsigned.to_uint_inj. unfold show in E.
  assert (H : NilEmpty.uint_of_string (NilEmpty.string_of_uint (Nat.to_uint n)) = NilEmpty.uint_of_string (NilEmpty.string_of_uint (Nat.to_uint m))) by (rewrite E; reflexivity).
  rewrite !NilEmpty.usu in H. congruence.
Qed.

Definition lab_block (s : string) (a : nat) : indices := [LStr s; LInt (Z.of_nat a)].
Definition lab_scalar (s : string) (a : nat) : indices := [LStr (s ++ "_" ++ show a); LInt 0].
Lemma labelled_block spins n : NoDup spins -> labelled (Some true) None spins n lab_block.
Proof.
  intros HN. split; [eexists; split; [reflexivity|reflexivity]|]. split; [exact HN|].
  intros s a s' a' _ _ _ _ E. injection E as -> E. split; [reflexivity|lia].
Qed.
Lemma labelled_scalar spins n : NoDup spins -> labelled (Some false) None spins n lab_scalar.
Proof.
  intros HN. split; [eexists; split; [reflexivity|reflexivity]|]. split; [exact HN|].
  intros s a s' a' _ _ _ _ E. unfold lab_scalar in E. injection E as E.
  destruct (split_mark s s' (show a) (show a') (has_uint _) (has_uint _) E) as [-> E']. split; [reflexivity|apply show_inj; exact E'].
Qed.
Lemma labelled_dict off d spins n lab : NoDup spins -> (forall s a, In s spins -> (a < n)%nat -> find d s a = Ok (lab s a)) ->
  (forall s a s' a', In s spins -> In s' spins -> (a < n)%nat -> (a' < n)%nat -> lab s a = lab s' a' -> s = s' /\ a = a') ->
  labelled off (Some d) spins n lab.
Proof. intros HN Hf HD. split; [|split; assumption]. eexists. split; [reflexivity|]. exact Hf. Qed.

(** the blocks of set_operator_structure and the labels of get_mkind *)
Definition structure_labels (gs : list (string * nat)) : list indices :=
  flat_map (fun b => map (fun i => [LStr (fst b); LInt (Z.of_nat i)]) (seq 0 (snd b))) gs.
Lemma structure_block spins n i :
  In i (structure_labels (set_operator_structure spins n true)) <-> exists s a, In s spins /\ (a < n)%nat /\ i = lab_block s a.
Proof.
  unfold structure_labels, set_operator_structure. rewrite in_flat_map. split.
  - intros ((b & m) & Hb & Hi). apply in_map_iff in Hb. destruct Hb as (s & E & Hs). injection E as <- <-. cbn [fst snd] in Hi.
    apply in_map_iff in Hi. destruct Hi as (a & <- & Ha). apply in_seq in Ha. exists s, a. repeat split; [exact Hs|lia].
  - intros (s & a & Hs & Ha & ->). exists (s, n). split; [apply in_map_iff; exists s; auto|]. apply in_map_iff. exists a. split; [reflexivity|apply in_seq; cbn; lia].
Qed.
Lemma structure_scalar spins n i :
  In i (structure_labels (set_operator_structure spins n false)) <-> exists s a, In s spins /\ (a < n)%nat /\ i = lab_scalar s a.
Proof.
  unfold structure_labels, set_operator_structure. rewrite in_flat_map. split.
  - intros ((b & m) & Hb & Hi). apply in_map_iff in Hb. destruct Hb as ((s & a) & E & Hs). cbn [fst snd] in E. injection E as <- <-. cbn [fst snd] in Hi.
    apply in_map_iff in Hi. destruct Hi as (z & <- & Hz). apply in_seq in Hz. assert (z = 0)%nat as -> by lia. apply in_prod_iff in Hs. rewrite in_seq in Hs.
    exists s, a. repeat split; [tauto|lia].
  - intros (s & a & Hs & Ha & ->). exists ((s ++ "_" ++ show a)%string, 1%nat). split.
    + apply in_map_iff. exists (s, a). split; [reflexivity|]. apply in_prod_iff. rewrite in_seq. split; [exact Hs|lia].
    + cbn. left. reflexivity.
Qed.
