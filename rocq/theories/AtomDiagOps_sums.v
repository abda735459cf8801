(** Finite sums of scalars. *)
From Coq Require Import List Arith Lia.
From Verif Require Import Scalar AtomDiag AtomDiagSpec.
Import ListNotations.
Local Open Scope nat_scope.

Section Sums.
  Context (S : scalar_ops) (L : scalar_laws S).
  Local Open Scope K_scope.
  Add Ring Kring7 : (sl_ring S L).

  Lemma ks_ext {A} (f g : A -> S) xs : (forall x, In x xs -> f x = g x) -> ksum (map f xs) = ksum (map g xs).
  Proof. intros H. f_equal. apply map_ext_in. exact H. Qed.
  Lemma ks_zero {A} (f : A -> S) xs : (forall x, In x xs -> f x = k0) -> ksum (map f xs) = k0.
  Proof. induction xs as [|x xs IH]; intros H; [reflexivity|]. cbn [map ksum]. rewrite H by (left; reflexivity). rewrite IH by (intros; apply H; right; assumption). ring. Qed.
  Lemma ks_add {A} (f g : A -> S) xs : ksum (map (fun x => f x + g x) xs) = ksum (map f xs) + ksum (map g xs).
  Proof. induction xs as [|x xs IH]; cbn [map ksum]; [ring|]. rewrite IH. ring. Qed.
  Lemma ks_l {A} (c : S) (f : A -> S) xs : ksum (map (fun x => c * f x) xs) = c * ksum (map f xs).
  Proof. induction xs as [|x xs IH]; cbn [map ksum]; [ring|]. rewrite IH. ring. Qed.
  Lemma ks_r {A} (c : S) (f : A -> S) xs : ksum (map (fun x => f x * c) xs) = ksum (map f xs) * c.
  Proof. induction xs as [|x xs IH]; cbn [map ksum]; [ring|]. rewrite IH. ring. Qed.
  Lemma ks_swap {A B} (f : A -> B -> S) xs ys : ksum (map (fun x => ksum (map (f x) ys)) xs) = ksum (map (fun y => ksum (map (fun x => f x y) xs)) ys).
  Proof.
    induction xs as [|x xs IH]; cbn [map ksum]; [symmetry; apply ks_zero; reflexivity|].
    rewrite IH, <- ks_add. reflexivity.
  Qed.
  Lemma ks_conj {A} (f : A -> S) xs : kconj (ksum (map f xs)) = ksum (map (fun x => kconj (f x)) xs).
  Proof. induction xs as [|x xs IH]; cbn [map ksum]; [apply (kconj_0 S L)|]. rewrite (sl_conj_add S L), IH. reflexivity. Qed.

  Lemma ms_ext n (f g : nat -> S) : (forall i, (i < n)%nat -> f i = g i) -> msum S n f = msum S n g.
  Proof. intros H. apply ks_ext. intros i Hi. apply in_seq in Hi. apply H. lia. Qed.
  Lemma ms_zero n (f : nat -> S) : (forall i, (i < n)%nat -> f i = k0) -> msum S n f = k0.
  Proof. intros H. apply ks_zero. intros i Hi. apply in_seq in Hi. apply H. lia. Qed.
  Lemma ms_add n (f g : nat -> S) : msum S n (fun i => f i + g i) = msum S n f + msum S n g.
  Proof. apply ks_add. Qed.
  Lemma ms_l n (c : S) f : msum S n (fun i => c * f i) = c * msum S n f.
  Proof. apply ks_l. Qed.
  Lemma ms_r n (c : S) f : msum S n (fun i => f i * c) = msum S n f * c.
  Proof. apply ks_r. Qed.
  Lemma ms_swap n n' (f : nat -> nat -> S) : msum S n (fun i => msum S n' (f i)) = msum S n' (fun j => msum S n (fun i => f i j)).
  Proof. apply ks_swap. Qed.
  Lemma ms_ks {A} n (f : nat -> A -> S) xs : msum S n (fun i => ksum (map (f i) xs)) = ksum (map (fun x => msum S n (fun i => f i x)) xs).
  Proof. apply ks_swap. Qed.
  Lemma ms_conj n (f : nat -> S) : kconj (msum S n f) = msum S n (fun i => kconj (f i)).
  Proof. apply ks_conj. Qed.
  Lemma ms_S n (f : nat -> S) : msum S (Datatypes.S n) f = msum S n f + f n.
  Proof. unfold msum. rewrite seq_S, map_app, (ksum_app S L). cbn [map ksum]. rewrite Nat.add_0_l. ring. Qed.
  Lemma ms_delta n (f : nat -> S) k : (k < n)%nat -> msum S n (fun i => delta S i k * f i) = f k.
  Proof.
    induction n as [|n IH]; intros Hk; [lia|]. rewrite ms_S. unfold delta. destruct (Nat.eqb_spec n k) as [->|Hne].
    - rewrite ms_zero. { ring. } intros i Hi. unfold delta. destruct (Nat.eqb_spec i k); [lia|]. ring.
    - unfold delta in IH. rewrite IH by lia. ring.
  Qed.
End Sums.
