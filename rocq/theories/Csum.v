(** Finite sums of complex numbers. *)
From Coq Require Import ZArith NArith List Bool Reals Lra Lia Permutation.
From Coquelicot Require Import Coquelicot.
From Verif Require Import Base Scalar ThermalSpec.
Import ListNotations.
Local Open Scope C_scope.

Lemma csum_ext {A} (f g : A -> C) xs : (forall x, In x xs -> f x = g x) -> csum xs f = csum xs g.
Proof. induction xs as [|x xs IH]; intros H; [reflexivity|]. cbn [csum fold_right]. rewrite (H x (or_introl eq_refl)). fold (csum xs f) (csum xs g). rewrite IH by (intros; apply H; right; assumption). reflexivity. Qed.
Lemma csum_cons {A} (f : A -> C) x xs : csum (x :: xs) f = f x + csum xs f.
Proof. reflexivity. Qed.
Lemma csum_zero {A} (f : A -> C) xs : (forall x, In x xs -> f x = RtoC 0) -> csum xs f = RtoC 0.
Proof. induction xs as [|x xs IH]; intros H; [reflexivity|]. rewrite csum_cons, (H x (or_introl eq_refl)), IH by (intros; apply H; right; assumption). ring. Qed.
Lemma csum_add {A} (f g : A -> C) xs : csum xs (fun x => f x + g x) = csum xs f + csum xs g.
Proof. induction xs as [|x xs IH]; [unfold csum; cbn [app fold_right]; ring|]. rewrite !csum_cons, IH. ring. Qed.
Lemma csum_l {A} c (f : A -> C) xs : csum xs (fun x => c * f x) = c * csum xs f.
Proof. induction xs as [|x xs IH]; [unfold csum; cbn [app fold_right]; ring|]. rewrite !csum_cons, IH. ring. Qed.
Lemma csum_r {A} c (f : A -> C) xs : csum xs (fun x => f x * c) = csum xs f * c.
Proof. induction xs as [|x xs IH]; [unfold csum; cbn [app fold_right]; ring|]. rewrite !csum_cons, IH. ring. Qed.
Lemma csum_swap {A B} (f : A -> B -> C) xs ys : csum xs (fun x => csum ys (f x)) = csum ys (fun y => csum xs (fun x => f x y)).
Proof.
  induction xs as [|x xs IH]; [symmetry; apply csum_zero; reflexivity|]. rewrite csum_cons, IH, <- csum_add. reflexivity.
Qed.
Lemma csum_app {A} (f : A -> C) xs ys : csum (xs ++ ys) f = csum xs f + csum ys f.
Proof. induction xs as [|x xs IH]; [unfold csum; cbn [app fold_right]; ring|]. cbn [app]. rewrite !csum_cons, IH. ring. Qed.
Lemma csum_perm {A} (f : A -> C) xs ys : Permutation xs ys -> csum xs f = csum ys f.
Proof. induction 1; rewrite ?csum_cons; [reflexivity|congruence|ring|congruence]. Qed.
Lemma csum_flat {A B} (f : B -> C) (g : A -> list B) xs : csum (flat_map g xs) f = csum xs (fun x => csum (g x) f).
Proof. induction xs as [|x xs IH]; [reflexivity|]. cbn [flat_map]. rewrite csum_app, csum_cons, IH. reflexivity. Qed.
Lemma csum_map {A B} (f : B -> C) (g : A -> B) xs : csum (map g xs) f = csum xs (fun x => f (g x)).
Proof. induction xs as [|x xs IH]; [reflexivity|]. cbn [map]. rewrite !csum_cons, IH. reflexivity. Qed.
Lemma csum_nth {A} (f : A -> C) (d : A) xs : csum xs f = csum (seq 0 (length xs)) (fun k => f (nth k xs d)).
Proof.
  induction xs as [|x xs IH]; [reflexivity|]. cbn [length seq]. rewrite !csum_cons, <- seq_shift, csum_map, IH. reflexivity.
Qed.
Lemma csum_single (f : nat -> C) n k : (k < n)%nat -> (forall i, (i < n)%nat -> i <> k -> f i = RtoC 0) -> csum (seq 0 n) f = f k.
Proof.
  intros Hk H. assert (G : forall m s, (forall i, (s <= i < s + m)%nat -> i <> k -> f i = RtoC 0) -> (s <= k < s + m)%nat -> csum (seq s m) f = f k).
  { induction m as [|m IH]; intros s Hs Hr; [lia|]. cbn [seq]. rewrite csum_cons. destruct (Nat.eq_dec s k) as [->|Hne].
    - rewrite csum_zero; [ring|]. intros x Hx. apply in_seq in Hx. apply Hs; lia.
    - rewrite (Hs s) by lia. rewrite IH; [ring|intros; apply Hs; lia|lia]. }
  apply G; [intros; apply H; [lia|assumption]|lia].
Qed.
Lemma csum_real {A} (f : A -> R) xs : csum xs (fun x => RtoC (f x)) = RtoC (fold_right (fun x s => (f x + s)%R) 0%R xs).
Proof. induction xs as [|x xs IH]; [reflexivity|]. rewrite csum_cons, IH. cbn [fold_right]. symmetry. apply RtoC_plus. Qed.
Lemma csum_fst {A} (f : A -> C) xs : fst (csum xs f) = fold_right (fun x s => (fst (f x) + s)%R) 0%R xs.
Proof. induction xs as [|x xs IH]; [reflexivity|]. rewrite csum_cons. cbn. rewrite IH. reflexivity. Qed.
Lemma csum_snd {A} (f : A -> C) xs : snd (csum xs f) = fold_right (fun x s => (snd (f x) + s)%R) 0%R xs.
Proof. induction xs as [|x xs IH]; [reflexivity|]. rewrite csum_cons. cbn. rewrite IH. reflexivity. Qed.
Lemma csum_conj {A} (f : A -> C) xs : Cconj (csum xs f) = csum xs (fun x => Cconj (f x)).
Proof. induction xs as [|x xs IH]; [cbn; unfold Cconj, RtoC; cbn; f_equal; ring|]. rewrite !csum_cons, <- IH. unfold Cconj, Cplus. cbn. f_equal. ring. Qed.

(** series *)
Lemma sums_unique a z z' : sums_to a z -> sums_to a z' -> z = z'.
Proof.
  intros [H1 H2] [H1' H2']. destruct z as [x y], z' as [x' y']. cbn in *. f_equal.
  - transitivity (Series (fun k => fst (a k))); [symmetry|]; apply is_series_unique; assumption.
  - transitivity (Series (fun k => snd (a k))); [symmetry|]; apply is_series_unique; assumption.
Qed.
Lemma sums_ext a b z : (forall k, a k = b k) -> sums_to a z -> sums_to b z.
Proof. intros H [H1 H2]. split; [eapply is_series_ext; [|exact H1]|eapply is_series_ext; [|exact H2]]; intros k; cbn; rewrite H; reflexivity. Qed.
Lemma sums_add a b z w : sums_to a z -> sums_to b w -> sums_to (fun k => a k + b k) (z + w).
Proof. intros [H1 H2] [H3 H4]. split; cbn; [apply (is_series_plus _ _ _ _ H1 H3)|apply (is_series_plus _ _ _ _ H2 H4)]. Qed.
Lemma is_series_0 : is_series (fun _ : nat => 0%R) 0%R.
Proof.
  apply filterlim_ext with (f := fun _ : nat => 0%R); [|apply filterlim_const]. intros n. rewrite sum_n_Reals. induction n as [|n IH]; [reflexivity|]. rewrite tech5, <- IH. symmetry. apply Rplus_0_l.
Qed.
Lemma sums_zero : sums_to (fun _ => RtoC 0) (RtoC 0).
Proof. split; cbn; apply is_series_0. Qed.
Lemma sums_csum {A} (a : A -> nat -> C) (z : A -> C) xs : (forall x, In x xs -> sums_to (a x) (z x)) -> sums_to (fun k => csum xs (fun x => a x k)) (csum xs z).
Proof.
  induction xs as [|x xs IH]; intros H; [apply sums_zero|]. apply (sums_add (a x) (fun k => csum xs (fun x => a x k)) (z x) (csum xs z)); [apply H; left; reflexivity|apply IH; intros; apply H; right; assumption].
Qed.
(** sum_k (x^k / k!) z = exp(x) z *)
Lemma sums_exp x z : sums_to (fun k => RtoC (x ^ k / INR (fact k)) * z) (RtoC (exp x) * z).
Proof.
  assert (H : is_series (fun k => x ^ k / INR (fact k))%R (exp x)).
  { pose proof (is_exp_Reals x) as H. unfold is_pseries in H. eapply is_series_ext; [|exact H]. intros k. cbn. unfold scal. cbn. unfold mult. cbn. rewrite pow_n_pow. unfold Rdiv. ring. }
  destruct z as [u v]. split; cbn.
  - apply (is_series_ext (fun k => x ^ k / INR (fact k) * u)%R); [intros k; assert (Q : (x ^ k / INR (fact k) * u = x ^ k / INR (fact k) * u - 0 * v)%R) by ring; exact Q|]. replace (exp x * u - 0 * v)%R with (exp x * u)%R by ring. apply (is_series_scal_r u _ _ H).
  - apply (is_series_ext (fun k => x ^ k / INR (fact k) * v)%R); [intros k; assert (Q : (x ^ k / INR (fact k) * v = x ^ k / INR (fact k) * v + 0 * u)%R) by ring; exact Q|]. replace (exp x * v + 0 * u)%R with (exp x * v)%R by ring. apply (is_series_scal_r v _ _ H).
Qed.
