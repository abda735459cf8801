(** Polynomials are determined by their values, and least-squares solutions exist *)
From Coq Require Import ZArith Reals List Bool Arith Lia Lra.
From Coquelicot Require Import Complex.
From Verif Require Import Base ThermalSpec Csum FourierSpec Fourier_dft Fourier_lat LegGfSpec LegGf_tail TailFitSpec.
Import ListNotations.
Local Open Scope R_scope.

(** * sums *)
Lemma rsum_ext n f g : (forall k, (k < n)%nat -> f k = g k) -> rsum n f = rsum n g.
Proof. induction n as [|n IH]; intros H; [reflexivity|]. cbn [rsum]. rewrite IH, H; [reflexivity|lia|intros; apply H; lia]. Qed.
Lemma rsum_nonneg n f : (forall k, (k < n)%nat -> 0 <= f k) -> 0 <= rsum n f.
Proof. induction n as [|n IH]; intros H; [cbn; lra|]. cbn [rsum]. specialize (H n (le_n _)) as Hn. enough (0 <= rsum n f) by lra. apply IH. intros; apply H; lia. Qed.
Lemma rsum_zero n f : (forall k, (k < n)%nat -> 0 <= f k) -> rsum n f <= 0 -> forall k, (k < n)%nat -> f k = 0.
Proof.
  induction n as [|n IH]; intros H Hs k Hk; [lia|]. cbn [rsum] in Hs.
  assert (H0 : 0 <= rsum n f) by (apply rsum_nonneg; intros; apply H; lia). specialize (H n (le_n _)) as Hn.
  destruct (Nat.eq_dec k n) as [->|Hne]; [lra|]. apply IH; [intros; apply H; lia|lra|lia].
Qed.
Lemma rsum_zeros n f : (forall k, (k < n)%nat -> f k = 0) -> rsum n f = 0.
Proof. induction n as [|n IH]; intros H; [reflexivity|]. cbn [rsum]. rewrite IH, H; [lra|lia|intros; apply H; lia]. Qed.
Lemma rsum_le n f g : (forall k, (k < n)%nat -> f k <= g k) -> rsum n f <= rsum n g.
Proof. induction n as [|n IH]; intros H; [cbn; lra|]. cbn [rsum]. specialize (H n (le_n _)) as Hn. enough (rsum n f <= rsum n g) by lra. apply IH. intros; apply H; lia. Qed.
Lemma rsum_plus n f g : rsum n (fun k => f k + g k) = rsum n f + rsum n g.
Proof. induction n as [|n IH]; [cbn; lra|]. cbn [rsum]. rewrite IH. lra. Qed.
Lemma rsum_swap n m f : rsum n (fun i => rsum m (f i)) = rsum m (fun c => rsum n (fun i => f i c)).
Proof. induction n as [|n IH]; cbn [rsum]; [symmetry; apply rsum_zeros; reflexivity|]. rewrite IH, <- rsum_plus. reflexivity. Qed.
Lemma Cmod2_zero z : Cmod z ^ 2 = 0 -> z = RtoC 0.
Proof. intros H. apply Cmod_eq_0. assert (0 <= Cmod z) by apply Cmod_ge_0. cbn in H. nra. Qed.
Lemma total_S n f : total (S n) f = Cplus (total n f) (f n). Proof. apply csum_S. Qed.
Lemma total_shift n f : total (S n) f = Cplus (f 0%nat) (total n (fun j => f (S j))). Proof. apply csum_shift. Qed.
Lemma total_ext n f g : (forall k, (k < n)%nat -> f k = g k) -> total n f = total n g.
Proof. intros H. apply csum_ext. intros k Hk. apply in_seq in Hk. apply H. lia. Qed.
Lemma total_zero n f : (forall k, (k < n)%nat -> f k = RtoC 0) -> total n f = RtoC 0.
Proof. intros H. apply csum_zero. intros k Hk. apply in_seq in Hk. apply H. lia. Qed.

(** * polynomials *)
Definition pol (n : nat) (a : nat -> C) (x : C) : C := total n (fun j => Cmult (a j) (power x j)).
Lemma pol_S n a x : pol (S n) a x = Cplus (a 0%nat) (Cmult x (pol n (fun j => a (S j)) x)).
Proof.
  unfold pol. rewrite total_shift. f_equal; [cbn; ring|]. unfold total. rewrite <- csum_l. apply csum_ext. intros j _. rewrite power_S. ring.
Qed.
Lemma pol_factor n : forall a r, exists b, (forall x, Cminus (pol (S n) a x) (pol (S n) a r) = Cmult (Cminus x r) (pol n b x)) /\
  ((forall j, (j < n)%nat -> b j = RtoC 0) -> forall j, (j < n)%nat -> a (S j) = RtoC 0).
Proof.
  induction n as [|n IH]; intros a r.
  - exists (fun _ => RtoC 0). split; [|intros _ j Hj; lia]. intros x. rewrite !pol_S. unfold pol, total. cbn. ring.
  - destruct (IH (fun j => a (S j)) r) as [q [Hq Hz]].
    exists (fun j => match j with O => pol (S n) (fun j => a (S j)) r | S i => q i end). split.
    + intros x. rewrite (pol_S (S n) a x), (pol_S (S n) a r). rewrite (pol_S n (fun j => match j with O => _ | S i => q i end) x).
      specialize (Hq x). cbv beta iota.
      set (P := pol (S n) (fun j => a (S j)) x) in *. set (P0 := pol (S n) (fun j => a (S j)) r) in *. change (pol n (fun j => q j) x) with (pol n q x).
      replace P with (Cplus P0 (Cmult (Cminus x r) (pol n q x))) by (rewrite <- Hq; ring). ring.
    + intros H. assert (Q0 : forall j, (j < n)%nat -> q j = RtoC 0) by (intros j Hj; apply (H (S j)); lia).
      specialize (Hz Q0). intros [|j] Hj; [|apply (Hz j); lia].
      specialize (H 0%nat ltac:(lia)). cbv beta iota in H. rewrite pol_S in H. unfold pol in H. rewrite total_zero in H; [rewrite <- H; ring|].
      intros k Hk. rewrite (Hz k Hk). ring.
Qed.
(** a polynomial with as many different roots as coefficients vanishes *)
Lemma pol_roots n : forall a xs, NoDup xs -> (n <= length xs)%nat -> (forall x, In x xs -> pol n a x = RtoC 0) -> forall j, (j < n)%nat -> a j = RtoC 0.
Proof.
  induction n as [|n IH]; intros a xs Hd Hl H j Hj; [lia|].
  destruct xs as [|r xs]; [cbn in Hl; lia|]. inversion Hd as [|? ? Hr Hd']; subst.
  destruct (pol_factor n a r) as [b [Hb Hz]]. assert (R0 : pol (S n) a r = RtoC 0) by (apply H; left; reflexivity).
  assert (B : forall i, (i < n)%nat -> b i = RtoC 0).
  { apply (IH b xs Hd'); [cbn in Hl; lia|]. intros x Hx. specialize (Hb x). rewrite R0, (H x (or_intror Hx)) in Hb.
    assert (Hne : Cminus x r <> RtoC 0). { intros E. apply Hr. replace r with x; [exact Hx|]. replace x with (Cplus (Cminus x r) r) by ring. rewrite E. ring. }
    destruct (Ceq_dec (pol n b x) (RtoC 0)) as [E|E]; [exact E|]. exfalso. apply (Cmult_neq_0 _ _ Hne E). rewrite <- Hb. ring. }
  specialize (Hz B). destruct j as [|j]; [|apply Hz; lia].
  rewrite pol_S in R0. unfold pol in R0. rewrite total_zero in R0; [rewrite <- R0; ring|]. intros k Hk. rewrite (Hz k Hk). ring.
Qed.

(** * least squares *)
Definition dot (n : nat) (u v : nat -> C) : C := total n (fun i => Cmult (Cconj (u i)) (v i)).
Definition comb (p : nat) (A : nat -> nat -> C) (x : nat -> C) (i : nat) : C := total p (fun j => Cmult (A i j) (x j)).
Lemma dot_ext n u u' v v' : (forall i, (i < n)%nat -> u i = u' i) -> (forall i, (i < n)%nat -> v i = v' i) -> dot n u v = dot n u' v'.
Proof. intros H H'. apply total_ext. intros i Hi. rewrite H, H' by exact Hi. reflexivity. Qed.
Lemma dot_plus n u v w : dot n u (fun i => Cplus (v i) (w i)) = Cplus (dot n u v) (dot n u w).
Proof. unfold dot, total. rewrite <- csum_add. apply csum_ext. intros; ring. Qed.
Lemma dot_scal n u v y : dot n u (fun i => Cmult (v i) y) = Cmult (dot n u v) y.
Proof. unfold dot, total. rewrite <- csum_r. apply csum_ext. intros; ring. Qed.
Lemma dot_conj n u v : dot n v u = Cconj (dot n u v).
Proof. unfold dot, total. rewrite csum_conj. apply csum_ext. intros i _. apply Ceq; cbn; ring. Qed.
Lemma dot_minus n u v w : dot n u (fun i => Cminus (v i) (w i)) = Cminus (dot n u v) (dot n u w).
Proof.
  replace (dot n u (fun i => Cminus (v i) (w i))) with (dot n u (fun i => Cplus (v i) (Cmult (w i) (Copp (RtoC 1))))) by (apply dot_ext; intros; [reflexivity|ring]).
  rewrite dot_plus, dot_scal. ring.
Qed.
Lemma dot_comb n p u A x : (forall j, (j < p)%nat -> dot n u (fun i => A i j) = RtoC 0) -> dot n u (comb p A x) = RtoC 0.
Proof.
  induction p as [|p IH]; intros H.
  - unfold dot. apply total_zero. intros. unfold comb, total. cbn. ring.
  - replace (dot n u (comb (S p) A x)) with (dot n u (fun i => Cplus (comb p A x i) (Cmult (A i p) (x p)))).
    + rewrite dot_plus, dot_scal, IH, H; [ring|lia|intros; apply H; lia].
    + apply dot_ext; [reflexivity|]. intros. unfold comb. rewrite total_S. reflexivity.
Qed.
Lemma Cmod_sq2 z : Cmod z ^ 2 = fst z ^ 2 + snd z ^ 2.
Proof. unfold Cmod. rewrite pow2_sqrt; [reflexivity|]. cbn. nra. Qed.
Lemma dot_self n u : dot n u u = RtoC (rsum n (fun i => Cmod (u i) ^ 2)).
Proof.
  induction n as [|n IH]; [reflexivity|]. unfold dot in *. rewrite total_S, IH. cbn [rsum]. rewrite RtoC_plus. f_equal.
  apply Ceq; cbn [fst snd RtoC]; [|cbn; ring]. rewrite Cmod_sq2. cbn. ring.
Qed.

(** orthogonal projection on the columns of A, one column after the other *)
Fixpoint lsq (n p : nat) (A : nat -> nat -> C) (B : nat -> C) : nat -> C :=
  match p with
  | O => fun _ => RtoC 0
  | S q =>
    let z := lsq n q A (fun i => A i q) in
    let a i := Cminus (A i q) (comb q A z i) in
    let y := if Req_EM_T (rsum n (fun i => Cmod (a i) ^ 2)) 0 then RtoC 0 else Cdiv (dot n a B) (dot n a a) in
    let x := lsq n q A B in
    fun j => if (j =? q)%nat then y else Cminus (x j) (Cmult (z j) y)
  end.
Lemma comb_S p A x i : comb (S p) A x i = Cplus (comb p A x i) (Cmult (A i p) (x p)). Proof. unfold comb. apply total_S. Qed.
Lemma lsq_orth n p : forall A B j, (j < p)%nat -> dot n (fun i => A i j) (fun i => Cminus (B i) (comb p A (lsq n p A B) i)) = RtoC 0.
Proof.
  induction p as [|q IH]; intros A B j Hj; [lia|]. cbn [lsq].
  set (z := lsq n q A (fun i => A i q)). set (a := fun i => Cminus (A i q) (comb q A z i)). set (x := lsq n q A B).
  set (y := if Req_EM_T (rsum n (fun i => Cmod (a i) ^ 2)) 0 then RtoC 0 else Cdiv (dot n a B) (dot n a a)).
  assert (Oa : forall k, (k < q)%nat -> dot n (fun i => A i k) a = RtoC 0) by (intros k Hk; apply (IH A (fun i => A i q) k Hk)).
  assert (Ox : forall k, (k < q)%nat -> dot n (fun i => A i k) (fun i => Cminus (B i) (comb q A x i)) = RtoC 0) by (intros k Hk; apply (IH A B k Hk)).
  assert (Oc : forall v, dot n a (comb q A v) = RtoC 0).
  { intros v. apply dot_comb. intros k Hk. rewrite dot_conj, Oa by exact Hk. apply Ceq; cbn; ring. }
  assert (E : forall i, Cminus (B i) (comb (S q) A (fun k => if (k =? q)%nat then y else Cminus (x k) (Cmult (z k) y)) i) =
                        Cminus (Cminus (B i) (comb q A x i)) (Cmult (a i) y)).
  { intros i. rewrite comb_S, Nat.eqb_refl. replace (comb q A (fun k => if (k =? q)%nat then y else Cminus (x k) (Cmult (z k) y)) i) with (Cminus (comb q A x i) (Cmult (comb q A z i) y)).
    - unfold a. ring.
    - unfold comb, total. rewrite <- csum_r. replace (csum (seq 0 q) (fun j0 => Cmult (A i j0) (x j0))) with (csum (seq 0 q) (fun j0 => Cplus (Cmult (A i j0) (Cminus (x j0) (Cmult (z j0) y))) (Cmult (Cmult (A i j0) (z j0)) y))) by (apply csum_ext; intros; ring).
      rewrite csum_add. replace (csum (seq 0 q) (fun x0 => Cmult (A i x0) (Cminus (x x0) (Cmult (z x0) y)))) with (csum (seq 0 q) (fun j0 => Cmult (A i j0) (if (j0 =? q)%nat then y else Cminus (x j0) (Cmult (z j0) y)))); [ring|].
      apply csum_ext. intros k Hk. apply in_seq in Hk. destruct (Nat.eqb_spec k q); [lia|reflexivity]. }
  assert (G : dot n a (fun i => Cminus (Cminus (B i) (comb q A x i)) (Cmult (a i) y)) = RtoC 0).
  { rewrite dot_minus, dot_minus, dot_scal, Oc. unfold y. destruct (Req_EM_T _ 0) as [E0|E0].
    - assert (Z : forall i, (i < n)%nat -> a i = RtoC 0). { intros i Hi. apply Cmod2_zero. apply (rsum_zero n (fun i => Cmod (a i) ^ 2)); [intros; apply pow2_ge_0|lra|exact Hi]. }
      assert (D : dot n a B = RtoC 0). { unfold dot. apply total_zero. intros i Hi. rewrite Z by exact Hi. apply Ceq; cbn; ring. } rewrite D. ring.
    - assert (dot n a a <> RtoC 0). { rewrite dot_self. apply RtoC_nz. exact E0. } field. assumption. }
  transitivity (dot n (fun i => A i j) (fun i => Cminus (Cminus (B i) (comb q A x i)) (Cmult (a i) y))); [apply dot_ext; [reflexivity|intros i _; exact (E i)]|].
  destruct (Nat.eq_dec j q) as [->|Hne].
  - replace (dot n (fun i => A i q) (fun i => Cminus (Cminus (B i) (comb q A x i)) (Cmult (a i) y)))
      with (Cplus (dot n a (fun i => Cminus (Cminus (B i) (comb q A x i)) (Cmult (a i) y))) (dot n (comb q A z) (fun i => Cminus (Cminus (B i) (comb q A x i)) (Cmult (a i) y)))).
    + rewrite G. rewrite dot_conj, dot_comb; [apply Ceq; cbn; ring|].
      intros k Hk. rewrite dot_conj, dot_minus, dot_scal, Ox, Oa by exact Hk. apply Ceq; cbn; ring.
    + unfold dot, total. rewrite <- csum_add. apply csum_ext. intros i _. unfold a. apply Ceq; cbn; ring.
  - rewrite dot_minus, dot_scal, Ox, Oa by lia. ring.
Qed.
Lemma pythagoras n u v : dot n u v = RtoC 0 -> rsum n (fun i => Cmod (Cplus (u i) (v i)) ^ 2) = rsum n (fun i => Cmod (u i) ^ 2) + rsum n (fun i => Cmod (v i) ^ 2).
Proof.
  intros H. assert (E : RtoC (rsum n (fun i => Cmod (Cplus (u i) (v i)) ^ 2)) = RtoC (rsum n (fun i => Cmod (u i) ^ 2) + rsum n (fun i => Cmod (v i) ^ 2))); [|apply (f_equal fst) in E; exact E].
  rewrite RtoC_plus, <- !dot_self.
  assert (E : dot n (fun i => Cplus (u i) (v i)) (fun i => Cplus (u i) (v i)) = Cplus (Cplus (dot n u u) (dot n v v)) (Cplus (dot n u v) (dot n v u))).
  { unfold dot, total. rewrite <- !csum_add. apply csum_ext. intros i _. apply Ceq; cbn; ring. }
  rewrite E, (dot_conj n u v), H. apply Ceq; cbn; ring.
Qed.
Lemma lsq_best n p A B Y : rsum n (fun i => Cmod (Cminus (comb p A (lsq n p A B) i) (B i)) ^ 2) <= rsum n (fun i => Cmod (Cminus (comb p A Y i) (B i)) ^ 2).
Proof.
  set (X := lsq n p A B).
  set (r := fun i => Cminus (B i) (comb p A X i)). set (v := comb p A (fun j => Cminus (X j) (Y j))).
  assert (V : forall i, v i = Cminus (comb p A X i) (comb p A Y i)).
  { intros i. unfold v, comb, total. replace (csum (seq 0 p) (fun j => Cmult (A i j) (X j))) with (csum (seq 0 p) (fun j => Cplus (Cmult (A i j) (Cminus (X j) (Y j))) (Cmult (A i j) (Y j)))) by (apply csum_ext; intros; ring). rewrite csum_add. ring. }
  assert (O : dot n r v = RtoC 0).
  { unfold v. apply dot_comb. intros j Hj. rewrite dot_conj. unfold r, X. rewrite lsq_orth by exact Hj. apply Ceq; cbn; ring. }
  pose proof (pythagoras n r v O) as P.
  replace (rsum n (fun i => Cmod (Cminus (comb p A X i) (B i)) ^ 2)) with (rsum n (fun i => Cmod (r i) ^ 2)).
  2: { apply rsum_ext. intros i _. unfold r. rewrite <- Cmod_opp. f_equal. f_equal. ring. }
  replace (rsum n (fun i => Cmod (Cminus (comb p A Y i) (B i)) ^ 2)) with (rsum n (fun i => Cmod (Cplus (r i) (v i)) ^ 2)).
  2: { apply rsum_ext. intros i _. rewrite V. unfold r. rewrite <- Cmod_opp. f_equal. f_equal. ring. }
  rewrite P. assert (0 <= rsum n (fun i => Cmod (v i) ^ 2)) by (apply rsum_nonneg; intros; apply pow2_ge_0). lra.
Qed.
(** a least-squares solution always exists *)
Lemma least_squares_exist rows cols n A B : least_squares (fun _ => True) rows cols n A B (fun j c => lsq rows cols A (fun i => B i c) j).
Proof.
  split; [exact I|]. intros Y _. unfold residual. rewrite (rsum_swap rows n), (rsum_swap rows n). apply rsum_le. intros c _.
  apply (lsq_best rows cols A (fun i => B i c) (fun j => Y j c)).
Qed.
