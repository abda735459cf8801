(** Property C93: Python's Matsubara frequencies and mesh points. *)
From Coq Require Import ZArith Reals Bool Lia Lra.
From Coquelicot Require Import Complex.
From Verif Require Import Base Matsubara PyMats PyMatsSpec.
Local Open Scope Z_scope.

Lemma num_val o : cval o = number o.
Proof. destruct o as [[n b []]|[n b []]|c]; unfold cval, number, to_complex, is_fermion, b2z; cbn [fr_n fr_beta fr_stat]; rewrite ?Z.add_0_r; reflexivity. Qed.
Lemma num_neg o : number (py_neg o) = (- number o)%C.
Proof.
  destruct o as [[n b []]|[n b []]|c]; try reflexivity; unfold py_neg, number, freq_neg, is_fermion, b2z; cbn [fr_n fr_beta fr_stat]; apply injective_projections; cbn [fst snd Copp]; try ring; rewrite ?plus_IZR, ?mult_IZR, ?minus_IZR, ?opp_IZR; unfold Rdiv; ring.
Qed.
Lemma add_freq x o z : freq_add x o = Ok z -> number z = (number (VF x) + number o)%C.
Proof.
  pose proof (num_val (VF x)) as NX. cbn [cval] in NX. destruct o as [y|y|c]; cbn [freq_add].
  - destruct (Req_EM_T (fr_beta x) (fr_beta y)) as [E|E]; [|discriminate]. intros H. injection H as <-. destruct x as [n b s], y as [n' b' s']. cbn [fr_beta] in E. subst b'.
    destruct s, s'; unfold number, is_fermion, b2z; cbn [fr_n fr_beta fr_stat xorb andb]; apply injective_projections; cbn [fst snd Cplus]; try ring; rewrite ?plus_IZR, ?mult_IZR, ?plus_IZR; unfold Rdiv; ring.
  - intros H. injection H as <-. pose proof (num_val (VP y)) as NY. cbn [cval] in NY. cbn [number] in *. rewrite NX, NY. ring.
  - intros H. injection H as <-. cbn [number] in *. rewrite NX. reflexivity.
Qed.
Lemma get_number o : number (get_val o) = number o.
Proof. destruct o as [y|y|c]; [|reflexivity|reflexivity]. exact (num_val (VF y)). Qed.

(** C93, sums and differences of frequencies, mesh points and numbers, in any combination, stand for the sums and differences of the numbers; products and quotients likewise *)
Theorem C93_arithmetic : forall a b z,
  (py_add a b = Ok z -> number z = number a + number b)%C /\ (py_sub a b = Ok z -> number z = number a - number b)%C /\
  (py_mul a b = Ok z -> number z = number a * number b)%C /\ (py_div a b = Ok z -> number b <> RtoC 0 /\ number z = number a / number b)%C /\ number (py_neg a) = (- number a)%C.
Proof.
  intros a b z. split; [|split; [|split; [|split]]].
  - destruct a as [x|x|c]; cbn [py_add]; intros H.
    + exact (add_freq _ _ _ H). + rewrite (add_freq _ _ _ H), get_number. reflexivity.
    + destruct b as [y|y|d]; [rewrite (add_freq _ _ _ H); cbn [number]; ring|rewrite (add_freq _ _ _ H); cbn [number]; ring|injection H as <-; reflexivity].
  - destruct a as [x|x|c]; cbn [py_sub]; intros H.
    + unfold freq_sub in H. rewrite (add_freq _ _ _ H), num_neg. reflexivity. + unfold freq_sub in H. rewrite (add_freq _ _ _ H), num_neg, get_number. reflexivity.
    + destruct b as [y|y|d]; [| |injection H as <-; reflexivity]; unfold freq_rsub in H; rewrite (add_freq _ _ _ H); change (VF (freq_neg y)) with (py_neg (VF y)); rewrite num_neg; cbn [number]; ring.
  - unfold py_mul. intros H. injection H as <-. cbn [number]. rewrite !num_val. reflexivity.
  - unfold py_div. destruct (Ceq_dec (cval b) (RtoC 0)) as [E|E]; [discriminate|]. intros H. injection H as <-. rewrite <- !num_val. split; [exact E|reflexivity].
  - apply num_neg.
Qed.
Print Assumptions C93_arithmetic.

(** C93, two frequencies, or two mesh points, give a frequency, with the statistic of the sum of the two and the same beta; it is the one of the C++ operators; different temperatures raise, and nothing else does *)
Theorem C93_frequencies : forall x y,
  (fr_beta x = fr_beta y -> py_add (VF x) (VF y) = Ok (VF (fr_add x y)) /\ py_add (VP x) (VP y) = Ok (VF (fr_add x y)) /\
     py_sub (VF x) (VF y) = Ok (VF (fr_sub x y)) /\ py_sub (VP x) (VP y) = Ok (VF (fr_sub x y)) /\ py_neg (VF x) = VF (fr_neg x)) /\
  (fr_beta x <> fr_beta y -> py_add (VF x) (VF y) = Throw /\ py_add (VP x) (VP y) = Throw /\ py_sub (VF x) (VF y) = Throw /\ py_sub (VP x) (VP y) = Throw).
Proof.
  intros [n b s] [n' b' s']. cbn [fr_beta]. split; intros H.
  - subst b'. assert (A : forall s s' n n', freq_add (mkFreq n b s) (VF (mkFreq n' b s')) = Ok (VF (fr_add (mkFreq n b s) (mkFreq n' b s')))).
    { intros t t' m m'. cbn [freq_add fr_beta]. destruct (Req_EM_T b b) as [_|X]; [|contradiction X; reflexivity]. destruct t, t'; reflexivity. }
    assert (D : freq_add (mkFreq n b s) (VF (freq_neg (mkFreq n' b s'))) = Ok (VF (fr_sub (mkFreq n b s) (mkFreq n' b s')))).
    { unfold freq_neg. cbn [fr_n fr_beta fr_stat]. rewrite A. do 2 f_equal. unfold fr_add, fr_sub, is_fermion, b2z. cbn [fr_n fr_beta fr_stat]. f_equal. destruct s, s'; cbn; lia. }
    split; [apply A|]. split; [apply A|]. split; [exact D|]. split; [exact D|]. cbn [py_neg]. unfold freq_neg, fr_neg, is_fermion, b2z. cbn [fr_n fr_beta fr_stat]. do 2 f_equal. destruct s; cbn; lia.
  - cbn [py_add py_sub get_val]. unfold freq_sub. cbn [py_neg freq_add freq_neg fr_beta]. destruct (Req_EM_T b b') as [E|_]; [contradiction|]. repeat split.
Qed.
Print Assumptions C93_frequencies.
Theorem C93_raises : forall a b, (py_add a b = Throw -> exists beta beta', at_beta a beta /\ at_beta b beta' /\ beta <> beta') /\
  (py_sub a b = Throw -> exists beta beta', at_beta a beta /\ at_beta b beta' /\ beta <> beta') /\
  (py_div a b = Throw <-> number b = RtoC 0) /\ py_add a b <> UB /\ py_sub a b <> UB.
Proof.
  intros a b.
  assert (F : forall x y, (if Req_EM_T (fr_beta x) (fr_beta y) then Ok (VF (mkFreq (fr_n x + fr_n y + b2z (is_fermion x && is_fermion y)) (fr_beta x) (if xorb (is_fermion x) (is_fermion y) then Fermion else Boson))) else Throw) = Throw -> fr_beta x <> fr_beta y).
  { intros x y. destruct (Req_EM_T (fr_beta x) (fr_beta y)) as [E|E]; [discriminate|intros _; exact E]. }
  split; [|split; [|split; [|split]]].
  - destruct a as [x|x|c], b as [y|y|d]; cbn [py_add freq_add get_val at_beta]; try discriminate; intros H; exists (fr_beta x), (fr_beta y); (split; [reflexivity|]); (split; [reflexivity|]); exact (F x y H).
  - destruct a as [x|x|c], b as [y|y|d]; cbn [py_sub at_beta get_val]; unfold freq_sub, freq_rsub; cbn [py_neg freq_add]; try discriminate; intros H; exists (fr_beta x), (fr_beta y); (split; [reflexivity|]); (split; [reflexivity|]); exact (F x (freq_neg y) H).
  - unfold py_div. rewrite <- num_val. destruct (Ceq_dec (cval b) (RtoC 0)) as [E|E]; split; try discriminate; trivial. intros X. contradiction.
  - destruct a as [x|x|c], b as [y|y|d]; cbn [py_add freq_add get_val]; try discriminate; destruct (Req_EM_T _ _); discriminate.
  - destruct a as [x|x|c], b as [y|y|d]; cbn [py_sub get_val]; unfold freq_sub, freq_rsub; cbn [py_neg freq_add]; try discriminate; destruct (Req_EM_T _ _); discriminate.
Qed.
Print Assumptions C93_raises.

(** That the sum of a frequency and of a mesh point is a frequency is false, in either order, although their difference is one *)
Theorem C93_mixed_refuted : forall x y, (forall z, py_add (VF x) (VP y) <> Ok (VF z)) /\ (forall z, py_add (VP x) (VF y) <> Ok (VF z)) /\ (fr_beta x = fr_beta y -> py_sub (VF x) (VP y) = Ok (VF (fr_sub x y))).
Proof.
  intros x y. split; [intros z; discriminate|]. split; [intros z; discriminate|]. intros H. exact (proj1 (proj2 (proj2 (proj1 (C93_frequencies x y) H)))).
Qed.
Print Assumptions C93_mixed_refuted.
(** ... and so mixed sums of different temperatures are not refused *)
Theorem C93_mixed_temperatures_refuted : exists x y z, fr_beta x <> fr_beta y /\ py_add (VF x) (VP y) = Ok z.
Proof. exists (mkFreq 0 1 Fermion), (mkFreq 0 2 Fermion). eexists. split; [cbn; lra|reflexivity]. Qed.
Print Assumptions C93_mixed_temperatures_refuted.

(** The theorems are not empty: iw_1 + iw_-3 of fermions is the bosonic frequency number -1 *)
Example C93_example : py_add (VF (mkFreq 1 10 Fermion)) (VF (mkFreq (-3) 10 Fermion)) = Ok (VF (mkFreq (-1) 10 Boson)) /\ number (VF (mkFreq (-1) 10 Boson)) <> RtoC 0.
Proof.
  split.
  - rewrite (proj1 (proj1 (C93_frequencies (mkFreq 1 10 Fermion) (mkFreq (-3) 10 Fermion)) eq_refl)). reflexivity.
  - intros E. apply (f_equal snd) in E. cbn [number snd RtoC fr_stat fr_n fr_beta] in E. pose proof PI_RGT_0. change (2 * -1) with (-2) in E. lra.
Qed.
