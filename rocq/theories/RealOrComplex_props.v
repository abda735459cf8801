(** C51 : arithmetic on real_or_complex. *)
From Coq Require Import List Bool QArith Qcanon Qcabs Lia.
From Verif Require Import Base RealOrComplex.
Import ListNotations.
Local Open Scope Qc_scope.

(** Specification: the complex number an expression stands for; a double x stands for x + 0i, a quotient is the number
    whose product with the (nonzero) divisor is the dividend. *)
Definition cplus (a b : dcomplex) : dcomplex := mkC (re a + re b) (im a + im b).
Definition cneg (a : dcomplex) : dcomplex := mkC (- re a) (- im a).
Definition cmult (a b : dcomplex) : dcomplex := mkC (re a * re b - im a * im b) (re a * im b + im a * re b).
Definition czero : dcomplex := mkC 0 0.
Definition real_number (x : double) : dcomplex := mkC x 0.

Definition meaning_op (o : binop) (a b z : dcomplex) : Prop :=
  match o with
  | OpAdd => z = cplus a b
  | OpSub => z = cplus a (cneg b)
  | OpMul => z = cmult a b
  | OpDiv => b <> czero /\ cmult z b = a
  end.
Inductive means : expr -> dcomplex -> Prop :=
| M_zero : means Zero czero
| M_d x : means (OfD x) (real_number x)
| M_c z : means (OfC z) z
| M_neg e z : means e z -> means (Neg e) (cneg z)
| M_conj e z : means e z -> means (Conj e) (mkC (re z) (- im z))
| M_bin o a b x y z : means a x -> means b y -> meaning_op o x y z -> means (Bin o a b) z
| M_binc o a b x z : means a x -> meaning_op o x b z -> means (BinC o a b) z
| M_bind o a b x z : means a x -> meaning_op o x (real_number b) z -> means (BinD o a b) z
| M_cbin o a b y z : means b y -> meaning_op o a y z -> means (CBin o a b) z
| M_dbin o a b y z : means b y -> meaning_op o (real_number a) y z -> means (DBin o a b) z.

(** no complex<double> occurs in the expression *)
Fixpoint only_doubles (e : expr) : bool :=
  match e with
  | Zero | OfD _ => true
  | OfC _ => false
  | Neg e | Conj e => only_doubles e
  | Bin _ a b => only_doubles a && only_doubles b
  | BinC _ _ _ | CBin _ _ _ => false
  | BinD _ a _ => only_doubles a
  | DBin _ _ b => only_doubles b
  end.

Lemma is0_spec x : is0 x = true <-> x = 0.
Proof. unfold is0. destruct (Qc_eq_dec x 0); split; congruence. Qed.
Lemma is0_false x : is0 x = false <-> x <> 0.
Proof. rewrite <- is0_spec. destruct (is0 x); split; congruence. Qed.
Lemma sq_nonneg (x : Qc) : 0 <= x * x.
Proof.
  assert (P : forall y : Qc, 0 <= y -> 0 <= y * y) by (intros y Hy; rewrite <- (Qcmult_0_l y); apply Qcmult_le_compat_r; exact Hy).
  destruct (Qclt_le_dec x 0) as [H|H]; [|apply P; exact H].
  replace (x * x) with ((- x) * (- x)) by ring. apply P. apply Qclt_le_weak in H. apply Qcopp_le_compat in H. exact H.
Qed.
Lemma sq_zero (x : Qc) : x * x = 0 -> x = 0.
Proof. intros H. apply Qcmult_integral in H. tauto. Qed.
Lemma norm_zero (z : dcomplex) : re z * re z + im z * im z = 0 <-> z = czero.
Proof.
  destruct z as [a b]. cbn. split; [|intros [= -> ->]; reflexivity]. intros H.
  assert (A : a * a = 0).
  { apply Qcle_antisym; [|apply sq_nonneg]. rewrite <- H. rewrite <- (Qcplus_0_r (a * a)) at 1. apply Qcplus_le_compat; [apply Qcle_refl|apply sq_nonneg]. }
  assert (B : b * b = 0) by (rewrite A, Qcplus_0_l in H; exact H). apply sq_zero in A, B. subst. reflexivity.
Qed.
Lemma C_eq (a b : dcomplex) : re a = re b -> im a = im b -> a = b.
Proof. destruct a, b; cbn; congruence. Qed.

Lemma c_op_ok o a b z : c_op o a b = Ok z <-> meaning_op o a b z.
Proof.
  destruct o; cbn [c_op meaning_op].
  - split; [intros [= <-]|intros ->]; reflexivity.
  - split; [intros [= <-]|intros ->; f_equal]; apply C_eq; cbn [re im cplus cneg cmult real_number czero]; ring.
  - split; [intros [= <-]|intros ->]; reflexivity.
  - set (n := re b * re b + im b * im b). destruct (is0 n) eqn:E.
    + split; [discriminate|]. intros [H _]. apply is0_spec in E. apply norm_zero in E. contradiction.
    + apply is0_false in E. assert (Nb : b <> czero) by (intros ->; apply E; reflexivity). split.
      * intros [= <-]. split; [exact Nb|]. apply C_eq; cbn [re im cplus cneg cmult real_number czero]; unfold n in *; field; exact E.
      * intros [_ H]. f_equal. rewrite <- H. apply C_eq; cbn [re im cplus cneg cmult real_number czero]; unfold n in *; field; exact E.
Qed.
Lemma c_op_d_ok o a y : c_op_d o a y = c_op o a (real_number y).
Proof.
  destruct o; cbn [c_op_d c_op real_number re im].
  - f_equal. apply C_eq; cbn [re im cplus cneg cmult real_number czero]; ring.
  - f_equal. apply C_eq; cbn [re im cplus cneg cmult real_number czero]; ring.
  - f_equal. apply C_eq; cbn [re im cplus cneg cmult real_number czero]; ring.
  - destruct (is0 y) eqn:E.
    + apply is0_spec in E. subst y. reflexivity.
    + apply is0_false in E. replace (is0 (y * y + 0 * 0)) with false.
      * f_equal. apply C_eq; cbn [re im cplus cneg cmult real_number czero]; field; auto.
      * symmetry. apply is0_false. intros H. apply E. apply sq_zero. rewrite <- H. ring.
Qed.
Lemma d_op_c o a b : c_op o (real_number a) (real_number b) = do x <- d_op o a b ; Ok (real_number x).
Proof.
  destruct o; cbn [d_op c_op real_number re im bind].
  - f_equal.
  - f_equal.
  - f_equal. apply C_eq; cbn [re im cplus cneg cmult real_number czero]; ring.
  - destruct (is0 b) eqn:E.
    + apply is0_spec in E. subst b. reflexivity.
    + apply is0_false in E. replace (is0 (b * b + 0 * 0)) with false.
      * cbn [bind]. f_equal. apply C_eq; cbn [re im cplus cneg cmult real_number czero]; field; auto.
      * symmetry. apply is0_false. intros H. apply E. apply sq_zero. rewrite <- H. ring.
Qed.
Lemma meaning_unique o a b z z' : meaning_op o a b z -> meaning_op o a b z' -> z = z'.
Proof. intros H H'. apply c_op_ok in H, H'. congruence. Qed.
Lemma means_unique e : forall z z', means e z -> means e z' -> z = z'.
Proof.
  induction e; intros z1 z2 H1 H2; inversion H1; inversion H2; subst; try congruence;
    repeat match goal with IH : forall z z', means ?e z -> means ?e z' -> z = z', A : means ?e ?x, B : means ?e ?y |- _ =>
      assert_fails (constr_eq x y); pose proof (IH _ _ A B); subst end; try reflexivity; eapply meaning_unique; eassumption.
Qed.

(** what holds of every value an expression can produce *)
Lemma run_inv e : forall v, run e = Ok v -> means e (val v) /\ is_real v = only_doubles e /\ (is_real v = true -> im (val v) = 0).
Proof.
  induction e as [|x|z|e IH|e IH|o a IHa b IHb|o a IHa b|o a IHa b|o a b IHb|o a b IHb]; intros v H; cbn [run] in H.
  - injection H as <-. repeat split. constructor.
  - injection H as <-. repeat split. constructor.
  - injection H as <-. repeat split; [constructor|discriminate].
  - destruct (run e) as [x| |]; cbn [bind] in H; try discriminate H. injection H as <-. destruct (IH x eq_refl) as (M & R & I).
    split; [constructor; exact M|]. split; [exact R|]. cbn. intros Hr. rewrite (I Hr). reflexivity.
  - destruct (run e) as [x| |]; cbn [bind] in H; try discriminate H. injection H as <-. destruct (IH x eq_refl) as (M & R & I).
    split; [constructor; exact M|]. split; [exact R|]. cbn. intros Hr. rewrite (I Hr). reflexivity.
  - destruct (run a) as [x| |]; cbn [bind] in H; try discriminate H. destruct (run b) as [y| |]; cbn [bind] in H; try discriminate H.
    destruct (IHa x eq_refl) as (M & R & I). destruct (IHb y eq_refl) as (M' & R' & I'). unfold roc_op, roc_opc in H.
    destruct (c_op o (val x) (val y)) as [z| |] eqn:E; cbn [bind] in H; try discriminate H. injection H as <-. cbn.
    split; [apply c_op_ok in E; econstructor; eassumption|]. split; [congruence|]. intros Hr. apply andb_true_iff in Hr. destruct Hr as [h1 h2].
    assert (X : val x = real_number (re (val x))) by (apply C_eq; cbn [re im cplus cneg cmult real_number czero]; auto). assert (Y : val y = real_number (re (val y))) by (apply C_eq; cbn [re im cplus cneg cmult real_number czero]; auto).
    rewrite X, Y, d_op_c in E. destruct (d_op o (re (val x)) (re (val y))); cbn [bind] in E; try discriminate E. injection E as <-. reflexivity.
  - destruct (run a) as [x| |]; cbn [bind] in H; try discriminate H. destruct (IHa x eq_refl) as (M & R & I). unfold roc_op_c, roc_opc_c in H.
    destruct (c_op o (val x) b) as [z| |] eqn:E; cbn [bind] in H; try discriminate H. injection H as <-. cbn.
    split; [apply c_op_ok in E; econstructor; eassumption|]. split; [reflexivity|discriminate].
  - destruct (run a) as [x| |]; cbn [bind] in H; try discriminate H. destruct (IHa x eq_refl) as (M & R & I). unfold roc_op_d, roc_opc_d in H. rewrite c_op_d_ok in H.
    destruct (c_op o (val x) (real_number b)) as [z| |] eqn:E; cbn [bind] in H; try discriminate H. injection H as <-. cbn.
    split; [apply c_op_ok in E; econstructor; eassumption|]. split; [exact R|]. intros Hr.
    assert (X : val x = real_number (re (val x))) by (apply C_eq; cbn [re im cplus cneg cmult real_number czero]; auto). rewrite X, d_op_c in E.
    destruct (d_op o (re (val x)) b); cbn [bind] in E; try discriminate E. injection E as <-. reflexivity.
  - destruct (run b) as [y| |]; cbn [bind] in H; try discriminate H. destruct (IHb y eq_refl) as (M & R & I). unfold c_op_roc in H.
    destruct (c_op o a (to_complex y)) as [z| |] eqn:E; cbn [bind] in H; try discriminate H. injection H as <-. cbn.
    split; [apply c_op_ok in E; econstructor; eassumption|]. split; [reflexivity|discriminate].
  - destruct (run b) as [y| |]; cbn [bind] in H; try discriminate H. destruct (IHb y eq_refl) as (M & R & I). unfold d_op_roc, to_double in H.
    destruct (is_real y) eqn:Ry.
    + cbn [bind] in H. destruct (d_op o a (re (val y))) as [z| |] eqn:E; cbn [bind] in H; try discriminate H. injection H as <-. cbn.
      split; [|split; [congruence|reflexivity]]. econstructor; [exact M|]. apply c_op_ok.
      assert (Y : val y = real_number (re (val y))) by (apply C_eq; cbn [re im cplus cneg cmult real_number czero]; auto). rewrite Y, d_op_c, E. reflexivity.
    + destruct (c_op o (mkC a 0) (to_complex y)) as [z| |] eqn:E; cbn [bind] in H; try discriminate H. injection H as <-. cbn.
      split; [apply c_op_ok in E; econstructor; eassumption|]. split; [congruence|discriminate].
Qed.

Lemma run_complete e z : means e z -> exists v, run e = Ok v.
Proof.
  intros M. induction M as [ | | |e z M IH|e z M IH|o a b x y z Ma IHa Mb IHb Mo|o a b x z Ma IHa Mo|o a b x z Ma IHa Mo|o a b y z Mb IHb Mo|o a b y z Mb IHb Mo]; cbn [run].
  - eauto. - eauto. - eauto.
  - destruct IH as [v ->]. cbn [bind]. eauto.
  - destruct IH as [v ->]. cbn [bind]. eauto.
  - destruct IHa as [v Hv], IHb as [w Hw]. rewrite Hv, Hw. cbn [bind]. destruct (run_inv _ _ Hv) as (M1 & _ & _), (run_inv _ _ Hw) as (M2 & _ & _).
    rewrite (means_unique _ _ _ Ma M1), (means_unique _ _ _ Mb M2) in Mo. apply c_op_ok in Mo. unfold roc_op, roc_opc. rewrite Mo. cbn [bind]. eauto.
  - destruct IHa as [v Hv]. rewrite Hv. cbn [bind]. destruct (run_inv _ _ Hv) as (M1 & _ & _).
    rewrite (means_unique _ _ _ Ma M1) in Mo. apply c_op_ok in Mo. unfold roc_op_c, roc_opc_c. rewrite Mo. cbn [bind]. eauto.
  - destruct IHa as [v Hv]. rewrite Hv. cbn [bind]. destruct (run_inv _ _ Hv) as (M1 & _ & _).
    rewrite (means_unique _ _ _ Ma M1) in Mo. apply c_op_ok in Mo. unfold roc_op_d, roc_opc_d. rewrite c_op_d_ok, Mo. cbn [bind]. eauto.
  - destruct IHb as [v Hv]. rewrite Hv. cbn [bind]. destruct (run_inv _ _ Hv) as (M1 & _ & _).
    rewrite (means_unique _ _ _ Mb M1) in Mo. apply c_op_ok in Mo. unfold c_op_roc, to_complex. rewrite Mo. cbn [bind]. eauto.
  - destruct IHb as [v Hv]. rewrite Hv. cbn [bind]. destruct (run_inv _ _ Hv) as (M1 & _ & I).
    rewrite (means_unique _ _ _ Mb M1) in Mo. apply c_op_ok in Mo. unfold d_op_roc, to_double, to_complex. destruct (is_real v) eqn:R; cbn [bind].
    + assert (Y : val v = real_number (re (val v))) by (apply C_eq; cbn [re im cplus cneg cmult real_number czero]; auto). rewrite Y, d_op_c in Mo.
      destruct (d_op o a (re (val v))); cbn [bind] in Mo |- *; try discriminate Mo. eauto.
    + unfold real_number in Mo. rewrite Mo. cbn [bind]. eauto.
Qed.

(** The value computed is the complex number the expression stands for, and there is one whenever no divisor is zero. *)
Theorem C51_value : forall (e : expr) (z : dcomplex), means e z <-> exists v, run e = Ok v /\ to_complex v = z.
Proof.
  intros e z. split.
  - intros M. destruct (run_complete e z M) as [v Hv]. exists v. split; [exact Hv|]. eapply means_unique; [|exact M]. apply run_inv. exact Hv.
  - intros (v & Hv & <-). apply run_inv. exact Hv.
Qed.
Print Assumptions C51_value.

(** The result is flagged real exactly if no complex<double> occurs in the expression; then its imaginary part is zero and
    the conversion to double loses nothing; otherwise this conversion throws. *)
Theorem C51_real_flag : forall (e : expr) (v : roc), run e = Ok v ->
  is_real v = only_doubles e /\
  (only_doubles e = true -> to_double v = Ok (re (to_complex v)) /\ to_complex v = real_number (re (to_complex v))) /\
  (only_doubles e = false -> to_double v = Throw).
Proof.
  intros e v H. destruct (run_inv e v H) as (_ & R & I). split; [exact R|]. unfold to_double. rewrite R. split; intros E; rewrite E; [|reflexivity].
  split; [reflexivity|]. unfold to_complex. apply C_eq; [reflexivity|]. cbn. apply I. congruence.
Qed.
Print Assumptions C51_real_flag.

(** Comparison is equality of the complex numbers, whatever the flags; is_zero asks that both parts are below the tolerance. *)
Theorem C51_tests : forall (e e' : expr) (v v' : roc) (tol : double), run e = Ok v -> run e' = Ok v' -> 0 < tol ->
  (roc_eq v v' = true <-> to_complex v = to_complex v') /\
  (exists b, roc_is_zero v tol = Ok b /\ (b = true <-> Qcabs (re (to_complex v)) < tol /\ Qcabs (im (to_complex v)) < tol)).
Proof.
  intros e e' v v' tol H H' Ht. split.
  - unfold roc_eq, to_complex. rewrite is0_spec. cbn [re im].
    pose proof (norm_zero (mkC (re (val v) - re (val v')) (im (val v) - im (val v')))) as N. cbn [re im] in N. rewrite N. split.
    + intros E. pose proof (f_equal re E) as E1. pose proof (f_equal im E) as E2. cbn [re im czero] in E1, E2. apply C_eq.
      * replace (re (val v)) with (re (val v) - re (val v') + re (val v')) by ring. rewrite E1. ring.
      * replace (im (val v)) with (im (val v) - im (val v') + im (val v')) by ring. rewrite E2. ring.
    + intros ->. unfold czero. f_equal; ring.
  - destruct (run_inv e v H) as (_ & _ & I). unfold roc_is_zero, to_double, to_complex. destruct (is_real v); cbn [bind].
    + eexists. split; [reflexivity|]. unfold is_zero_d. rewrite (I eq_refl). destruct (Qclt_le_dec (Qcabs (re (val v))) tol) as [C|C].
      * split; [|auto]. intros _. split; [exact C|]. rewrite (Qcabs_pos 0) by apply Qcle_refl. exact Ht.
      * split; [discriminate|]. intros [C' _]. apply Qclt_not_le in C'. contradiction.
    + eexists. split; [reflexivity|]. unfold is_zero_c, is_zero_d. rewrite andb_true_iff.
      destruct (Qclt_le_dec (Qcabs (re (val v))) tol) as [C|C], (Qclt_le_dec (Qcabs (im (val v))) tol) as [D|D]; split; try tauto;
      try (intros [X Y]; discriminate X || discriminate Y); intros [X Y]; apply Qclt_not_le in X, Y; contradiction.
Qed.
Print Assumptions C51_tests.

(** (2 - i) * (2 + i) / 5, started from a double: the value is 1, the flag says complex *)
Example C51_ex : let q := fun n => Q2Qc (inject_Z n) in
  let e := BinD OpDiv (Bin OpMul (DBin OpSub (q 2%Z) (OfC (mkC 0 1))) (BinC OpAdd (OfD (q 2%Z)) (mkC 0 1))) (q 5%Z) in
  exists v, run e = Ok v /\ roc_eq v (roc_of_d 1) = true /\ is_real v = false.
Proof. eexists. split; [vm_compute; reflexivity|]. split; vm_compute; reflexivity. Qed.
