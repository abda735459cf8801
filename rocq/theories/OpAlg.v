(** Algebra of operator expressions up to equality of the stored operators: linear
    reasoning through coefficients, sums, products, commutators, one-body and two-body
    operators. *)
From Coq Require Import ZArith NArith List Bool Sorted Lia Setoid Morphisms Ring.
From Verif Require Import Base Indices Scalar Fock FockFacts OpModel OpExpr OpUnique Op_proofs.
Import ListNotations.

Section Sums.
  Context (S : scalar_ops) (L : scalar_laws S).
  Local Open Scope K_scope.
  Add Ring KringS : (sl_ring S L).
  (** sum over a list *)
  Definition Sm {A} (l : list A) (f : A -> S) : S := ksum (map f l).
  Lemma Sm_nil {A} (f : A -> S) : Sm [] f = k0. Proof. reflexivity. Qed.
  Lemma Sm_cons {A} x l (f : A -> S) : Sm (x :: l) f = f x + Sm l f. Proof. reflexivity. Qed.
  Lemma Sm_app {A} l1 l2 (f : A -> S) : Sm (l1 ++ l2) f = Sm l1 f + Sm l2 f.
  Proof. unfold Sm. rewrite map_app. apply (ksum_app S L). Qed.
  Lemma Sm_ext {A} l (f g : A -> S) : (forall x, In x l -> f x = g x) -> Sm l f = Sm l g.
  Proof. intros H. unfold Sm. f_equal. apply map_ext_in, H. Qed.
  Lemma Sm_add {A} l (f g : A -> S) : Sm l (fun x => f x + g x) = Sm l f + Sm l g.
  Proof. induction l as [|x l IH]; [rewrite !Sm_nil; ring|]. rewrite !Sm_cons, IH. ring. Qed.
  Lemma Sm_sub {A} l (f g : A -> S) : Sm l (fun x => f x - g x) = Sm l f - Sm l g.
  Proof. induction l as [|x l IH]; [rewrite !Sm_nil; ring|]. rewrite !Sm_cons, IH. ring. Qed.
  Lemma Sm_opp {A} l (f : A -> S) : Sm l (fun x => - f x) = - Sm l f.
  Proof. induction l as [|x l IH]; [rewrite !Sm_nil; ring|]. rewrite !Sm_cons, IH. ring. Qed.
  Lemma Sm_mul_r {A} l (f : A -> S) c : Sm l (fun x => f x * c) = Sm l f * c.
  Proof. induction l as [|x l IH]; [rewrite !Sm_nil; ring|]. rewrite !Sm_cons, IH. ring. Qed.
  Lemma Sm_mul_l {A} l (f : A -> S) c : Sm l (fun x => c * f x) = c * Sm l f.
  Proof. induction l as [|x l IH]; [rewrite !Sm_nil; ring|]. rewrite !Sm_cons, IH. ring. Qed.
  Lemma Sm_zero {A} l (f : A -> S) : (forall x, In x l -> f x = k0) -> Sm l f = k0.
  Proof.
    intros H. rewrite (Sm_ext l f (fun _ => k0)) by exact H. clear H.
    induction l as [|x l IH]; [reflexivity|]. rewrite Sm_cons, IH. ring.
  Qed.
  Lemma Sm_swap {A B} (l : list A) (m : list B) (f : A -> B -> S) :
    Sm l (fun x => Sm m (f x)) = Sm m (fun y => Sm l (fun x => f x y)).
  Proof.
    induction l as [|x l IH].
    - rewrite Sm_nil. symmetry. apply Sm_zero. reflexivity.
    - rewrite Sm_cons, IH, <- Sm_add. reflexivity.
  Qed.
  Lemma Sm_map {A B} (h : A -> B) l (f : B -> S) : Sm (map h l) f = Sm l (fun x => f (h x)).
  Proof. unfold Sm. rewrite map_map. reflexivity. Qed.
  Lemma Sm_flat_map {A B} (h : A -> list B) l (f : B -> S) : Sm (flat_map h l) f = Sm l (fun x => Sm (h x) f).
  Proof. induction l as [|x l IH]; [reflexivity|]. cbn [flat_map]. rewrite Sm_app, Sm_cons, IH. reflexivity. Qed.
  Lemma Sm_prod {A B} (l : list A) (m : list B) (f : A * B -> S) :
    Sm (list_prod l m) f = Sm l (fun x => Sm m (fun y => f (x, y))).
  Proof. induction l as [|x l IH]; [reflexivity|]. cbn [list_prod]. rewrite Sm_app, Sm_cons, IH, Sm_map. reflexivity. Qed.
  Lemma Sm_filter {A} (p : A -> bool) l (f : A -> S) : Sm (filter p l) f = Sm l (fun x => if p x then f x else k0).
  Proof. induction l as [|x l IH]; [reflexivity|]. cbn [filter]. destruct (p x) eqn:E; rewrite !Sm_cons, ?E, IH; [reflexivity|ring]. Qed.
  (** only one term is not zero *)
  Lemma Sm_single {A} l (a : A) (f : A -> S) : NoDup l -> In a l -> (forall x, In x l -> x <> a -> f x = k0) -> Sm l f = f a.
  Proof.
    induction l as [|x l IH]; intros HN Hin H; [destruct Hin|]. inversion_clear HN as [|? ? Hx HN'].
    rewrite Sm_cons. destruct Hin as [->|Hin].
    - rewrite Sm_zero; [ring|]. intros y Hy. apply H; [right; assumption|]. intros ->. contradiction.
    - rewrite IH; auto; [|intros; apply H; auto; right; assumption].
      rewrite H; [ring|left; reflexivity|]. intros ->. contradiction.
  Qed.
End Sums.

Section Alg.
  Context (S : scalar_ops) (L : scalar_laws S).
  Local Open Scope K_scope.
  Add Ring KringA : (sl_ring S L).
  Notation expr := (expr S).
  Notation Sm := (Sm S).

  (** the two expressions give the same stored operator *)
  Definition eqv (a b : expr) : Prop := eval a = eval b.
  Infix "==" := eqv (at level 70).
  Global Instance eqv_equiv : Equivalence eqv.
  Proof. split; [intros x; reflexivity|intros x y H; symmetry; exact H|intros x y z; unfold eqv; congruence]. Qed.
  Global Instance EAdd_m : Proper (eqv ==> eqv ==> eqv) (@EAdd S).
  Proof. intros a a' Ha b b' Hb. unfold eqv in *. cbn. rewrite Ha, Hb. reflexivity. Qed.
  Global Instance ESub_m : Proper (eqv ==> eqv ==> eqv) (@ESub S).
  Proof. intros a a' Ha b b' Hb. unfold eqv in *. cbn. rewrite Ha, Hb. reflexivity. Qed.
  Global Instance EMul_m : Proper (eqv ==> eqv ==> eqv) (@EMul S).
  Proof. intros a a' Ha b b' Hb. unfold eqv in *. cbn. rewrite Ha, Hb. reflexivity. Qed.
  Global Instance EMulS_m : Proper (eqv ==> eq ==> eqv) (@EMulS S).
  Proof. intros a a' Ha b b' <-. unfold eqv in *. cbn. rewrite Ha. reflexivity. Qed.
  Global Instance ENeg_m : Proper (eqv ==> eqv) (@ENeg S).
  Proof. intros a a' Ha. unfold eqv in *. cbn. rewrite Ha. reflexivity. Qed.
  Global Instance EDag_m : Proper (eqv ==> eqv) (@EDag S).
  Proof. intros a a' Ha. unfold eqv in *. cbn. rewrite Ha. reflexivity. Qed.

  (** coefficient of a monomial in the stored operator *)
  Definition cf (e : expr) (m : monomial) : S := match eval e with Some a => coef S m a | None => k0 end.
  Lemma cf_eqv a b : a == b <-> (forall m, cf a m = cf b m).
  Proof.
    split.
    - intros H m. unfold cf. rewrite H. reflexivity.
    - intros H. destruct (eval_wf S L a) as (x & Ex & Hx & _), (eval_wf S L b) as (y & Ey & Hy & _).
      unfold eqv. rewrite Ex, Ey. f_equal. apply (wf_coef_ext S); auto. intros m. specialize (H m). unfold cf in H. rewrite Ex, Ey in H. exact H.
  Qed.
  Global Instance cf_m : Proper (eqv ==> eq ==> eq) cf.
  Proof. intros a b H m m' <-. apply cf_eqv, H. Qed.
  Lemma cf_add a b m : cf (EAdd a b) m = cf a m + cf b m.
  Proof.
    destruct (eval_wf S L a) as (x & Ex & Hx & _), (eval_wf S L b) as (y & Ey & Hy & _).
    unfold cf. cbn [eval]. rewrite Ex, Ey. apply (coef_add S L); [apply Hx|apply Hy].
  Qed.
  Lemma cf_sub a b m : cf (ESub a b) m = cf a m - cf b m.
  Proof.
    destruct (eval_wf S L a) as (x & Ex & Hx & _), (eval_wf S L b) as (y & Ey & Hy & _).
    unfold cf. cbn [eval]. rewrite Ex, Ey. apply (coef_sub S L); [apply Hx|apply Hy].
  Qed.
  Lemma coef_map (h : S -> S) m (t : omap S) : h k0 = k0 -> coef S m (map (fun mc => (fst mc, h (snd mc))) t) = h (coef S m t).
  Proof.
    intros H0. unfold coef. induction t as [|[m' c] t IH]; cbn; [symmetry; exact H0|].
    destruct (mcmp m m'); cbn; auto.
  Qed.
  Lemma cf_neg a m : cf (ENeg a) m = - cf a m.
  Proof.
    destruct (eval_wf S L a) as (x & Ex & Hx & _). unfold cf. cbn [eval]. rewrite Ex. cbn. unfold op_neg. apply (coef_map (fun c => - c)). ring.
  Qed.
  Lemma cf_muls a x m : cf (EMulS a x) m = cf a m * x.
  Proof.
    destruct (eval_wf S L a) as (t & Ex & Hx & _). unfold cf. cbn [eval]. rewrite Ex. cbn. unfold op_mul_scalar.
    destruct (kisz x) eqn:E.
    - apply (sl_isz S L) in E. subst x. unfold coef at 1. cbn. ring.
    - apply (coef_map (fun c => c * x)). ring.
  Qed.
  Lemma cf_zero m : cf (EScal k0) m = k0.
  Proof. unfold cf. cbn [eval]. unfold op_scalar. assert (kisz (k0 : S) = true) as -> by (apply (sl_isz S L); reflexivity). reflexivity. Qed.
  Lemma cf_scal x m : cf (EScal x) m = cf (EScal k1) m * x.
  Proof.
    rewrite <- cf_muls. apply cf_eqv. apply (thm_same_meaning S L). intros pos v g _. unfold meaning. cbn [den cj].
    rewrite !(amp_scale S L). ring.
  Qed.
  (** linear combinations *)
  Ltac lin := apply cf_eqv; intros ?m; repeat first [rewrite cf_add | rewrite cf_sub | rewrite cf_neg | rewrite cf_muls | rewrite cf_zero]; try ring.

  Lemma zero_eval (e : expr) : e == EScal k0 <-> eval e = Some [].
  Proof.
    unfold eqv. cbn. unfold op_scalar. assert (kisz (k0 : S) = true) as -> by (apply (sl_isz S L); reflexivity). tauto.
  Qed.
  Lemma mul_assoc a b c : EMul (EMul a b) c == EMul a (EMul b c). Proof. apply (thm_ring_laws S L a b c). Qed.
  Lemma mul_add_r a b c : EMul a (EAdd b c) == EAdd (EMul a b) (EMul a c). Proof. apply (thm_ring_laws S L a b c). Qed.
  Lemma mul_add_l a b c : EMul (EAdd a b) c == EAdd (EMul a c) (EMul b c). Proof. apply (thm_ring_laws S L a b c). Qed.
  Lemma mul_muls_l a x b : EMul (EMulS a x) b == EMulS (EMul a b) x.
  Proof. apply (thm_same_meaning S L). intros pos v g _. reflexivity. Qed.
  Lemma den_scale pos adj (e : expr) x v g : modes_distinct pos (uses e) ->
    amp (den pos adj e (scale x v)) g = x * amp (den pos adj e v) g.
  Proof.
    intros Hinj. destruct (eval_wf S L e) as (a & E & _).
    rewrite !(eval_den S L pos e Hinj a E). generalize (fun f => conj_mel S pos adj a f g). intros F.
    induction v as [|[y f] v IH]; simpl; [ring|]. simpl in IH. rewrite IH. ring.
  Qed.
  Lemma mul_muls_r a x b : EMul a (EMulS b x) == EMulS (EMul a b) x.
  Proof.
    apply (thm_same_meaning S L). intros pos v g H. unfold meaning. cbn [den cj]. rewrite (amp_scale S L). apply den_scale.
    intros i j Hi Hj. apply H; cbn; auto.
  Qed.
  Lemma neg_muls a : ENeg a == EMulS a (- k1). Proof. lin. Qed.
  Lemma sub_add a b : ESub a b == EAdd a (EMulS b (- k1)). Proof. lin. Qed.
  Lemma mul_sub_r a b c : EMul a (ESub b c) == ESub (EMul a b) (EMul a c).
  Proof. rewrite !sub_add, mul_add_r, mul_muls_r. reflexivity. Qed.
  Lemma mul_sub_l a b c : EMul (ESub a b) c == ESub (EMul a c) (EMul b c).
  Proof. rewrite !sub_add, mul_add_l, mul_muls_l. reflexivity. Qed.
  Lemma mul_scal_l x a : EMul (EScal x) a == EMulS a x.
  Proof. apply (thm_same_meaning S L). intros pos v g _. reflexivity. Qed.
  Lemma mul_scal_r x a : EMul a (EScal x) == EMulS a x.
  Proof.
    apply (thm_same_meaning S L). intros pos v g H. unfold meaning. cbn [den cj]. rewrite (amp_scale S L). apply den_scale.
    intros i j Hi Hj. apply H; cbn; auto.
  Qed.
  Lemma en_mul i : EN i == EMul (ECdag i) (EC i).
  Proof. apply (thm_same_meaning S L). intros pos v g _. reflexivity. Qed.

  Lemma dag_mul a b : EDag (EMul a b) == EMul (EDag b) (EDag a). Proof. apply (thm_dagger_mul S L a b). Qed.
  Lemma dag_add a b : EDag (EAdd a b) == EAdd (EDag a) (EDag b). Proof. apply (thm_dagger_mul S L a b). Qed.
  Lemma dag_muls a x : EDag (EMulS a x) == EMulS (EDag a) (kconj x). Proof. apply (thm_dagger_mul S L a a). Qed.
  Lemma dag_scal x : EDag (EScal x) == EScal (kconj x).
  Proof. apply (thm_same_meaning S L). intros pos v g _. reflexivity. Qed.
  Lemma dag_c i : EDag (EC i) == ECdag i.
  Proof. apply (thm_same_meaning S L). intros pos v g _. reflexivity. Qed.
  Lemma dag_cdag i : EDag (ECdag i) == EC i.
  Proof. apply (thm_same_meaning S L). intros pos v g _. reflexivity. Qed.

  (** ---- sums of expressions ---- *)
  Definition esum {A} (l : list A) (f : A -> expr) : expr := fold_right (fun x e => EAdd (f x) e) (EScal k0) l.
  Lemma cf_esum {A} (l : list A) f m : cf (esum l f) m = Sm l (fun x => cf (f x) m).
  Proof. induction l as [|x l IH]; [apply cf_zero|]. cbn [esum fold_right]. rewrite cf_add, (Sm_cons S). f_equal. exact IH. Qed.
  Lemma esum_ext {A} (l : list A) f g : (forall x, In x l -> f x == g x) -> esum l f == esum l g.
  Proof. intros H. apply cf_eqv. intros m. rewrite !cf_esum. apply Sm_ext. intros x Hx. apply cf_eqv, H, Hx. Qed.
  Lemma esum_mul_l {A} (l : list A) f b : EMul (esum l f) b == esum l (fun x => EMul (f x) b).
  Proof.
    induction l as [|x l IH]; cbn [esum fold_right].
    - rewrite mul_scal_l. lin.
    - rewrite mul_add_l. change (fold_right (fun x e => EAdd (f x) e) (EScal k0) l) with (esum l f). rewrite IH. reflexivity.
  Qed.
  Lemma esum_mul_r {A} (l : list A) f b : EMul b (esum l f) == esum l (fun x => EMul b (f x)).
  Proof.
    induction l as [|x l IH]; cbn [esum fold_right].
    - rewrite mul_scal_r. lin.
    - rewrite mul_add_r. change (fold_right (fun x e => EAdd (f x) e) (EScal k0) l) with (esum l f). rewrite IH. reflexivity.
  Qed.
  Lemma dag_zero : EDag (EScal k0) == EScal k0.
  Proof. rewrite dag_scal. unfold eqv. rewrite (kconj_0 S L). reflexivity. Qed.
  Lemma dag_esum {A} (l : list A) f : EDag (esum l f) == esum l (fun x => EDag (f x)).
  Proof.
    induction l as [|x l IH]; cbn [esum fold_right]; [apply dag_zero|].
    rewrite dag_add. change (fold_right (fun x e => EAdd (f x) e) (EScal k0) l) with (esum l f). rewrite IH. reflexivity.
  Qed.
  (** the accumulation loops of the code *)
  Lemma fold_add {A} (l : list A) (f : A -> expr) H0 : fold_left (fun H x => EAdd H (f x)) l H0 == EAdd H0 (esum l f).
  Proof.
    revert H0. induction l as [|x l IH]; intros H0; cbn [fold_left].
    - cbn [esum fold_right]. lin.
    - rewrite IH. cbn [esum fold_right]. change (fold_right (fun x e => EAdd (f x) e) (EScal k0) l) with (esum l f). lin.
  Qed.
  Lemma fold_ext {A} (l : list A) (g g' : expr -> A -> expr) H0 H0' :
    (forall x H H', In x l -> H == H' -> g H x == g' H' x) -> H0 == H0' -> fold_left g l H0 == fold_left g' l H0'.
  Proof.
    revert H0 H0'. induction l as [|x l IH]; intros H0 H0' Hg HH; cbn [fold_left]; [exact HH|].
    apply IH; [intros; apply Hg; [right; assumption|assumption]|]. apply Hg; [left; reflexivity|exact HH].
  Qed.

  (** ---- anticommutation ---- *)
  Definition dl (i j : indices) : S := if ieqb i j then k1 else k0.
  Lemma cc i j : EMul (EC i) (EC j) == EMulS (EMul (EC j) (EC i)) (- k1).
  Proof.
    pose proof (thm_car_cc S L i j) as H. apply zero_eval in H. apply cf_eqv. intros m. apply cf_eqv with (m := m) in H.
    rewrite cf_add, cf_zero in H. rewrite cf_muls.
    transitivity (cf (EMul (EC i) (EC j)) m + cf (EMul (EC j) (EC i)) m - cf (EMul (EC j) (EC i)) m); [ring|]. rewrite H. ring.
  Qed.
  Lemma cdcd i j : EMul (ECdag i) (ECdag j) == EMulS (EMul (ECdag j) (ECdag i)) (- k1).
  Proof.
    pose proof (thm_car_cdcd S L i j) as H. apply zero_eval in H. apply cf_eqv. intros m. apply cf_eqv with (m := m) in H.
    rewrite cf_add, cf_zero in H. rewrite cf_muls.
    transitivity (cf (EMul (ECdag i) (ECdag j)) m + cf (EMul (ECdag j) (ECdag i)) m - cf (EMul (ECdag j) (ECdag i)) m); [ring|]. rewrite H. ring.
  Qed.
  Lemma ccd i j : EMul (EC i) (ECdag j) == ESub (EScal (dl i j)) (EMul (ECdag j) (EC i)).
  Proof.
    pose proof (thm_car_ccd S L i j) as H. fold (dl i j) in H. apply cf_eqv. intros m. apply cf_eqv with (m := m) in H.
    rewrite cf_add in H. rewrite cf_sub, <- H. ring.
  Qed.
  Lemma ieqb_same i : ieqb i i = true. Proof. apply ieqb_eq. reflexivity. Qed.
  Lemma dl_sym i j : dl i j = dl j i.
  Proof.
    unfold dl. destruct (ieqb i j) eqn:E1.
    - apply ieqb_eq in E1. subst. rewrite ieqb_same. reflexivity.
    - destruct (ieqb j i) eqn:E2; [|reflexivity]. apply ieqb_eq in E2. subst. rewrite ieqb_same in E1. discriminate.
  Qed.
  Lemma dl_eq i : dl i i = k1. Proof. unfold dl. rewrite ieqb_same. reflexivity. Qed.
  Lemma dl_neq i j : i <> j -> dl i j = k0.
  Proof. intros H. unfold dl. destruct (ieqb i j) eqn:E; [|reflexivity]. apply ieqb_eq in E. contradiction. Qed.
  Lemma cd_same_zero i a : EMul (ECdag i) (EMul (ECdag i) a) == EScal k0.
  Proof.
    rewrite <- mul_assoc. assert (EMul (ECdag i) (ECdag i) == EScal k0) as ->.
    { apply (thm_same_meaning S L). intros pos v g _. unfold meaning. cbn [den negb cj]. unfold act1.
      rewrite (amp_scale S L), <- (apply_mono_comp pos S L), (amp_apply_mono pos S L). cbn [app].
      rewrite (vsum_ext S _ (fun _ => k0)); [rewrite (vsum_zero S L); ring|]. intros f. apply (mel_ctx_zero pos S _ _ [] []); reflexivity. }
    rewrite mul_scal_l. lin.
  Qed.
  Lemma c_same_zero i a : EMul (EC i) (EMul (EC i) a) == EScal k0.
  Proof.
    rewrite <- mul_assoc. assert (EMul (EC i) (EC i) == EScal k0) as ->.
    { apply (thm_same_meaning S L). intros pos v g _. unfold meaning. cbn [den negb cj]. unfold act1.
      rewrite (amp_scale S L), <- (apply_mono_comp pos S L), (amp_apply_mono pos S L). cbn [app].
      rewrite (vsum_ext S _ (fun _ => k0)); [rewrite (vsum_zero S L); ring|]. intros f. apply (mel_ctx_zero pos S _ _ [] []); reflexivity. }
    rewrite mul_scal_l. lin.
  Qed.

  (** ---- commutators ---- *)
  Definition comm (a b : expr) : expr := ESub (EMul a b) (EMul b a).
  Global Instance comm_m : Proper (eqv ==> eqv ==> eqv) comm.
  Proof. intros a a' Ha b b' Hb. unfold comm. rewrite Ha, Hb. reflexivity. Qed.
  Lemma comm_zero a b : comm a b == EScal k0 <-> EMul a b == EMul b a.
  Proof.
    unfold comm. rewrite !cf_eqv. split; intros H m; specialize (H m).
    - rewrite cf_sub, cf_zero in H. transitivity (cf (EMul a b) m - cf (EMul b a) m + cf (EMul b a) m); [ring|]. rewrite H. ring.
    - rewrite cf_sub, cf_zero, H. ring.
  Qed.
  Lemma comm_mul_r x a b : comm x (EMul a b) == EAdd (EMul (comm x a) b) (EMul a (comm x b)).
  Proof. unfold comm. rewrite mul_sub_l, mul_sub_r, !mul_assoc. lin. Qed.
  Lemma comm_add_r x a b : comm x (EAdd a b) == EAdd (comm x a) (comm x b).
  Proof. unfold comm. rewrite mul_add_r, mul_add_l. lin. Qed.
  Lemma comm_add_l a b x : comm (EAdd a b) x == EAdd (comm a x) (comm b x).
  Proof. unfold comm. rewrite mul_add_r, mul_add_l. lin. Qed.
  Lemma comm_muls_r x a c : comm x (EMulS a c) == EMulS (comm x a) c.
  Proof. unfold comm. rewrite mul_muls_r, mul_muls_l. lin. Qed.
  Lemma comm_muls_l x a c : comm (EMulS x c) a == EMulS (comm x a) c.
  Proof. unfold comm. rewrite mul_muls_r, mul_muls_l. lin. Qed.
  Lemma comm_esum_r {A} x (l : list A) f : comm x (esum l f) == esum l (fun y => comm x (f y)).
  Proof. unfold comm. rewrite esum_mul_l, esum_mul_r. apply cf_eqv. intros m. rewrite cf_sub, !cf_esum, <- (Sm_sub S L). apply Sm_ext. intros. rewrite cf_sub. reflexivity. Qed.
  Lemma comm_esum_l {A} x (l : list A) f : comm (esum l f) x == esum l (fun y => comm (f y) x).
  Proof. unfold comm. rewrite esum_mul_l, esum_mul_r. apply cf_eqv. intros m. rewrite cf_sub, !cf_esum, <- (Sm_sub S L). apply Sm_ext. intros. rewrite cf_sub. reflexivity. Qed.
  Definition bil (i j : indices) : expr := EMul (ECdag i) (EC j).
  Lemma comm_bil_cdag i j k : comm (bil i j) (ECdag k) == EMulS (ECdag i) (dl j k).
  Proof.
    unfold comm, bil. rewrite mul_assoc, ccd, mul_sub_r, mul_scal_r, <- (mul_assoc (ECdag i)), (cdcd i k), mul_muls_l, mul_assoc. lin.
  Qed.
  Lemma comm_bil_c i j k : comm (bil i j) (EC k) == EMulS (EC j) (- dl k i).
  Proof.
    unfold comm, bil. rewrite mul_assoc, (cc j k), mul_muls_r, <- (mul_assoc (EC k)), ccd, mul_sub_l, mul_scal_l, mul_assoc. lin.
  Qed.
End Alg.
