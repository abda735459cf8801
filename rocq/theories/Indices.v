(** The indices of canonical operators and their order.

    c++/triqs/hilbert_space/fundamental_operator_set.hpp:38
      using indices_t = std::vector<std::variant<long, std::string>>;
    The comparisons are those of the C++ standard library: a variant compares the
    position of its alternative first (long before string), then the value; a
    string compares character codes lexicographically; a vector lexicographically. *)
From Coq Require Import ZArith List Bool String Ascii Lia OrderedTypeEx.
Import ListNotations.

Inductive lbl : Type :=
| LInt (z : Z)        (* alternative 0 : long, values unbounded here *)
| LStr (s : string).  (* alternative 1 : std::string *)

Definition indices : Type := list lbl.

(** std::string comparison (char_traits<char>::compare, unsigned char codes). *)
Fixpoint str_cmp (a b : string) : comparison :=
  match a, b with
  | EmptyString, EmptyString => Eq
  | EmptyString, String _ _ => Lt
  | String _ _, EmptyString => Gt
  | String x a', String y b' =>
      match N.compare (N_of_ascii x) (N_of_ascii y) with
      | Eq => str_cmp a' b'
      | c => c
      end
  end.

(** operator< of std::variant<long, std::string> *)
Definition lbl_cmp (a b : lbl) : comparison :=
  match a, b with
  | LInt x, LInt y => Z.compare x y
  | LInt _, LStr _ => Lt
  | LStr _, LInt _ => Gt
  | LStr x, LStr y => str_cmp x y
  end.

(** operator< of std::vector : lexicographic *)
Section Lex.
  Context {A : Type} (cmp : A -> A -> comparison).
  Fixpoint lex_cmp (a b : list A) : comparison :=
    match a, b with
    | [], [] => Eq
    | [], _ :: _ => Lt
    | _ :: _, [] => Gt
    | x :: a', y :: b' => match cmp x y with Eq => lex_cmp a' b' | c => c end
    end.
End Lex.

Definition icmp : indices -> indices -> comparison := lex_cmp lbl_cmp.

(** What it takes for a three-way comparison to be a total order. *)
Record order_ok {A} (cmp : A -> A -> comparison) : Prop := {
  oc_eq : forall x y, cmp x y = Eq <-> x = y;
  oc_anti : forall x y, cmp y x = CompOpp (cmp x y);
  oc_trans : forall x y z, cmp x y = Lt -> cmp y z = Lt -> cmp x z = Lt }.

Lemma oc_refl {A} cmp (H : @order_ok A cmp) x : cmp x x = Eq.
Proof. apply (oc_eq _ H). reflexivity. Qed.

Lemma oc_gt_lt {A} cmp (H : @order_ok A cmp) x y : cmp x y = Gt <-> cmp y x = Lt.
Proof. rewrite (oc_anti _ H x y). destruct (cmp x y); simpl; split; congruence. Qed.

Lemma lex_ok {A} (cmp : A -> A -> comparison) : order_ok cmp -> order_ok (lex_cmp cmp).
Proof.
  intros H. split.
  - induction x as [|a x IH]; destruct y as [|b y]; simpl; try (split; congruence).
    destruct (cmp a b) eqn:E.
    + apply (oc_eq _ H) in E. subst. rewrite IH. split; congruence.
    + split; [congruence|]. intros E2. injection E2 as -> ->. rewrite (oc_refl _ H) in E. congruence.
    + split; [congruence|]. intros E2. injection E2 as -> ->. rewrite (oc_refl _ H) in E. congruence.
  - induction x as [|a x IH]; destruct y as [|b y]; simpl; try reflexivity.
    rewrite (oc_anti _ H a b). destruct (cmp a b); simpl; auto.
  - induction x as [|a x IH]; destruct y as [|b y]; destruct z as [|c z]; simpl; try congruence.
    intros H1 H2.
    destruct (cmp a b) eqn:E1.
    + apply (oc_eq _ H) in E1. subst. destruct (cmp b c); try congruence. eauto.
    + destruct (cmp b c) eqn:E2; try congruence.
      * apply (oc_eq _ H) in E2. subst. rewrite E1. reflexivity.
      * rewrite (oc_trans _ H _ _ _ E1 E2). reflexivity.
    + congruence.
Qed.

Lemma N_of_ascii_inj a b : N_of_ascii a = N_of_ascii b -> a = b.
Proof. intros E. rewrite <- (ascii_N_embedding a), <- (ascii_N_embedding b). congruence. Qed.

Lemma str_ok : order_ok str_cmp.
Proof.
  split.
  - induction x as [|a x IH]; destruct y as [|b y]; simpl; try (split; congruence).
    destruct (N.compare_spec (N_of_ascii a) (N_of_ascii b)).
    + apply N_of_ascii_inj in H. subst. rewrite IH. split; congruence.
    + split; [congruence|]. intros E2. injection E2 as -> ->. lia.
    + split; [congruence|]. intros E2. injection E2 as -> ->. lia.
  - induction x as [|a x IH]; destruct y as [|b y]; simpl; try reflexivity.
    rewrite (N.compare_antisym (N_of_ascii a)). destruct (N.compare (N_of_ascii a) _); simpl; auto.
  - induction x as [|a x IH]; destruct y as [|b y]; destruct z as [|c z]; simpl; try congruence.
    intros H1 H2.
    destruct (N.compare_spec (N_of_ascii a) (N_of_ascii b));
    destruct (N.compare_spec (N_of_ascii b) (N_of_ascii c));
    destruct (N.compare_spec (N_of_ascii a) (N_of_ascii c)); try congruence; try lia; eauto.
Qed.

Lemma lbl_ok : order_ok lbl_cmp.
Proof.
  split.
  - destruct x, y; simpl; try (split; congruence).
    + rewrite Z.compare_eq_iff. split; congruence.
    + rewrite (oc_eq _ str_ok). split; congruence.
  - destruct x, y; simpl; try reflexivity.
    + rewrite Z.compare_antisym. reflexivity.
    + apply (oc_anti _ str_ok).
  - intros u v w. destruct u, v, w; simpl; intros H1 H2; try congruence.
    + apply Z.compare_lt_iff. apply Z.compare_lt_iff in H1. apply Z.compare_lt_iff in H2. eapply Z.lt_trans; eassumption.
    + exact (oc_trans _ str_ok _ _ _ H1 H2).
Qed.

Lemma icmp_ok : order_ok icmp.
Proof. exact (lex_ok _ lbl_ok). Qed.

Definition cmp_eqb {A} (cmp : A -> A -> comparison) (x y : A) : bool :=
  match cmp x y with Eq => true | _ => false end.
Definition cmp_ltb {A} (cmp : A -> A -> comparison) (x y : A) : bool :=
  match cmp x y with Lt => true | _ => false end.

Lemma cmp_eqb_eq {A} cmp (H : @order_ok A cmp) x y : cmp_eqb cmp x y = true <-> x = y.
Proof. unfold cmp_eqb. rewrite <- (oc_eq _ H). destruct (cmp x y); split; congruence. Qed.

(** equality of indices (operator== of the vector) *)
Definition ieqb : indices -> indices -> bool := cmp_eqb icmp.
Lemma ieqb_eq x y : ieqb x y = true <-> x = y.
Proof. exact (cmp_eqb_eq icmp icmp_ok x y). Qed.
Lemma ieqb_neq x y : ieqb x y = false <-> x <> y.
Proof. rewrite <- ieqb_eq. destruct (ieqb x y); split; congruence. Qed.
Lemma indices_eq_dec (x y : indices) : {x = y} + {x <> y}.
Proof. destruct (ieqb x y) eqn:E; [left; apply ieqb_eq; auto | right; apply ieqb_neq; auto]. Qed.
