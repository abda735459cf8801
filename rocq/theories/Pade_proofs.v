From Coq Require Import List Arith Bool Lia Field.
From Verif Require Import Base Pade.
Import ListNotations.

Record field_laws (K : field_ops) : Prop := {
  fl_field : field_theory (@f0 K) f1 fadd fmul fsub fopp fdiv finv eq;
  fl_eqb : forall x y : K, feqb x y = true <-> x = y }.

Lemma mapR_ok {A B : Type} (f : A -> res B) l ys : mapR f l = Ok ys -> length ys = length l /\
  forall k x, nth_error l k = Some x -> exists y, nth_error ys k = Some y /\ f x = Ok y.
Proof.
  revert ys. induction l as [|a l IH]; intros ys H; cbn [mapR] in H.
  - injection H as <-. split; [reflexivity|]. intros [|k] x; discriminate.
  - destruct (f a) as [y| |] eqn:E; cbn [bind] in H; try discriminate H.
    destruct (mapR f l) as [ys'| |] eqn:E'; cbn [bind] in H; try discriminate H. injection H as <-.
    destruct (IH ys' eq_refl) as [H1 H2]. split; [cbn; congruence|]. intros [|k] x Hk; cbn in *.
    + injection Hk as <-. exists y. auto.
    + apply H2. exact Hk.
Qed.

Lemma nth_firstn' {A : Type} (d : A) : forall n j l, j < n -> nth j (firstn n l) d = nth j l d.
Proof.
  induction n as [|n IH]; intros j l Hj; [lia|]. destruct l as [|u l]; [destruct j; reflexivity|]. destruct j; [reflexivity|]. cbn. apply IH. lia.
Qed.

Section P.
  Context (K : field_ops) (L : field_laws K).
  Variable small : K -> bool.
  Declare Scope F_scope.
  Local Notation "x + y" := (fadd x y) : F_scope.
  Local Notation "x * y" := (fmul x y) : F_scope.
  Local Notation "x - y" := (fsub x y) : F_scope.
  Local Open Scope F_scope.
  Add Field Kf : (fl_field K L).

  Lemma feqb_false (x y : K) : feqb x y = false <-> x <> y.
  Proof. rewrite <- (fl_eqb K L x y). destruct (feqb x y); split; congruence. Qed.

  (** the relation between two rows *)
  Definition linked (zs r r' : list K) (p : nat) : Prop :=
    forall j, (p <= j < length zs)%nat ->
      nth j r f0 * (f1 + (nth j zs f0 - nth (p - 1) zs f0) * nth j r' f0) = nth (p - 1) r f0.

  Lemma g_row_linked zs r r' p : g_row K zs r p = Ok r' -> linked zs r r' p.
  Proof.
    intros H j Hj. apply mapR_ok in H. destruct H as [Hl Hn].
    destruct (Hn j j) as (y & Ey & Fy); [rewrite (nth_error_nth' _ 0%nat) by (rewrite seq_length; lia); rewrite seq_nth by lia; reflexivity|].
    rewrite (nth_error_nth r' j f0 Ey). unfold g_entry in Fy. destruct (Nat.ltb_spec j p); [lia|]. unfold gdiv in Fy.
    destruct (feqb (nth j r f0) f0) eqn:E1; cbn [bind] in Fy; [discriminate Fy|].
    destruct (feqb (nth j zs f0 - nth (p - 1) zs f0) f0) eqn:E2; [discriminate Fy|]. injection Fy as <-.
    apply feqb_false in E1. apply feqb_false in E2. field. auto.
  Qed.

  Lemma g_rows_linked zs : forall todo row p rs, g_rows K small zs row p todo = Ok rs -> (1 <= p)%nat ->
    forall k, (k < todo)%nat -> (forall q, (q <= k)%nat -> small (nth (p + q - 1) (nth q (row :: rs) []) f0) = false) ->
    linked zs (nth k (row :: rs) []) (nth (S k) (row :: rs) []) (p + k).
  Proof.
    induction todo as [|todo IH]; intros row p rs H Hp k Hk Hs; [lia|]. cbn [g_rows] in H.
    pose proof (Hs O (Nat.le_0_l k)) as S0. cbn [nth] in S0. rewrite Nat.add_0_r in S0. rewrite S0 in H.
    destruct (g_row K zs row p) as [r| |] eqn:E; cbn [bind] in H; try discriminate H.
    destruct (g_rows K small zs r (S p) todo) as [rs'| |] eqn:E'; cbn [bind] in H; try discriminate H. injection H as <-.
    destruct k as [|k].
    - rewrite Nat.add_0_r. cbn [nth]. apply g_row_linked. exact E.
    - change (nth (S k) (row :: r :: rs') []) with (nth k (r :: rs') []). change (nth (S (S k)) (row :: r :: rs') []) with (nth (S k) (r :: rs') []).
      replace (p + S k)%nat with (S p + k)%nat by lia. apply (IH r (S p) rs' E'); [lia|lia|].
      intros q Hq. specialize (Hs (S q) ltac:(lia)). cbn [nth] in Hs. replace (p + S q - 1)%nat with (S p + q - 1)%nat in Hs by lia. exact Hs.
  Qed.

  Section Eval.
    Variables (zs us a : list K) (j : nat).
    Hypothesis Ha : pade K small zs us = Ok a.
    Hypothesis Hj : (j < length zs)%nat.
    Hypothesis Hs : forall p, (p < j)%nat -> small (nth p a f0) = false.

    Lemma tails : length a = length zs /\ (length zs <= length us)%nat /\ exists T : nat -> K, T O = nth j us f0 /\ T j = nth j a f0 /\
      forall p, (p < j)%nat -> T p * (f1 + (nth j zs f0 - nth p zs f0) * T (S p)) = nth p a f0.
    Proof.
      unfold pade in Ha. destruct (Nat.ltb_spec (length us) (length zs)) as [|Hl]; [discriminate Ha|].
      set (r0 := firstn (length zs) us) in *. destruct (g_rows K small zs r0 1 (length zs - 1)) as [rs| |] eqn:E; cbn [bind] in Ha; try discriminate Ha.
      injection Ha as Ea. assert (La : length a = length zs) by (rewrite <- Ea, map_length, seq_length; reflexivity).
      split; [exact La|]. split; [exact Hl|].
      assert (At : forall p, (p < length zs)%nat -> nth p a f0 = nth p (nth p (r0 :: rs) []) f0).
      { intros p Hp. rewrite <- Ea. rewrite (nth_indep _ f0 (nth 0 (nth 0 (r0 :: rs) []) f0)) by (rewrite map_length, seq_length; exact Hp).
        rewrite (map_nth (fun j => nth j (nth j (r0 :: rs) []) f0)). rewrite seq_nth by exact Hp. reflexivity. }
      exists (fun p => nth j (nth p (r0 :: rs) []) f0). split; [|split].
      - cbn [nth]. unfold r0. apply nth_firstn'. exact Hj.
      - symmetry. apply At. exact Hj.
      - intros p Hp. rewrite (At p) by lia.
        pose proof (g_rows_linked zs _ _ _ _ E (le_n 1) p ltac:(lia)) as G.
        assert (G' : linked zs (nth p (r0 :: rs) []) (nth (S p) (r0 :: rs) []) (1 + p)).
        { apply G. intros q Hq. replace (1 + q - 1)%nat with q by lia. rewrite <- At by lia. apply Hs. lia. }
        specialize (G' j ltac:(lia)). replace (1 + p - 1)%nat with p in G' by lia. exact G'.
    Qed.

    (** before point j: the fraction with the exact tail is u_j *)
    Lemma loop_at v : p_eval K zs a (nth j zs f0) = Ok v -> v = nth j us f0.
    Proof.
      destruct tails as (La & Lu & T & T0 & Tj & Tr). unfold p_eval. destruct a as [|a0 a'] eqn:Ea; [discriminate|]. rewrite <- Ea in *.
      assert (A0 : nth 0 a f0 = a0) by (rewrite Ea; reflexivity). rewrite <- A0. clear A0 Ea a0 a'. set (z := nth j zs f0) in *. set (u := nth j us f0) in *.
      (** after point j the value no longer changes *)
      assert (Post : forall todo i A B1 w, p_loop K zs a z i todo (A * B1) A B1 = Ok w -> w = A).
      { induction todo as [|todo IH]; intros i A B1 w H; cbn [p_loop] in H; [congruence|]. cbv zeta in H.
        set (t := (z - nth i zs f0) * nth (S i) a f0) in *. destruct (feqb (f1 + t * B1) f0) eqn:E; [discriminate H|]. apply feqb_false in E.
        assert (E1 : fdiv A (f1 + t * B1) = A * fdiv f1 (f1 + t * B1)) by (field; exact E).
        assert (E2 : fdiv (A + t * (A * B1)) (f1 + t * B1) = A) by (field; exact E).
        rewrite E1, E2 in H. apply IH in H. exact H. }
      assert (Pre : forall d i A1 A2 B1 todo w, (i + d = j)%nat -> (i + todo = length a - 1)%nat ->
        (d = O -> u = A2) -> (d <> O -> u * (f1 + (z - nth i zs f0) * T (S i) * B1) = A2 + (z - nth i zs f0) * T (S i) * A1) ->
        p_loop K zs a z i todo A1 A2 B1 = Ok w -> w = u).
      { induction d as [|d IH]; intros i A1 A2 B1 todo w Hi Ht H0 H1 H.
        - specialize (H0 eq_refl). destruct todo as [|todo]; cbn [p_loop] in H; [congruence|]. cbv zeta in H.
          assert (Zi : z - nth i zs f0 = f0) by (replace i with j by lia; unfold z; ring). rewrite Zi in H.
          destruct (feqb (f1 + f0 * nth (S i) a f0 * B1) f0) eqn:E; [discriminate H|].
          assert (One : f1 + f0 * nth (S i) a f0 * B1 = f1) by ring. rewrite One in H.
          assert (N1 : (f1 : K) <> f0) by (rewrite One in E; apply feqb_false in E; exact E).
          assert (E1 : fdiv A2 f1 = A2 * fdiv f1 f1) by (field; exact N1). assert (E2 : fdiv (A2 + f0 * nth (S i) a f0 * A1) f1 = A2) by (field; exact N1).
          rewrite E1, E2 in H. apply Post in H. congruence.
        - specialize (H1 ltac:(discriminate)). destruct todo as [|todo]; [lia|]. cbn [p_loop] in H. cbv zeta in H.
          set (t := (z - nth i zs f0) * nth (S i) a f0) in *. destruct (feqb (f1 + t * B1) f0) eqn:E; [discriminate H|]. apply feqb_false in E.
          set (x := (z - nth i zs f0) * T (S i)) in *.
          destruct d as [|d].
          + (* S i = j *)
            assert (Et : t = x) by (unfold t, x; replace (S i) with j by lia; rewrite Tj; reflexivity).
            apply (IH (S i) _ _ _ todo w) in H; [exact H|lia|lia| |congruence].
            intros _. rewrite Et. rewrite Et in E. assert (G : A2 + x * A1 = u * (f1 + x * B1)) by (symmetry; exact H1). rewrite G. field. exact E.
          + apply (IH (S i) _ _ _ todo w) in H; [exact H|lia|lia|discriminate|]. intros _.
            set (x' := (z - nth (S i) zs f0) * T (S (S i))).
            assert (Et : t = x * (f1 + x')).
            { unfold t, x, x'. rewrite <- (Tr (S i)) by lia. fold z. ring. }
            assert (G : A2 + x * A1 = u * (f1 + x * B1)) by (symmetry; exact H1).
            assert (G2 : A2 = u * (f1 + x * B1) - x * A1) by (rewrite <- G; ring).
            rewrite G2, Et. rewrite Et in E. field. exact E. }
      intros H. destruct (Nat.eq_dec j 0) as [Z|Z].
      - apply (Pre O O f0 (nth 0 a f0) f1 (length a - 1)%nat v); [lia|lia| |congruence|exact H]. intros _. rewrite <- T0. rewrite Z in Tj. symmetry. rewrite <- Tj. reflexivity.
      - apply (Pre j O f0 (nth 0 a f0) f1 (length a - 1)%nat v); [lia|lia|congruence| |exact H]. intros _.
        rewrite <- (Tr 0%nat) by lia. rewrite T0. fold u z. ring.
    Qed.
  End Eval.
End P.
