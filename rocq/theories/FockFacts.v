(** Facts about the Fock-space specification: anticommutation, adjoints, linearity. *)
From Coq Require Import ZArith NArith List Bool Lia Ring.
From Verif Require Import Indices Scalar Fock.
Import ListNotations.

Lemma testbit_eq_N (f g : N) : (forall k : nat, N.testbit f (N.of_nat k) = N.testbit g (N.of_nat k)) -> f = g.
Proof. intros H. apply N.bits_inj. intros n. rewrite <- (N2Nat.id n). apply H. Qed.

Lemma setbit_nat f p k : N.testbit (N.setbit f (N.of_nat p)) (N.of_nat k) = (p =? k)%nat || N.testbit f (N.of_nat k).
Proof.
  destruct (Nat.eqb_spec p k) as [->|Hn]; simpl.
  - apply N.setbit_eq.
  - apply N.setbit_neq. lia.
Qed.
Lemma clearbit_nat f p k : N.testbit (N.clearbit f (N.of_nat p)) (N.of_nat k) = negb (p =? k)%nat && N.testbit f (N.of_nat k).
Proof.
  destruct (Nat.eqb_spec p k) as [->|Hn]; simpl.
  - apply N.clearbit_eq.
  - apply N.clearbit_neq. lia.
Qed.

Lemma par_below_ext f g p : (forall k, k < p -> N.testbit f (N.of_nat k) = N.testbit g (N.of_nat k)) -> par_below f p = par_below g p.
Proof. induction p as [|p IH]; intros H; simpl; [reflexivity|]. rewrite IH, H by (auto || lia). reflexivity. Qed.

Lemma par_set_ge f p q : q <= p -> par_below (N.setbit f (N.of_nat p)) q = par_below f q.
Proof. intros H. apply par_below_ext. intros k Hk. rewrite setbit_nat. destruct (Nat.eqb_spec p k); [lia|reflexivity]. Qed.
Lemma par_clear_ge f p q : q <= p -> par_below (N.clearbit f (N.of_nat p)) q = par_below f q.
Proof. intros H. apply par_below_ext. intros k Hk. rewrite clearbit_nat. destruct (Nat.eqb_spec p k); [lia|reflexivity]. Qed.
Lemma par_set_lt f p q : p < q -> N.testbit f (N.of_nat p) = false ->
  par_below (N.setbit f (N.of_nat p)) q = negb (par_below f q).
Proof.
  intros H Hb. induction q as [|q IH]; [lia|]. simpl.
  rewrite setbit_nat. destruct (Nat.eqb_spec p q) as [->|Hn]; simpl.
  - rewrite par_set_ge by lia. rewrite Hb. destruct (par_below f q); reflexivity.
  - rewrite IH by lia. destruct (par_below f q), (N.testbit f (N.of_nat q)); reflexivity.
Qed.
Lemma par_clear_lt f p q : p < q -> N.testbit f (N.of_nat p) = true ->
  par_below (N.clearbit f (N.of_nat p)) q = negb (par_below f q).
Proof.
  intros H Hb. induction q as [|q IH]; [lia|]. simpl.
  rewrite clearbit_nat. destruct (Nat.eqb_spec p q) as [->|Hn]; simpl.
  - rewrite par_clear_ge by lia. rewrite Hb. destruct (par_below f q); reflexivity.
  - rewrite IH by lia. destruct (par_below f q), (N.testbit f (N.of_nat q)); reflexivity.
Qed.

Section Act.
  Variable pos : indices -> nat.

  Definition neg_res (r : option (bool * N)) : option (bool * N) :=
    match r with Some (s, f) => Some (negb s, f) | None => None end.

  Lemma act_app m1 m2 f :
    act pos (m1 ++ m2) f =
    match act pos m2 f with
    | None => None
    | Some (s, f1) => match act pos m1 f1 with None => None | Some (s', f2) => Some (xorb s s', f2) end
    end.
  Proof.
    induction m1 as [|o m1 IH]; simpl.
    - destruct (act pos m2 f) as [[s f1]|]; [|reflexivity]. rewrite xorb_false_r. reflexivity.
    - rewrite IH. destruct (act pos m2 f) as [[s f1]|]; [|reflexivity].
      destruct (act pos m1 f1) as [[s' f2]|]; [|reflexivity].
      destruct (act_cop pos o f2) as [[s'' f3]|]; [|reflexivity].
      rewrite xorb_assoc_reverse. reflexivity.
  Qed.

  (** the four local rewriting rules *)
  Lemma act_anticommute x y f : pos (ind x) <> pos (ind y) ->
    act pos [x; y] f = neg_res (act pos [y; x] f).
  Proof.
    intros Hn. destruct x as [dx ix], y as [dy iy]. unfold act, act_cop; cbn [dag ind] in *.
    set (p := pos ix) in *. set (q := pos iy) in *.
    assert (Hpq : (p =? q)%nat = false) by (apply Nat.eqb_neq; auto).
    assert (Hqp : (q =? p)%nat = false) by (apply Nat.eqb_neq; auto).
    destruct (N.testbit f (N.of_nat p)) eqn:Ep, (N.testbit f (N.of_nat q)) eqn:Eq, dx, dy; simpl;
      repeat (first [rewrite setbit_nat | rewrite clearbit_nat]); rewrite ?Hpq, ?Hqp, ?Ep, ?Eq; simpl; try reflexivity;
      f_equal; f_equal;
      try (apply testbit_eq_N; intros k; repeat (first [rewrite setbit_nat | rewrite clearbit_nat]);
           destruct (Nat.eqb_spec p k), (Nat.eqb_spec q k); subst; simpl; try lia; try reflexivity);
      (destruct (Nat.lt_ge_cases p q) as [Hlt|Hge];
       [ rewrite ?(par_set_lt f p q), ?(par_clear_lt f p q), ?(par_set_ge f q p), ?(par_clear_ge f q p) by (auto; lia)
       | rewrite ?(par_set_lt f q p), ?(par_clear_lt f q p), ?(par_set_ge f p q), ?(par_clear_ge f p q) by (auto; lia)]);
      destruct (par_below f p), (par_below f q); reflexivity.
  Qed.

  Lemma act_same_twice x y f : dag x = dag y -> pos (ind x) = pos (ind y) -> act pos [x; y] f = None.
  Proof.
    intros Hd Hp. destruct x as [dx ix], y as [dy iy]. unfold act, act_cop; cbn [dag ind] in *. subst dy.
    rewrite Hp. set (q := pos iy).
    destruct (N.testbit f (N.of_nat q)) eqn:Eq, dx; simpl; try reflexivity;
      rewrite ?setbit_nat, ?clearbit_nat, Nat.eqb_refl; reflexivity.
  Qed.

  Lemma act_c_cdag i f : act pos [mkCop false i; mkCop true i] f = if N.testbit f (N.of_nat (pos i)) then None else Some (false, f).
  Proof.
    unfold act, act_cop; cbn [dag ind]. set (p := pos i).
    destruct (N.testbit f (N.of_nat p)) eqn:E; simpl; [reflexivity|].
    rewrite setbit_nat, Nat.eqb_refl; simpl. rewrite par_set_ge by lia.
    destruct (par_below f p); simpl; f_equal; f_equal; apply testbit_eq_N; intros k;
      rewrite clearbit_nat, setbit_nat; destruct (Nat.eqb_spec p k); subst; simpl; auto.
  Qed.
  Lemma act_cdag_c i f : act pos [mkCop true i; mkCop false i] f = if N.testbit f (N.of_nat (pos i)) then Some (false, f) else None.
  Proof.
    unfold act, act_cop; cbn [dag ind]. set (p := pos i).
    destruct (N.testbit f (N.of_nat p)) eqn:E; simpl; [|reflexivity].
    rewrite clearbit_nat, Nat.eqb_refl; simpl. rewrite par_clear_ge by lia.
    destruct (par_below f p); simpl; f_equal; f_equal; apply testbit_eq_N; intros k;
      rewrite setbit_nat, clearbit_nat; destruct (Nat.eqb_spec p k); subst; simpl; auto.
  Qed.

  (** adjoint *)
  Lemma act_cop_adjoint o f g s : act_cop pos o f = Some (s, g) -> act_cop pos (mkCop (negb (dag o)) (ind o)) g = Some (s, f).
  Proof.
    destruct o as [d i]. unfold act_cop; cbn [dag ind]. set (p := pos i).
    destruct d, (N.testbit f (N.of_nat p)) eqn:E; simpl; try congruence; intros H; injection H as <- <-;
      rewrite ?setbit_nat, ?clearbit_nat, Nat.eqb_refl; simpl.
    - rewrite par_set_ge by lia. f_equal. f_equal. apply testbit_eq_N. intros k.
      rewrite clearbit_nat, setbit_nat. destruct (Nat.eqb_spec p k); subst; simpl; auto.
    - rewrite par_clear_ge by lia. f_equal. f_equal. apply testbit_eq_N. intros k.
      rewrite setbit_nat, clearbit_nat. destruct (Nat.eqb_spec p k); subst; simpl; auto.
  Qed.

  Definition mdag (m : list cop) : list cop := rev (map (fun o => mkCop (negb (dag o)) (ind o)) m).
  Lemma mdag_mdag m : mdag (mdag m) = m.
  Proof.
    unfold mdag. rewrite map_rev, rev_involutive, map_map. rewrite <- (map_id m) at 2.
    apply map_ext. intros [d i]; simpl. rewrite negb_involutive. reflexivity.
  Qed.
  Lemma act_adjoint m f g s : act pos m f = Some (s, g) -> act pos (mdag m) g = Some (s, f).
  Proof.
    revert f g s. induction m as [|o m IH]; intros f g s; simpl.
    - intros H; injection H as <- <-. reflexivity.
    - destruct (act pos m f) as [[s1 f1]|] eqn:E; [|congruence].
      destruct (act_cop pos o f1) as [[s2 f2]|] eqn:E2; [|congruence].
      intros H; injection H as <- <-.
      unfold mdag; simpl. fold (mdag m). rewrite act_app. cbn [act]. 
      rewrite (act_cop_adjoint _ _ _ _ E2). rewrite xorb_false_l. rewrite (IH _ _ _ E).
      rewrite xorb_comm. reflexivity.
  Qed.
End Act.

Section Mel.
  Variable pos : indices -> nat.
  Context (S : scalar_ops) (L : scalar_laws S).
  Local Open Scope K_scope.
  Add Ring Kring : (sl_ring S L).
  Notation mel_mono := (@mel_mono pos S).
  Notation mel := (@mel pos S).
  Notation sgn := (@sgn S).

  Lemma sgn_xorb a b : sgn (xorb a b) = sgn a * sgn b.
  Proof. destruct a, b; simpl; ring. Qed.
  Lemma sgn_negb a : sgn (negb a) = - sgn a.
  Proof. destruct a; simpl; ring. Qed.
  Lemma sgn_conj a : kconj (sgn a) = sgn a.
  Proof. destruct a; simpl; [rewrite (kconj_opp S L)|]; rewrite (kconj_1 S L); reflexivity. Qed.
  Lemma sgn_nz a : sgn a <> k0.
  Proof. destruct a; simpl; [intros H; apply (kopp_0 S L) in H|intros H]; exact (sl_nontrivial S L H). Qed.

  (** rewriting inside a product *)
  Lemma mel_ctx_neg x y pre post f g :
    pos (ind x) <> pos (ind y) ->
    mel_mono (pre ++ x :: y :: post) f g = - mel_mono (pre ++ y :: x :: post) f g.
  Proof.
    intros Hn. unfold Fock.mel_mono.
    change (x :: y :: post) with ([x; y] ++ post). change (y :: x :: post) with ([y; x] ++ post).
    rewrite !act_app.
    destruct (act pos post f) as [[s0 f0]|]; [|ring].
    rewrite (act_anticommute pos x y) by exact Hn.
    destruct (act pos [y; x] f0) as [[s1 f1]|]; cbn [neg_res]; [|ring].
    destruct (act pos pre f1) as [[s2 f2]|]; [|ring].
    destruct (N.eqb f2 g); [|ring].
    rewrite !sgn_xorb, sgn_negb. ring.
  Qed.
  Lemma mel_ctx_zero x y pre post f g :
    dag x = dag y -> pos (ind x) = pos (ind y) -> mel_mono (pre ++ x :: y :: post) f g = k0.
  Proof.
    intros Hd Hp. unfold Fock.mel_mono.
    change (x :: y :: post) with ([x; y] ++ post).
    rewrite !act_app.
    destruct (act pos post f) as [[s0 f0]|]; [|reflexivity].
    rewrite (act_same_twice pos x y) by assumption. reflexivity.
  Qed.
  Lemma mel_ctx_contract i pre post f g :
    mel_mono (pre ++ mkCop false i :: mkCop true i :: post) f g =
    mel_mono (pre ++ post) f g - mel_mono (pre ++ mkCop true i :: mkCop false i :: post) f g.
  Proof.
    unfold Fock.mel_mono.
    change (mkCop false i :: mkCop true i :: post) with ([mkCop false i; mkCop true i] ++ post).
    change (mkCop true i :: mkCop false i :: post) with ([mkCop true i; mkCop false i] ++ post).
    rewrite !act_app.
    destruct (act pos post f) as [[s0 f0]|]; [|ring].
    rewrite act_c_cdag, act_cdag_c.
    destruct (N.testbit f0 (N.of_nat (pos i))); rewrite ?xorb_false_r;
      destruct (act pos pre f0) as [[s2 f2]|]; try ring; destruct (N.eqb f2 g); ring.
  Qed.

  Lemma mel_mono_adjoint m f g : mel_mono (mdag m) f g = mel_mono m g f.
  Proof.
    unfold Fock.mel_mono.
    destruct (act pos m g) as [[s g']|] eqn:E.
    - destruct (N.eqb_spec g' f) as [->|Hn].
      + rewrite (act_adjoint pos m g f s E). rewrite N.eqb_refl. reflexivity.
      + destruct (act pos (mdag m) f) as [[s2 f2]|] eqn:E2; [|reflexivity].
        destruct (N.eqb_spec f2 g) as [->|Hn2]; [|reflexivity].
        apply act_adjoint in E2. rewrite mdag_mdag in E2. congruence.
    - destruct (act pos (mdag m) f) as [[s2 f2]|] eqn:E2; [|reflexivity].
      destruct (N.eqb_spec f2 g) as [->|Hn2]; [|reflexivity].
      apply act_adjoint in E2. rewrite mdag_mdag in E2. congruence.
  Qed.
  Lemma mel_mono_conj m f g : kconj (mel_mono m f g) = mel_mono m f g.
  Proof.
    unfold Fock.mel_mono. destruct (act pos m f) as [[s f']|]; [|apply (kconj_0 S L)].
    destruct (N.eqb f' g); [apply sgn_conj | apply (kconj_0 S L)].
  Qed.

  Lemma mel_app a b f g : mel (a ++ b) f g = mel a f g + mel b f g.
  Proof. induction a as [|[m c] a IH]; simpl; [ring|]. rewrite IH. ring. Qed.

  (** vectors *)
  Fixpoint vsum (F : N -> S) (v : list (S * N)) : S :=
    match v with [] => k0 | (x, f) :: v' => x * F f + vsum F v' end.
  Lemma vsum_ext F G v : (forall f, F f = G f) -> vsum F v = vsum G v.
  Proof. intros H. induction v as [|[x f] v IH]; simpl; [reflexivity|]. rewrite H, IH. reflexivity. Qed.
  Lemma vsum_add F G v : vsum (fun f => F f + G f) v = vsum F v + vsum G v.
  Proof. induction v as [|[x f] v IH]; simpl; [ring|]. rewrite IH. ring. Qed.
  Lemma vsum_scal k F v : vsum (fun f => k * F f) v = k * vsum F v.
  Proof. induction v as [|[x f] v IH]; simpl; [ring|]. rewrite IH. ring. Qed.
  Lemma vsum_zero v : vsum (fun _ => k0) v = k0.
  Proof. induction v as [|[x f] v IH]; simpl; [ring|]. rewrite IH. ring. Qed.

  Lemma amp_app (v w : list (S * N)) g : amp (v ++ w) g = amp v g + amp w g.
  Proof. induction v as [|[x f] v IH]; simpl; [ring|]. rewrite IH. ring. Qed.
  Lemma amp_apply_mono m (c : S) v g : amp (apply_mono pos m c v) g = c * vsum (fun f => mel_mono m f g) v.
  Proof.
    unfold apply_mono. induction v as [|[x f] v IH]; simpl; [ring|].
    rewrite amp_app, IH. unfold Fock.mel_mono at 2. destruct (act pos m f) as [[s f']|]; simpl; [|ring].
    destruct (N.eqb f' g); ring.
  Qed.
  Lemma amp_apply (a : list (list cop * S)) v g : amp (apply pos a v) g = vsum (fun f => mel a f g) v.
  Proof.
    unfold apply. induction a as [|[m c] a IH]; simpl.
    - symmetry. apply vsum_zero.
    - rewrite amp_app, IH, amp_apply_mono. rewrite vsum_add, vsum_scal. reflexivity.
  Qed.
  Lemma mel_amp a f g : mel a f g = amp (apply pos a [(k1, f)]) g.
  Proof. rewrite amp_apply. simpl. ring. Qed.

  Lemma same_map_mel (a b : list (list cop * S)) : same_map pos a b <-> forall f g, mel a f g = mel b f g.
  Proof.
    split.
    - intros H f g. rewrite !mel_amp. apply H.
    - intros H v g. rewrite !amp_apply. apply vsum_ext. intros f. apply H.
  Qed.

  (** composition of two products *)
  Lemma apply_mono_comp m1 m2 (c1 c2 : S) v g :
    amp (apply_mono pos (m1 ++ m2) (c1 * c2) v) g = amp (apply_mono pos m1 c1 (apply_mono pos m2 c2 v)) g.
  Proof.
    induction v as [|[x f] v IH]; [reflexivity|].
    change (amp (apply_mono pos (m1 ++ m2) (c1 * c2) ([(x, f)] ++ v)) g =
            amp (apply_mono pos m1 c1 (apply_mono pos m2 c2 ([(x, f)] ++ v))) g).
    unfold apply_mono in *. rewrite !flat_map_app, !amp_app. f_equal; [|exact IH].
    simpl. rewrite act_app. destruct (act pos m2 f) as [[s f1]|]; simpl; [|reflexivity].
    destruct (act pos m1 f1) as [[s' f2]|]; simpl; [|reflexivity].
    rewrite sgn_xorb. destruct (N.eqb f2 g); ring.
  Qed.
End Mel.
