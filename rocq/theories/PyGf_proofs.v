From Coq Require Import List Arith Bool Lia Ring.
From Verif Require Import Base Scalar PyGf PyGfSpec.
Import ListNotations.

Section Proofs.
  Context (S : scalar_ops) (L : scalar_laws S).
  Local Open Scope K_scope.
  Add Ring Kr : (sl_ring S L).
  Variable kinv : S -> S.
  Variable minv : nat -> (nat -> nat -> S) -> (nat -> nat -> S).
  Variable kind : nat -> mesh_kind.
  Variable points : nat -> list S.
  Variable mesh n : nat.
  Variable sh : option (nat * nat).
  Hypothesis Hsh : sh = Some (n, n) \/ (sh = None /\ n = 1).
  Hypothesis Hk : mesh_wrapped (kind mesh) = true.
  (** the inverse depends on the elements of the matrix only, and that of a 1 x 1 matrix is the inverse of its element *)
  Hypothesis Hinv : forall a b : nat -> nat -> S, (forall i j, i < n -> j < n -> a i j = b i j) -> forall i j, i < n -> j < n -> minv n a i j = minv n b i j.
  Hypothesis Hinv1 : sh = None -> forall a : nat -> nat -> S, minv 1 a 0 0 = kinv (a 0 0).

  Notation unit_matrix := (unit_matrix S).
  Notation product := (product S n).
  Notation on_mesh := (on_mesh S points mesh sh).

  Lemma delta_unit i j : delta S i j = unit_matrix i j.
  Proof. reflexivity. Qed.
  Lemma sum_unit_l (f : nat -> S) i m : ksum (map (fun k => unit_matrix i k * f k) (seq 0 m)) = if i <? m then f i else k0.
  Proof.
    induction m as [|m IH]; [reflexivity|]. rewrite seq_S, map_app, (ksum_app S L), IH. cbn [map ksum Nat.add]. unfold unit_matrix, PyGfSpec.unit_matrix.
    destruct (Nat.eqb_spec i m) as [->|Hne].
    - rewrite Nat.ltb_irrefl. replace (m <? Datatypes.S m) with true by (symmetry; apply Nat.ltb_lt; lia). ring.
    - destruct (i <? m) eqn:E, (i <? Datatypes.S m) eqn:E'; try ring; rewrite ?Nat.ltb_lt, ?Nat.ltb_ge in *; lia.
  Qed.
  Lemma ksum_ext {A} (f g : A -> S) l : (forall x, In x l -> f x = g x) -> ksum (map f l) = ksum (map g l).
  Proof. intros H. f_equal. apply map_ext_in. exact H. Qed.
  Lemma ksum_scale {A} c (f : A -> S) l : ksum (map (fun x => c * f x) l) = c * ksum (map f l).
  Proof. induction l as [|x l IH]; cbn [map ksum]; [ring|]. rewrite IH. ring. Qed.
  Lemma product_num_l c (b : nat -> nat -> S) i j : i < n -> product (fun i j => c * unit_matrix i j) b i j = c * b i j.
  Proof.
    intros Hi. unfold PyGfSpec.product. rewrite (ksum_ext _ (fun k => c * (unit_matrix i k * b k j))) by (intros; ring). rewrite ksum_scale, (sum_unit_l (fun k => b k j)).
    apply Nat.ltb_lt in Hi. rewrite Hi. reflexivity.
  Qed.
  Lemma product_num_r c (a : nat -> nat -> S) i j : j < n -> product a (fun i j => c * unit_matrix i j) i j = a i j * c.
  Proof.
    intros Hj. unfold PyGfSpec.product. rewrite (ksum_ext _ (fun k => c * (unit_matrix j k * a i k))).
    - rewrite ksum_scale, (sum_unit_l (fun k => a i k)). apply Nat.ltb_lt in Hj. rewrite Hj. ring.
    - intros k _. unfold PyGfSpec.unit_matrix. rewrite (Nat.eqb_sym k j). ring.
  Qed.
  Lemma product_ext (a a' b b' : nat -> nat -> S) i j : i < n -> j < n -> (forall k, k < n -> a i k = a' i k) -> (forall k, k < n -> b k j = b' k j) -> product a b i j = product a' b' i j.
  Proof. intros Hi Hj Ha Hb. unfold PyGfSpec.product. apply ksum_ext. intros k Hk'. apply in_seq in Hk'. rewrite Ha, Hb by lia. reflexivity. Qed.
  Lemma product_1 (a b : nat -> nat -> S) : n = 1 -> product a b 0 0 = a 0 0 * b 0 0.
  Proof. intros ->. unfold PyGfSpec.product. cbn. ring. Qed.

  (** * values *)
  Definition agree (D D' : nat -> nat -> nat -> S) : Prop := forall p i j, p < length (points mesh) -> i < n -> j < n -> D p i j = D' p i j.
  Definition means (v : val S) (D : nat -> nat -> nat -> S) : Prop :=
    match v with
    | Num _ c => agree (fun _ i j => c * unit_matrix i j) D
    | Arr _ a b m => sh = Some (n, n) /\ a = n /\ b = n /\ agree (fun _ => m) D
    | G _ g => on_mesh g /\ agree (g_data S g) D
    end.
  Definition form_of (v : val S) : form := match v with Num _ _ => FNum | Arr _ _ _ _ => FArr | G _ _ => FGf end.
  Definition bin_value (op : binop) (A B : nat -> nat -> nat -> S) : nat -> nat -> nat -> S := fun p =>
    match op with
    | OpAdd => fun i j => A p i j + B p i j
    | OpSub => fun i j => A p i j - B p i j
    | OpMul => product (A p) (B p)
    | OpDiv => fun i j => A p i j * kinv (B p 0 0)
    end.

  Lemma shape_refl s : shape_eqb s s = true.
  Proof. destruct s as [[a b]|]; cbn; [rewrite !Nat.eqb_refl|]; reflexivity. Qed.
  Lemma n_pos_none : sh = None -> n = 1.
  Proof. destruct Hsh as [H|[_ H]]; [congruence|auto]. Qed.
  Lemma on_with g d : on_mesh g -> on_mesh (with_data S g d).
  Proof. intros H. exact H. Qed.

  (** a sum or difference with a Green's function on the left *)
  Lemma inplace_means (op : S -> S -> S) g y A B : on_mesh g -> agree (g_data S g) A -> means y B ->
    exists r, inplace S kind op g y = Ok r /\ on_mesh r /\ agree (g_data S r) (fun p i j => op (A p i j) (B p i j)).
  Proof.
    intros Hg HA HB. pose proof Hg as (Gm & Gl & Gs). destruct y as [c|a b m|h]; cbn [means] in HB.
    - cbn [inplace]. rewrite Gs, Gm. destruct Hsh as [E|[E En]]; rewrite E.
      + rewrite Hk. eexists. split; [reflexivity|]. split; [repeat split; cbn; congruence|]. intros p i j Hp Hi Hj. cbn [with_data g_data]. rewrite (HA p i j Hp Hi Hj), <- (HB p i j Hp Hi Hj). reflexivity.
      + eexists. split; [reflexivity|]. split; [repeat split; cbn; congruence|]. intros p i j Hp Hi Hj. cbn [with_data g_data]. rewrite (HA p i j Hp Hi Hj), <- (HB p i j Hp Hi Hj).
        replace j with i by lia. unfold PyGfSpec.unit_matrix. rewrite Nat.eqb_refl. f_equal. ring.
    - destruct HB as (E & -> & -> & HB). cbn [inplace]. rewrite Gs, Gm, E, Hk. cbn [negb]. rewrite Nat.eqb_refl. cbn [andb].
      eexists. split; [reflexivity|]. split; [repeat split; cbn; congruence|]. intros p i j Hp Hi Hj. cbn [with_data g_data]. rewrite (HA p i j Hp Hi Hj), <- (HB p i j Hp Hi Hj). reflexivity.
    - destruct HB as ((Hm & Hl & Hs) & HB). cbn [inplace]. rewrite Gm, Hm, Gl, Hl, Gs, Hs, !Nat.eqb_refl, shape_refl. cbn [andb].
      eexists. split; [reflexivity|]. split; [repeat split; cbn; congruence|]. intros p i j Hp Hi Hj. cbn [with_data g_data]. rewrite (HA p i j Hp Hi Hj), <- (HB p i j Hp Hi Hj). reflexivity.
  Qed.
  Lemma scale_means c g A : on_mesh g -> agree (g_data S g) A -> on_mesh (scale S c g) /\ agree (g_data S (scale S c g)) (fun p i j => A p i j * c).
  Proof. intros Hg HA. split; [exact Hg|]. intros p i j Hp Hi Hj. cbn [scale with_data g_data]. rewrite (HA p i j Hp Hi Hj). reflexivity. Qed.
  Lemma matmul_means g y A B : on_mesh g -> agree (g_data S g) A -> means y B ->
    exists r, matmul S g y = Ok r /\ on_mesh r /\ agree (g_data S r) (fun p => product (A p) (B p)).
  Proof.
    intros Hg HA HB. pose proof Hg as (Gm & Gl & Gs). destruct y as [c|a b m|h]; cbn [means] in HB.
    - cbn [matmul imatmul]. eexists. split; [reflexivity|]. destruct (scale_means c g A Hg HA) as [H1 H2]. split; [exact H1|].
      intros p i j Hp Hi Hj. rewrite (H2 p i j Hp Hi Hj). rewrite (product_ext (A p) (A p) (B p) (fun i j => c * unit_matrix i j)); [|exact Hi|exact Hj|reflexivity|].
      + rewrite product_num_r by exact Hj. reflexivity.
      + intros k Hk'. symmetry. apply HB; assumption.
    - destruct HB as (E & -> & -> & HB). cbn [matmul imatmul]. rewrite Gs, E, Nat.eqb_refl. cbn [andb]. eexists. split; [reflexivity|]. split; [repeat split; cbn; congruence|].
      intros p i j Hp Hi Hj. cbn [with_data g_data]. unfold dot. fold (product (g_data S g p) m i j). apply (product_ext (g_data S g p) (A p) m (B p)); auto. all: intros k Hk'; apply (HB p k j); assumption.
    - destruct HB as ((Hm & Hl & Hs) & HB). cbn [matmul]. rewrite Gm, Hm, Gl, Hl, !Nat.eqb_refl. cbn [andb negb]. rewrite Gs, Hs. destruct Hsh as [E|[E En]]; rewrite E.
      + rewrite Nat.eqb_refl. eexists. split; [reflexivity|]. split; [repeat split; cbn; congruence|]. intros p i j Hp Hi Hj. cbn [with_data g_data]. unfold dot. apply (product_ext (g_data S g p) (A p) (g_data S h p) (B p)); auto.
      + eexists. split; [reflexivity|]. split; [repeat split; cbn; congruence|]. intros p i j Hp Hi Hj. cbn [with_data g_data]. assert (i = 0) by lia. assert (j = 0) by lia. subst i j.
        rewrite (HA p 0 0 Hp Hi Hj), (HB p 0 0 Hp Hi Hj). rewrite product_1 by exact En. reflexivity.
  Qed.
  Lemma rmatmul_means x g A B : on_mesh g -> agree (g_data S g) B -> form_of x <> FGf -> means x A ->
    exists r, rmatmul S x g = Ok r /\ on_mesh r /\ agree (g_data S r) (fun p => product (A p) (B p)).
  Proof.
    intros Hg HB Hx HA. pose proof Hg as (Gm & Gl & Gs). destruct x as [c|a b m|h]; cbn [means] in HA; [| |contradiction Hx; reflexivity].
    - cbn [rmatmul]. eexists. split; [reflexivity|]. destruct (scale_means c g B Hg HB) as [H1 H2]. split; [exact H1|].
      intros p i j Hp Hi Hj. rewrite (H2 p i j Hp Hi Hj). rewrite (product_ext (A p) (fun i j => c * unit_matrix i j) (B p) (B p)); [|exact Hi|exact Hj| |reflexivity].
      + rewrite product_num_l by exact Hi. ring.
      + intros k Hk'. symmetry. apply HA; assumption.
    - destruct HA as (E & -> & -> & HA). cbn [rmatmul]. rewrite Gs, E, Nat.eqb_refl. cbn [andb]. eexists. split; [reflexivity|]. split; [repeat split; cbn; congruence|].
      intros p i j Hp Hi Hj. cbn [with_data g_data]. unfold dot. apply (product_ext m (A p) (g_data S g p) (B p)); auto. all: intros k Hk'; apply (HA p i k); assumption.
  Qed.

  (** the binary operators *)
  Lemma binop_means op x y A B z : means x A -> means y B -> combine op (form_of x) (form_of y) = Some z ->
    exists r, py_binop S kinv kind op x y = Ok r /\ form_of r = z /\ means r (bin_value op A B).
  Proof.
    intros HA HB HC. destruct x as [c|a b m|g], y as [c'|a' b' m'|g']; cbn [form_of] in HC; try (destruct op; discriminate HC).
    - (* two numbers *)
      assert (z = FNum) by (destruct op; injection HC as <-; reflexivity). subst z. destruct op; (eexists; split; [reflexivity|]; split; [reflexivity|]; cbn [means] in *; intros p i j Hp Hi Hj; assert (N0 : 0 < n) by lia; cbn [bin_value]).
      + rewrite <- (HA p i j Hp Hi Hj), <- (HB p i j Hp Hi Hj). ring.
      + rewrite <- (HA p i j Hp Hi Hj), <- (HB p i j Hp Hi Hj). ring.
      + rewrite (product_ext (A p) (fun i j => c * unit_matrix i j) (B p) (fun i j => c' * unit_matrix i j)); [|exact Hi|exact Hj| |].
        * rewrite product_num_l by exact Hi. ring.
        * intros k Hk'. symmetry. apply HA; assumption.
        * intros k Hk'. symmetry. apply HB; assumption.
      + rewrite <- (HA p i j Hp Hi Hj), <- (HB p 0 0 Hp N0 N0). unfold PyGfSpec.unit_matrix. rewrite Nat.eqb_refl. replace (c' * k1) with c' by ring. ring.
    - (* number, Green's function *)
      destruct HB as [Hg HB]. destruct op; try discriminate HC; injection HC as <-.
      + destruct (inplace_means kadd g' (Num S c) B A Hg HB HA) as (r & E & Hr & HD). exists (G S r). split; [cbn [py_binop]; rewrite E; reflexivity|]. split; [reflexivity|].
        split; [exact Hr|]. intros p i j Hp Hi Hj. rewrite (HD p i j Hp Hi Hj). cbn [bin_value]. ring.
      + destruct (scale_means (- k1) g' B Hg HB) as [Hg2 HB2].
        destruct (inplace_means kadd (scale S (- k1) g') (Num S c) _ A Hg2 HB2 HA) as (r & E & Hr & HD). exists (G S r). split; [cbn [py_binop]; rewrite E; reflexivity|]. split; [reflexivity|].
        split; [exact Hr|]. intros p i j Hp Hi Hj. rewrite (HD p i j Hp Hi Hj). cbn [bin_value]. ring.
      + destruct (rmatmul_means (Num S c) g' A B Hg HB ltac:(discriminate) HA) as (r & E & Hr & HD). exists (G S r). split; [cbn [py_binop]; rewrite E; reflexivity|]. split; [reflexivity|]. split; assumption.
    - (* array, Green's function *)
      destruct HB as [Hg HB]. destruct op; try discriminate HC; injection HC as <-.
      + destruct (inplace_means kadd g' (Arr S a b m) B A Hg HB HA) as (r & E & Hr & HD). exists (G S r). split; [cbn [py_binop]; rewrite E; reflexivity|]. split; [reflexivity|].
        split; [exact Hr|]. intros p i j Hp Hi Hj. rewrite (HD p i j Hp Hi Hj). cbn [bin_value]. ring.
      + destruct (scale_means (- k1) g' B Hg HB) as [Hg2 HB2].
        destruct (inplace_means kadd (scale S (- k1) g') (Arr S a b m) _ A Hg2 HB2 HA) as (r & E & Hr & HD). exists (G S r). split; [cbn [py_binop]; rewrite E; reflexivity|]. split; [reflexivity|].
        split; [exact Hr|]. intros p i j Hp Hi Hj. rewrite (HD p i j Hp Hi Hj). cbn [bin_value]. ring.
      + destruct (rmatmul_means (Arr S a b m) g' A B Hg HB ltac:(discriminate) HA) as (r & E & Hr & HD). exists (G S r). split; [cbn [py_binop]; rewrite E; reflexivity|]. split; [reflexivity|]. split; assumption.
    - (* Green's function, number *)
      destruct HA as [Hg HA]. destruct op; injection HC as <-.
      + destruct (inplace_means kadd g _ A B Hg HA HB) as (r & E & Hr & HD). exists (G S r). split; [cbn [py_binop]; rewrite E; reflexivity|]. split; [reflexivity|]. split; assumption.
      + destruct (inplace_means ksub g _ A B Hg HA HB) as (r & E & Hr & HD). exists (G S r). split; [cbn [py_binop]; rewrite E; reflexivity|]. split; [reflexivity|]. split; assumption.
      + destruct (matmul_means g _ A B Hg HA HB) as (r & E & Hr & HD). exists (G S r). split; [cbn [py_binop]; rewrite E; reflexivity|]. split; [reflexivity|]. split; assumption.
      + eexists. split; [reflexivity|]. split; [reflexivity|]. destruct (scale_means (kinv c') g A Hg HA) as [H1 H2]. split; [exact H1|]. intros p i j Hp Hi Hj. assert (N0 : 0 < n) by lia. rewrite (H2 p i j Hp Hi Hj). cbn [bin_value].
        cbn [means] in HB. rewrite <- (HB p 0 0 Hp N0 N0). unfold PyGfSpec.unit_matrix. rewrite Nat.eqb_refl. replace (c' * k1) with c' by ring. reflexivity.
    - (* Green's function, array *)
      destruct HA as [Hg HA]. destruct op; try discriminate HC; injection HC as <-.
      + destruct (inplace_means kadd g _ A B Hg HA HB) as (r & E & Hr & HD). exists (G S r). split; [cbn [py_binop]; rewrite E; reflexivity|]. split; [reflexivity|]. split; assumption.
      + destruct (inplace_means ksub g _ A B Hg HA HB) as (r & E & Hr & HD). exists (G S r). split; [cbn [py_binop]; rewrite E; reflexivity|]. split; [reflexivity|]. split; assumption.
      + destruct (matmul_means g _ A B Hg HA HB) as (r & E & Hr & HD). exists (G S r). split; [cbn [py_binop]; rewrite E; reflexivity|]. split; [reflexivity|]. split; assumption.
    - (* two Green's functions *)
      destruct HA as [Hg HA]. destruct op; try discriminate HC; injection HC as <-.
      + destruct (inplace_means kadd g _ A B Hg HA HB) as (r & E & Hr & HD). exists (G S r). split; [cbn [py_binop]; rewrite E; reflexivity|]. split; [reflexivity|]. split; assumption.
      + destruct (inplace_means ksub g _ A B Hg HA HB) as (r & E & Hr & HD). exists (G S r). split; [cbn [py_binop]; rewrite E; reflexivity|]. split; [reflexivity|]. split; assumption.
      + destruct (matmul_means g _ A B Hg HA HB) as (r & E & Hr & HD). exists (G S r). split; [cbn [py_binop]; rewrite E; reflexivity|]. split; [reflexivity|]. split; assumption.
  Qed.

  (** * lazy expressions *)
  Hypothesis Hf : mesh_freq (kind mesh) = true.
  Notation value := (value S kinv minv points mesh n sh).
  Notation covered := (covered S points mesh n sh).

  Lemma fill_ok g (f : S -> val S) : on_mesh g -> (forall om, In om (points mesh) -> assignable S sh (f om) = true) ->
    exists r, fill S points g f = Ok r /\ on_mesh r /\ agree (g_data S r) (fun p => read S (f (nth p (points mesh) k0))).
  Proof.
    intros Hg Ha. pose proof Hg as (Gm & Gl & Gs). unfold fill. rewrite Gm, Gs. rewrite (proj2 (forallb_forall _ _)) by exact Ha.
    eexists. split; [reflexivity|]. split; [exact Hg|]. intros p i j _ _ _. reflexivity.
  Qed.
  Lemma const_means v self A : form_of v <> FGf -> means v A -> on_mesh self -> exists g, describe S kind points (DConst S v) self = Ok g /\ means (G S g) A.
  Proof.
    intros Hv HA Hg. pose proof Hg as (Gm & Gl & Gs). unfold describe. rewrite Gm, Gs, Hf. cbn [negb]. destruct v as [c|a b m|h]; [| |contradiction Hv; reflexivity]; cbn [means] in HA.
    - destruct Hsh as [E|[E En]]; rewrite E.
      + rewrite Nat.eqb_refl. destruct (fill_ok self (fun _ => Arr S n n (fun i j => c * delta S i j)) Hg) as (r & E1 & E2 & E3).
        { intros om _. rewrite E. cbn. rewrite Nat.eqb_refl. reflexivity. }
        exists r. split; [exact E1|]. split; [exact E2|]. intros p i j Hp Hi Hj. rewrite (E3 p i j Hp Hi Hj). apply (HA p i j Hp Hi Hj).
      + destruct (fill_ok self (fun _ => Num S c) Hg) as (r & E1 & E2 & E3); [reflexivity|].
        exists r. split; [exact E1|]. split; [exact E2|]. intros p i j Hp Hi Hj. rewrite (E3 p i j Hp Hi Hj), <- (HA p i j Hp Hi Hj). cbn [read].
        replace j with i by lia. unfold PyGfSpec.unit_matrix. rewrite Nat.eqb_refl. ring.
    - destruct HA as (E & -> & -> & HA). rewrite E, Nat.eqb_refl. cbn [andb]. destruct (fill_ok self (fun _ => Arr S n n m) Hg) as (r & E1 & E2 & E3).
      { intros om _. rewrite E. cbn. rewrite Nat.eqb_refl. reflexivity. }
      exists r. split; [exact E1|]. split; [exact E2|]. intros p i j Hp Hi Hj. rewrite (E3 p i j Hp Hi Hj). apply (HA p i j Hp Hi Hj).
  Qed.
  Notation eval := (eval_expr S kinv kind points).
  Definition evals (l : lazy S) (A : nat -> nat -> nat -> S) : Prop := forall self, on_mesh self -> exists g, eval self l = Ok (G S g) /\ means (G S g) A.
  Definition lazy_ok (l : lazy S) (A : nat -> nat -> nat -> S) : Prop :=
    evals (transform S l) A /\ to_const S (transform S l) = transform S l /\ convert_scalar_to_const S l = transform S l.
  Lemma to_const_means v A : means v A -> evals (to_const S (T S v)) A.
  Proof.
    intros HA self Hg. destruct v as [c|a b m|h]; cbn [to_const eval_expr].
    - destruct (const_means (Num S c) self A ltac:(discriminate) HA Hg) as (g & E & Hm). exists g. rewrite E. split; [reflexivity|exact Hm].
    - destruct (const_means (Arr S a b m) self A ltac:(discriminate) HA Hg) as (g & E & Hm). exists g. rewrite E. split; [reflexivity|exact Hm].
    - exists h. split; [reflexivity|exact HA].
  Qed.
  (** what is known of a built operand *)
  Definition built (u : val S + lazy S) (x : form) (A : nat -> nat -> nat -> S) : Prop :=
    match u with
    | inl v => form_of v = x /\ means v A
    | inr l => x = FLazy /\ lazy_ok l A
    end.
  Lemma operand_sum u x A : built u x A -> evals (to_const S (transform S (as_lazy S u))) A.
  Proof.
    intros H. destruct u as [v|l]; cbn [as_lazy].
    - destruct H as [_ H]. cbn [transform]. apply to_const_means. exact H.
    - destruct H as [_ (H & E & _)]. rewrite E. exact H.
  Qed.
  Definition evals_val (l : lazy S) (x : form) (A : nat -> nat -> nat -> S) : Prop :=
    forall self, on_mesh self -> exists v, eval self l = Ok v /\ means v A /\ form_of v = (match x with FLazy => FGf | _ => x end).
  Lemma operand_any u x A : built u x A -> evals_val (transform S (as_lazy S u)) x A.
  Proof.
    intros H self Hg. destruct u as [v|l]; cbn [as_lazy].
    - destruct H as [<- H]. exists v. split; [reflexivity|]. split; [exact H|]. destruct v; reflexivity.
    - destruct H as [-> (H & _)]. destruct (H self Hg) as (g & E & Hm). exists (G S g). split; [exact E|]. split; [exact Hm|reflexivity].
  Qed.
  Lemma bin_evals op a b x y A B : evals_val a x A -> evals_val b y B ->
    (forall x' y', x' = match x with FLazy => FGf | _ => x end -> y' = match y with FLazy => FGf | _ => y end -> combine op x' y' = Some FGf) ->
    evals (Bin S op a b) (bin_value op A B).
  Proof.
    intros Ha Hb HC self Hg. cbn [eval_expr]. destruct (Ha self Hg) as (v & E1 & M1 & F1), (Hb self Hg) as (w & E2 & M2 & F2). rewrite E1, E2. cbn [bind].
    destruct (binop_means op v w A B FGf M1 M2) as (r & E & Fr & Mr).
    { rewrite F1, F2. apply HC; reflexivity. }
    rewrite E. destruct r as [| |g]; try discriminate Fr. exists g. split; [reflexivity|exact Mr].
  Qed.
  Lemma evals_weaken l A : evals l A -> evals_val l FGf A.
  Proof. intros H self Hg. destruct (H self Hg) as (g & E & Hm). exists (G S g). split; [exact E|]. split; [exact Hm|reflexivity]. Qed.

  Lemma build_bin_ok op u w x y z A B : built u x A -> built w y B -> combine op x y = Some z ->
    exists r, build_bin S kinv kind op u w = Ok r /\ built r z (bin_value op A B).
  Proof.
    intros Hu Hw HC. destruct u as [v|l], w as [v'|l'].
    - destruct Hu as [<- Hu], Hw as [<- Hw]. destruct (binop_means op v v' A B z Hu Hw HC) as (r & E & Fr & Mr). exists (inl r). cbn [build_bin]. rewrite E. split; [destruct v; reflexivity|]. split; assumption.
    - pose proof Hw as [-> _]. pose proof Hu as [Fv Mv].
      assert (Hz : z = FLazy) by (destruct op, x; try discriminate HC; injection HC as <-; reflexivity). subst z.
      assert (Hr : build_bin S kinv kind op (inl v) (inr l') = Ok (inr (Bin S op (T S v) l'))).
      { destruct v as [c|a b m|h]; cbn [form_of] in Fv; subst x; [reflexivity|destruct op; discriminate HC|destruct op; try discriminate HC; reflexivity]. }
      exists (inr (Bin S op (T S v) l')). split; [exact Hr|]. split; [reflexivity|]. split; [|split; [destruct op; reflexivity|reflexivity]].
      destruct op; cbn [transform].
      + apply (bin_evals OpAdd _ _ FGf FGf); [apply evals_weaken, (operand_sum (inl v) x A Hu)|apply evals_weaken, (operand_sum (inr l') FLazy B Hw)|intros ? ? -> ->; reflexivity].
      + apply (bin_evals OpSub _ _ FGf FGf); [apply evals_weaken, (operand_sum (inl v) x A Hu)|apply evals_weaken, (operand_sum (inr l') FLazy B Hw)|intros ? ? -> ->; reflexivity].
      + apply (bin_evals OpMul _ _ x FLazy); [apply (operand_any (inl v) x A Hu)|apply (operand_any (inr l') FLazy B Hw)|intros ? ? -> ->; destruct x; try discriminate HC; reflexivity].
      + apply (bin_evals OpDiv _ _ x FLazy); [apply (operand_any (inl v) x A Hu)|apply (operand_any (inr l') FLazy B Hw)|intros ? ? -> ->; destruct x; discriminate HC].
    - pose proof Hu as [-> _]. pose proof Hw as [Fv Mv].
      assert (Hz : z = FLazy) by (destruct op, y; try discriminate HC; injection HC as <-; reflexivity). subst z.
      exists (inr (Bin S op l (T S v'))). split; [reflexivity|]. split; [reflexivity|]. split; [|split; [destruct op; reflexivity|reflexivity]].
      destruct op; cbn [transform].
      + apply (bin_evals OpAdd _ _ FGf FGf); [apply evals_weaken, (operand_sum (inr l) FLazy A Hu)|apply evals_weaken, (operand_sum (inl v') y B Hw)|intros ? ? -> ->; reflexivity].
      + apply (bin_evals OpSub _ _ FGf FGf); [apply evals_weaken, (operand_sum (inr l) FLazy A Hu)|apply evals_weaken, (operand_sum (inl v') y B Hw)|intros ? ? -> ->; reflexivity].
      + apply (bin_evals OpMul _ _ FLazy y); [apply (operand_any (inr l) FLazy A Hu)|apply (operand_any (inl v') y B Hw)|intros ? ? -> ->; destruct y; try discriminate HC; reflexivity].
      + apply (bin_evals OpDiv _ _ FLazy y); [apply (operand_any (inr l) FLazy A Hu)|apply (operand_any (inl v') y B Hw)|intros ? ? -> ->; destruct y; try discriminate HC; reflexivity].
    - pose proof Hu as [-> _]. pose proof Hw as [-> _].
      assert (Hz : z = FLazy /\ op <> OpDiv) by (destruct op; try discriminate HC; injection HC as <-; split; congruence). destruct Hz as [-> Hop].
      exists (inr (Bin S op l l')). split; [reflexivity|]. split; [reflexivity|]. split; [|split; [destruct op; reflexivity|reflexivity]].
      destruct op; cbn [transform]; [| | |contradiction Hop; reflexivity].
      + apply (bin_evals OpAdd _ _ FGf FGf); [apply evals_weaken, (operand_sum (inr l) FLazy A Hu)|apply evals_weaken, (operand_sum (inr l') FLazy B Hw)|intros ? ? -> ->; reflexivity].
      + apply (bin_evals OpSub _ _ FGf FGf); [apply evals_weaken, (operand_sum (inr l) FLazy A Hu)|apply evals_weaken, (operand_sum (inr l') FLazy B Hw)|intros ? ? -> ->; reflexivity].
      + apply (bin_evals OpMul _ _ FLazy FLazy); [apply (operand_any (inr l) FLazy A Hu)|apply (operand_any (inr l') FLazy B Hw)|intros ? ? -> ->; reflexivity].
  Qed.
  Lemma agree_ext D D' D'' : agree D D' -> (forall p i j, D' p i j = D'' p i j) -> agree D D''.
  Proof. intros H E p i j Hp Hi Hj. rewrite <- E. apply H; assumption. Qed.
  Lemma means_ext v D D' : means v D -> (forall p i j, D p i j = D' p i j) -> means v D'.
  Proof. intros H E. destruct v as [c|a b m|g]; cbn [means] in *; [|destruct H as (? & ? & ? & H); repeat split; auto|destruct H as (? & H); split; auto]; eapply agree_ext; eauto. Qed.
  Lemma built_ext u x D D' : built u x D -> (forall p i j, D p i j = D' p i j) -> built u x D'.
  Proof.
    intros H E. destruct u as [v|l]; cbn [built] in *; destruct H as [Hx H]; split; auto.
    - eapply means_ext; eauto.
    - destruct H as (H & H2 & H3). split; [|split; assumption]. intros self Hg. destruct (H self Hg) as (g & E1 & Hm). exists g. split; [exact E1|]. eapply means_ext; eauto.
  Qed.
  Lemma inverse_means g A : means (G S g) A -> exists r, inverse S kinv minv (G S g) = Ok (G S r) /\ means (G S r) (fun p => minv n (A p)).
  Proof.
    intros [Hg HA]. pose proof Hg as (Gm & Gl & Gs). cbn [inverse]. rewrite Gs. destruct Hsh as [E|[E En]]; rewrite E.
    - rewrite Nat.eqb_refl. eexists. split; [reflexivity|]. split; [exact Hg|]. intros p i j Hp Hi Hj. cbn [with_data g_data]. apply Hinv; [|assumption|assumption]. intros. apply HA; assumption.
    - eexists. split; [reflexivity|]. split; [exact Hg|]. intros p i j Hp Hi Hj. cbn [with_data g_data]. assert (i = 0) by lia. assert (j = 0) by lia. subst i j.
      rewrite (HA p 0 0 Hp Hi Hj). pose proof (Hinv1 E (A p)) as H. rewrite <- En in H at 1. symmetry. exact H.
  Qed.
  Lemma build_ok e x : covered e x -> exists u, build S kinv minv kind e = Ok u /\ built u x (value e).
  Proof.
    induction 1 as [c|m E|g Hg| |f Hf'|op a b x y z Ha [u [Eu Bu]] Hb [w [Ew Bw]] HC|a x Ha [u [Eu Bu]] Hx].
    - eexists. split; [reflexivity|]. split; [reflexivity|]. intros p i j _ _ _. reflexivity.
    - eexists. split; [reflexivity|]. split; [reflexivity|]. repeat split; auto. 
    - eexists. split; [reflexivity|]. split; [reflexivity|]. split; [exact Hg|]. intros p i j _ _ _. reflexivity.
    - eexists. split; [reflexivity|]. split; [reflexivity|]. split; [|split; reflexivity]. intros self Hg. pose proof Hg as (Gm & Gl & Gs). cbn [transform eval_expr describe]. rewrite Gm, Gs, Hf. cbn [negb].
      destruct Hsh as [E|[E En]]; rewrite E.
      + destruct (fill_ok self (fun om => Arr S n n (fun i j => om * delta S i j)) Hg) as (r & E1 & E2 & E3).
        { intros om _. rewrite E. cbn. rewrite Nat.eqb_refl. reflexivity. }
        rewrite E1. exists r. split; [reflexivity|]. split; [exact E2|]. exact E3.
      + destruct (fill_ok self (fun om => Num S om) Hg) as (r & E1 & E2 & E3); [reflexivity|].
        rewrite E1. exists r. split; [reflexivity|]. split; [exact E2|]. intros p i j Hp Hi Hj. rewrite (E3 p i j Hp Hi Hj). cbn [read PyGfSpec.value desc_value].
        replace j with i by lia. unfold PyGfSpec.unit_matrix. rewrite Nat.eqb_refl. ring.
    - eexists. split; [reflexivity|]. split; [reflexivity|]. split; [|split; reflexivity]. intros self Hg. pose proof Hg as (Gm & Gl & Gs). cbn [transform eval_expr describe]. rewrite Gs.
      destruct (fill_ok self (f sh) Hg Hf') as (r & E1 & E2 & E3). rewrite E1. exists r. split; [reflexivity|]. split; [exact E2|]. exact E3.
    - destruct (build_bin_ok op u w x y z _ _ Bu Bw HC) as (r & E & Br). exists r. cbn [build]. rewrite Eu, Ew. cbn [bind]. split; [exact E|].
      eapply built_ext; [exact Br|]. intros p i j. destruct op; reflexivity.
    - cbn [build]. rewrite Eu. cbn [bind]. destruct u as [v|l].
      + destruct Bu as [Fv Mv]. destruct v as [c|? ? ?|g]; cbn [form_of] in Fv; try (destruct Hx; congruence). destruct (inverse_means g _ Mv) as (r & E & Mr). rewrite E. cbn [bind]. eexists. split; [reflexivity|]. split; [exact Fv|exact Mr].
      + destruct Bu as [-> (El & _)]. eexists. split; [reflexivity|]. split; [reflexivity|]. split; [|split; reflexivity]. intros self Hg. cbn [transform eval_expr]. destruct (El self Hg) as (g & E & Mg). rewrite E. cbn [bind].
        destruct (inverse_means g _ Mg) as (r & E' & Mr). exists r. split; [exact E'|exact Mr].
  Qed.
  Theorem assign_ok self e x : on_mesh self -> covered e x ->
    exists g, assign S kinv minv kind points self e = (g, Ok tt) /\ on_mesh g /\
      forall p i j, p < length (points mesh) -> i < n -> j < n -> g_data S g p i j = value e p i j.
  Proof.
    intros Hg HC. pose proof Hg as (Gm & Gl & Gs). destruct (build_ok e x HC) as (u & E & B). unfold assign. rewrite E.
    assert (Hcp : forall h, means (G S h) (value e) -> exists g, copy_from S self h = (g, Ok tt) /\ on_mesh g /\ forall p i j, p < length (points mesh) -> i < n -> j < n -> g_data S g p i j = value e p i j).
    { intros h ((Hm & Hl & Hs) & HD). unfold copy_from. rewrite Gl, Hl, Gs, Hs, Nat.eqb_refl, shape_refl. cbn [andb]. eexists. split; [reflexivity|]. split; [repeat split; cbn; assumption|exact HD]. }
    destruct u as [v|l]; cbn [as_lazy].
    - destruct B as [Fv Mv]. destruct v as [c|a b m|h].
      + unfold lshift. cbn [convert_scalar_to_const]. destruct (to_const_means _ _ Mv self Hg) as (g & Ev & Mg). rewrite Ev. apply Hcp. exact Mg.
      + unfold lshift. cbn [convert_scalar_to_const]. destruct (to_const_means _ _ Mv self Hg) as (g & Ev & Mg). rewrite Ev. apply Hcp. exact Mg.
      + unfold lshift_gf. pose proof Mv as ((Hm & _) & _). rewrite Gm, Hm, Nat.eqb_refl. apply Hcp. exact Mv.
    - destruct B as [_ (El & _ & Ec)]. unfold lshift. rewrite Ec. destruct (El self Hg) as (g & Ev & Mg). rewrite Ev. apply Hcp. exact Mg.
  Qed.
End Proofs.
