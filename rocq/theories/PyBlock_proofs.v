From Coq Require Import ZArith List Arith Bool Lia Ring.
From Verif Require Import Base Scalar MpiSlice MpiSlice_props PyGf PyGfSpec PyGf_proofs PyBlock PyBlockSpec.
Import ListNotations.
Local Open Scope nat_scope.

Section Proofs.
  Context (S : scalar_ops) (L : scalar_laws S).
  Local Open Scope K_scope.
  Add Ring Kr2 : (sl_ring S L).
  Variable kinv : S -> S.
  Variable minv : nat -> (nat -> nat -> S) -> (nat -> nat -> S).
  Variable kind : nat -> mesh_kind.
  Variable points : nat -> list S.

  (** * block-wise *)
  Lemma each_ok f b r : each S f b = Ok r -> blockwise S (fun n g g' => f n g = Ok g') b r.
  Proof.
    revert r. induction b as [|[n g] b IH]; intros r H; cbn [each] in H; [injection H as <-; constructor|].
    destruct (f n g) as [g'| |] eqn:E; [|discriminate H|discriminate H]. cbn [bind] in H. destruct (each S f b) as [r'| |]; [|discriminate H|discriminate H]. cbn [bind] in H. injection H as <-.
    constructor; [split; [reflexivity|exact E]|apply IH; reflexivity].
  Qed.
  Lemma each_complete f b r : blockwise S (fun n g g' => f n g = Ok g') b r -> each S f b = Ok r.
  Proof. intros H. induction H as [|[n g] [n' g'] b r [E1 E2] _ IH]; [reflexivity|]. cbn [fst snd] in *. subst n'. cbn [each]. rewrite E2. cbn [bind]. rewrite IH. reflexivity. Qed.
  Lemma each_iff f b r : each S f b = Ok r <-> blockwise S (fun n g g' => f n g = Ok g') b r.
  Proof. split; [apply each_ok|apply each_complete]. Qed.
  Lemma blockwise_ext (P Q : nat -> gf S -> gf S -> Prop) b r : (forall n g g', P n g g' <-> Q n g g') -> blockwise S P b r <-> blockwise S Q b r.
  Proof.
    intros H. unfold blockwise. split; intros F; induction F as [|x y b r [E1 E2] _ IH]; constructor; auto; (split; [exact E1|apply H; exact E2]).
  Qed.
  Lemma blockwise_get P b r n g : blockwise S P b r -> get S b n = Ok g -> exists g', get S r n = Ok g' /\ P n g g'.
  Proof.
    intros H. induction H as [|[m h] [m' h'] b r [E1 E2] _ IH]; cbn [get]; [discriminate|]. cbn [fst snd] in *. subst m'. destruct (Nat.eqb_spec n m) as [->|]; [|exact IH].
    intros E. injection E as <-. eauto.
  Qed.
  Lemma bind_get (c : block S) n (f : gf S -> res (gf S)) g' : (do h <- get S c n ; f h) = Ok g' <-> exists h, get S c n = Ok h /\ f h = Ok g'.
  Proof. destruct (get S c n) as [h| |]; cbn [bind]; split; try discriminate; [eauto| | |]; intros (h' & E & E'); try discriminate E. injection E as <-. exact E'. Qed.

  Lemma each_list_iff f l : forall b r, length l = length b -> each_list S f b l = Ok r <-> Forall2 (fun y z => fst (fst y) = fst z /\ f (snd (fst y)) (snd y) = Ok (snd z)) (List.combine b l) r.
  Proof.
    induction l as [|v l IH]; intros [|[n g] b] r E; cbn [length] in E; try discriminate E; cbn [each_list List.combine].
    - split; intros H; [injection H as <-; constructor|inversion H; reflexivity].
    - injection E as E. split.
      + intros H. destruct (f g v) as [g'| |] eqn:Ef; [|discriminate H|discriminate H]. cbn [bind] in H. destruct (each_list S f b l) as [r'| |] eqn:Er; [|discriminate H|discriminate H].
        cbn [bind] in H. injection H as <-. constructor; [split; [reflexivity|exact Ef]|]. apply IH; assumption.
      + intros H. inversion H as [|y [n' g'] bl r' [H1 H2] H3]. subst. cbn [fst snd] in *. subst n'. rewrite H2. cbn [bind]. apply (IH b r' E) in H3. rewrite H3. reflexivity.
  Qed.
  Lemma each_each f h b r : (do c <- each S f b ; each S h c) = Ok r <-> blockwise S (fun n g g' => (do x <- f n g ; h n x) = Ok g') b r.
  Proof.
    revert r. induction b as [|[n g] b IH]; intros r; cbn [each bind].
    - split; intros H; [injection H as <-; constructor|inversion H; reflexivity].
    - split.
      + intros H. destruct (f n g) as [x| |] eqn:Ef; [|discriminate H|discriminate H]. cbn [bind] in H. destruct (each S f b) as [c| |]; [|discriminate H|discriminate H]. cbn [bind each] in H.
        destruct (h n x) as [g'| |] eqn:Eh; [|discriminate H|discriminate H]. cbn [bind] in H, IH. destruct (each S h c) as [r'| |]; [|discriminate H|discriminate H]. cbn [bind] in H. injection H as <-.
        constructor; [split; [reflexivity|cbn [fst snd]; rewrite Ef; exact Eh]|]. apply IH. reflexivity.
      + intros H. inversion H as [|y [n' g'] bl r' [H1 H2] H3]. subst. cbn [fst snd] in *. subst n'. apply IH in H3. destruct (f n g) as [x| |]; [|discriminate H2|discriminate H2]. cbn [bind] in *.
        destruct (each S f b) as [c| |]; [|discriminate H3|discriminate H3]. cbn [bind each] in *. rewrite H2. cbn [bind]. rewrite H3. reflexivity.
  Qed.
  Lemma wrap (x : res (gf S)) g' : (do r <- x ; Ok (G S r)) = Ok (G S g') <-> x = Ok g'.
  Proof. destruct x; cbn [bind]; split; intros H; try discriminate H; injection H as <-; reflexivity. Qed.
  Lemma Forall2_iff (A B : Type) (P Q : A -> B -> Prop) l m : (forall a b, P a b <-> Q a b) -> Forall2 P l m <-> Forall2 Q l m.
  Proof. intros H. split; intros F; induction F; constructor; auto; apply H; assumption. Qed.
  Lemma list_all op op' b l r : (forall g v, py_binop S kinv kind op (G S g) v = (do x <- inplace S kind op' g v ; Ok (G S x))) ->
    bl_inplace S kind op' b (AList S l) = Ok r <->
    length l = length b /\ Forall2 (fun y z => fst (fst y) = fst z /\ py_binop S kinv kind op (G S (snd (fst y))) (snd y) = Ok (G S (snd z))) (List.combine b l) r.
  Proof.
    intros H. cbn [bl_inplace]. destruct (Nat.eqb_spec (length l) (length b)) as [E|E].
    - rewrite (each_list_iff _ _ _ _ E). split; [intros F; split; [exact E|]|intros [_ F]]; (eapply Forall2_iff; [|exact F]); intros y z; cbn beta; rewrite H, wrap; reflexivity.
    - split; [discriminate|intros [E' _]; contradiction].
  Qed.
  Lemma blockwise_all (b c r : block S) (v : val S) (l : list (val S)) (x : S) :
    let two op := blockwise S (fun n g g' => exists h, get S c n = Ok h /\ py_binop S kinv kind op (G S g) (G S h) = Ok (G S g')) b r in
    let right op := blockwise S (fun _ g g' => py_binop S kinv kind op (G S g) v = Ok (G S g')) b r in
    let listed op := length l = length b /\ Forall2 (fun y z => fst (fst y) = fst z /\ py_binop S kinv kind op (G S (snd (fst y))) (snd y) = Ok (G S (snd z))) (List.combine b l) r in
    (bl_add S kind b (ABlock S c) = Ok r <-> two OpAdd) /\ (bl_sub S kind b (ABlock S c) = Ok r <-> two OpSub) /\ (bl_mul S b (ABlock S c) = Ok r <-> two OpMul) /\
    (bl_add S kind b (AList S l) = Ok r <-> listed OpAdd) /\ (bl_sub S kind b (AList S l) = Ok r <-> listed OpSub) /\
    ((forall h, v <> G S h) ->
      (bl_add S kind b (AVal S v) = Ok r <-> right OpAdd) /\ (bl_sub S kind b (AVal S v) = Ok r <-> right OpSub) /\ (bl_mul S b (AVal S v) = Ok r <-> right OpMul) /\
      (bl_radd S kind (AVal S v) b = Ok r <-> blockwise S (fun _ g g' => py_binop S kinv kind OpAdd v (G S g) = Ok (G S g')) b r) /\
      (bl_rsub S kind (AVal S v) b = Ok r <-> blockwise S (fun _ g g' => py_binop S kinv kind OpSub v (G S g) = Ok (G S g')) b r)) /\
    (bl_div S kinv b x = Ok r <-> blockwise S (fun _ g g' => py_binop S kinv kind OpDiv (G S g) (Num S x) = Ok (G S g')) b r) /\
    (bl_inverse S kinv minv b = Ok r <-> blockwise S (fun _ g g' => inverse S kinv minv (G S g) = Ok (G S g')) b r).
  Proof.
    cbv zeta. split; [|split; [|split; [|split; [|split; [|split; [|split]]]]]].
    - unfold bl_add. cbn [bl_inplace]. rewrite each_iff. apply blockwise_ext. intros n g g'. rewrite bind_get. cbn [py_binop]. split; intros (h & E & F); exists h; (split; [exact E|]); apply wrap; exact F.
    - unfold bl_sub. cbn [bl_inplace]. rewrite each_iff. apply blockwise_ext. intros n g g'. rewrite bind_get. cbn [py_binop]. split; intros (h & E & F); exists h; (split; [exact E|]); apply wrap; exact F.
    - cbn [bl_mul]. rewrite each_iff. apply blockwise_ext. intros n g g'. rewrite bind_get. cbn [py_binop]. split; intros (h & E & F); exists h; (split; [exact E|]); apply wrap; exact F.
    - apply list_all. reflexivity.
    - apply list_all. reflexivity.
    - intros Hv. split; [|split; [|split; [|split]]].
      + unfold bl_add. cbn [bl_inplace]. rewrite each_iff. apply blockwise_ext. intros n g g'. cbn [py_binop]. symmetry. apply wrap.
      + unfold bl_sub. cbn [bl_inplace]. rewrite each_iff. apply blockwise_ext. intros n g g'. cbn [py_binop]. symmetry. apply wrap.
      + cbn [bl_mul bl_imul]. rewrite each_iff. apply blockwise_ext. intros n g g'. cbn [py_binop]. rewrite wrap. destruct v as [y|a1 a2 m|h]; [reflexivity|reflexivity|contradiction (Hv h); reflexivity].
      + unfold bl_radd, bl_add. cbn [bl_inplace]. rewrite each_iff. apply blockwise_ext. intros n g g'. destruct v as [y|a1 a2 m|h]; [| |contradiction (Hv h); reflexivity]; cbn [py_binop]; symmetry; apply wrap.
      + unfold bl_rsub. cbn [bl_mul bl_imul bl_inplace]. rewrite each_each. apply blockwise_ext. intros n g g'. cbn [imatmul bind].
        destruct v as [y|a1 a2 m|h]; [| |contradiction (Hv h); reflexivity]; cbn [py_binop]; symmetry; apply wrap.
    - unfold bl_div. rewrite each_iff. apply blockwise_ext. intros n g g'. cbn [py_binop]. split; intros E; injection E as <-; reflexivity.
    - unfold bl_inverse. rewrite each_iff. apply blockwise_ext. intros n g g'. unfold gf_inverse. destruct (inverse S kinv minv (G S g)) as [[y|a1 a2 m|h]| |]; cbn [bind]; split; intros E; try discriminate E; injection E as <-; reflexivity.
  Qed.
  Lemma blockwise_fst P b r : blockwise S P b r -> map fst r = map fst b.
  Proof. intros H. induction H as [|x y b r [E1 E2] _ IH]; [reflexivity|]. cbn [map]. rewrite IH, E1. reflexivity. Qed.
  Lemma blockwise_in P b r n : blockwise S P b r -> In n (map fst b) -> exists g g', P n g g'.
  Proof. intros H. induction H as [|x y b r [E1 E2] _ IH]; cbn [map In]; [contradiction|]. intros [<-|Hin]; [eauto|auto]. Qed.
  Lemma names_all (b c r : block S) :
    (bl_add S kind b (ABlock S c) = Ok r -> map fst r = map fst b /\
      forall n g, get S b n = Ok g -> exists h g', get S c n = Ok h /\ get S r n = Ok g' /\ py_binop S kinv kind OpAdd (G S g) (G S h) = Ok (G S g')) /\
    (forall n, In n (map fst b) -> get S c n = Throw ->
      bl_add S kind b (ABlock S c) <> Ok r /\ bl_sub S kind b (ABlock S c) <> Ok r /\ bl_mul S b (ABlock S c) <> Ok r).
  Proof.
    destruct (blockwise_all b c r (Num S k0) [] k0) as (H1 & H2 & H3 & _). split.
    - intros E. apply H1 in E. split; [exact (blockwise_fst _ _ _ E)|]. intros n g Hg. destruct (blockwise_get _ _ _ _ _ E Hg) as (g' & Hr & h & Hh & Hb). exists h, g'. auto.
    - intros n Hin Hc. repeat split; intros E; [apply H1 in E|apply H2 in E|apply H3 in E]; destruct (blockwise_in _ _ _ _ E Hin) as (g & g' & h & Hh & _); rewrite Hc in Hh; discriminate Hh.
  Qed.
  Lemma left_product : (k0 : S) <> k1 ->
    exists (b : block S) m g r r', b = [(0, g)] /\
      bl_rmul S (AVal S (Arr S 2 2 m)) b = Ok [(0, r)] /\ rmatmul S (Arr S 2 2 m) g = Ok r' /\ g_data S r 0 0 1 <> g_data S r' 0 0 1 /\
      (forall p i j, g_data S r p i j = product S 2 (g_data S g p) m i j) /\ (forall p i j, g_data S r' p i j = product S 2 m (g_data S g p) i j).
  Proof.
    intros H. set (m := fun i j => if (i =? 0) && (j =? 0) then k1 else (k0 : S)). set (d := fun (_ : nat) i j => if (i =? 0) && (j =? 1) then k1 else (k0 : S)).
    exists [(0, mkGf S 0 1 (Some (2, 2)) d)], m, (mkGf S 0 1 (Some (2, 2)) d). eexists. eexists. split; [reflexivity|]. split; [reflexivity|]. split; [reflexivity|].
    split; [|split; intros p i j; reflexivity]. cbn. intros E. apply H. ring_simplify in E. exact E.
  Qed.

  (** * Green's functions on one mesh *)
  Variable mesh n : nat.
  Hypothesis Hk : mesh_wrapped (kind mesh) = true.
  Hypothesis Hinv : forall a b : nat -> nat -> S, (forall i j, i < n -> j < n -> a i j = b i j) -> forall i j, i < n -> j < n -> minv n a i j = minv n b i j.

  Section OneShape.
  Variable sh : option (nat * nat).
  Hypothesis Hsh : sh = Some (n, n) \/ (sh = None /\ n = 1).
  Hypothesis Hinv1 : sh = None -> forall a : nat -> nat -> S, minv 1 a 0 0 = kinv (a 0 0).
  Notation on_mesh := (on_mesh S points mesh sh).
  Notation agree := (agree S points mesh n).
  Definition is (g : gf S) (D : nat -> nat -> nat -> S) : Prop := on_mesh g /\ agree (g_data S g) D.
  Lemma is_self g : on_mesh g -> is g (g_data S g).
  Proof. intros H. split; [exact H|]. intros p i j _ _ _. reflexivity. Qed.
  Lemma is_ext g D D' : is g D -> agree D D' -> is g D'.
  Proof. intros [H1 H2] E. split; [exact H1|]. intros p i j Hp Hi Hj. rewrite H2 by assumption. apply E; assumption. Qed.
  Lemma gf_inverse_is g A : is g A -> exists r, gf_inverse S kinv minv g = Ok r /\ is r (fun p => minv n (A p)).
  Proof.
    intros H. destruct (inverse_means S kinv minv points mesh n sh Hsh Hinv Hinv1 g A H) as (r & E & M). exists r. unfold gf_inverse. rewrite E. split; [reflexivity|exact M].
  Qed.
  Lemma inplace_is op g y A B : is g A -> means S points mesh n sh y B -> exists r, inplace S kind op g y = Ok r /\ is r (fun p i j => op (A p i j) (B p i j)).
  Proof. intros [H1 H2] HB. destruct (inplace_means S L kind points mesh n sh Hsh Hk op g y A B H1 H2 HB) as (r & E & M). eauto. Qed.
  Lemma is_means g A : is g A -> means S points mesh n sh (G S g) A.
  Proof. intros H. exact H. Qed.

  (** * Dyson *)
  Hypothesis Hlaw : forall a b, inverse_of S n a b -> forall i j, i < n -> j < n -> minv n a i j = b i j.
  Lemma inverse_sym a b : inverse_of S n a b -> inverse_of S n b a.
  Proof. intros H i j Hi Hj. destruct (H i j Hi Hj). auto. Qed.
  Lemma dyson_ok G0 Gi Sg : on_mesh G0 -> on_mesh Gi -> on_mesh Sg ->
    (forall p, p < length (points mesh) -> dyson_equation S n (g_data S G0 p) (g_data S Gi p) (g_data S Sg p)) ->
    (exists r, dyson S kinv minv kind None (Some Gi) (Some Sg) = Ok r /\ is r (g_data S G0)) /\
    (exists r, dyson S kinv minv kind (Some G0) None (Some Sg) = Ok r /\ is r (g_data S Gi)) /\
    (exists r, dyson S kinv minv kind (Some G0) (Some Gi) None = Ok r /\ is r (g_data S Sg)).
  Proof.
    intros H0 HG HS HD. pose proof (is_self _ H0) as I0. pose proof (is_self _ HG) as IG. pose proof (is_self _ HS) as IS.
    destruct (gf_inverse_is _ _ I0) as (a & Ea & Ia). destruct (gf_inverse_is _ _ IG) as (b & Eb & Ib). split; [|split].
    - cbn [dyson]. rewrite Eb. cbn [bind]. destruct (inplace_is kadd Sg (G S b) _ _ IS (is_means _ _ Ib)) as (c & Ec & Ic). rewrite Ec. cbn [bind].
      destruct (gf_inverse_is _ _ Ic) as (r & Er & Ir). exists r. split; [exact Er|]. eapply is_ext; [exact Ir|]. intros p i j Hp Hi Hj. destruct (HD p Hp) as (A & B & HA & HB & HE).
      rewrite (Hinv _ A); [apply Hlaw; [apply inverse_sym; exact HA|assumption|assumption]| |assumption|assumption].
      intros i' j' Hi' Hj'. rewrite (HE i' j' Hi' Hj'), (Hlaw _ _ HB i' j' Hi' Hj'). ring.
    - cbn [dyson]. rewrite Ea. cbn [bind]. destruct (inplace_is ksub a (G S Sg) _ _ Ia (is_means _ _ IS)) as (c & Ec & Ic). rewrite Ec. cbn [bind].
      destruct (gf_inverse_is _ _ Ic) as (r & Er & Ir). exists r. split; [exact Er|]. eapply is_ext; [exact Ir|]. intros p i j Hp Hi Hj. destruct (HD p Hp) as (A & B & HA & HB & HE).
      rewrite (Hinv _ B); [apply Hlaw; [apply inverse_sym; exact HB|assumption|assumption]| |assumption|assumption].
      intros i' j' Hi' Hj'. rewrite (HE i' j' Hi' Hj'), (Hlaw _ _ HA i' j' Hi' Hj'). ring.
    - cbn [dyson]. rewrite Ea. cbn [bind]. rewrite Eb. cbn [bind]. destruct (inplace_is ksub a (G S b) _ _ Ia (is_means _ _ Ib)) as (r & Er & Ir). exists r. split; [exact Er|].
      eapply is_ext; [exact Ir|]. intros p i j Hp Hi Hj. destruct (HD p Hp) as (A & B & HA & HB & HE). rewrite (HE i j Hi Hj), (Hlaw _ _ HA i j Hi Hj), (Hlaw _ _ HB i j Hi Hj). reflexivity.
  Qed.
  End OneShape.
End Proofs.

Lemma combine_split (A B : Type) (l : list (A * B)) : List.combine (map fst l) (map snd l) = l.
Proof. induction l as [|[a b] l IH]; cbn; [reflexivity|]. rewrite IH. reflexivity. Qed.
Lemma slice_map (A B : Type) (f : A -> B) size rank l : slice_array size rank (map f l) = map f (slice_array size rank l).
Proof. unfold slice_array, py_slice. rewrite map_length. rewrite skipn_map, firstn_map. reflexivity. Qed.

Section Sumk.
  Context (S : scalar_ops) (L : scalar_laws S).
  Local Open Scope K_scope.
  Add Ring Kr3 : (sl_ring S L).
  Variable kinv : S -> S.
  Variable minv : nat -> (nat -> nat -> S) -> (nat -> nat -> S).
  Variable kind : nat -> mesh_kind.
  Variable points : nat -> list S.
  Variable mesh n : nat.
  Hypothesis Hkind : kind mesh = MeshImFreq.
  Hypothesis Hinv : forall a b : nat -> nat -> S, (forall i j, i < n -> j < n -> a i j = b i j) -> forall i j, i < n -> j < n -> minv n a i j = minv n b i j.
  Let sh : option (nat * nat) := Some (n, n).
  Let Hsh : sh = Some (n, n) \/ (sh = None /\ n = 1) := or_introl eq_refl.
  Lemma Hwr : mesh_wrapped (kind mesh) = true.
  Proof. rewrite Hkind. reflexivity. Qed.
  Lemma Hinv1' : sh = None -> forall a : nat -> nat -> S, minv 1 a 0 0 = kinv (a 0 0).
  Proof. discriminate. Qed.
  Notation is := (is S points mesh n sh).
  Notation on_mesh := (on_mesh S points mesh sh).
  Notation agree := (agree S points mesh n).
  Variable K : Type.
  Variable eps_hat : (nat -> nat -> S) -> (nat -> nat -> S).
  Variable sg : sigma S K.
  Variable mu : S.
  Variable field : option (val S).
  Hypothesis Hsg : match sg with SigGf _ _ g => on_mesh g | SigFun _ _ f => forall k e, on_mesh (f k e) end.
  Hypothesis Hfield : field_fits S points mesh n field.

  Definition om (p : nat) : S := nth p (points mesh) k0.
  (** tmp, before the loop *)
  Definition tmp_data (p i j : nat) : S :=
    om p * unit_matrix S i j - field_value S field p i j - match sg with SigGf _ _ g => g_data S g p i j | SigFun _ _ _ => k0 end.
  Definition term (x : S * K * (nat -> nat -> S)) (p i j : nat) : S :=
    fst (fst x) * minv n (fun i j => (om p + mu) * unit_matrix S i j - field_value S field p i j - g_data S (sigma_value S sg (snd (fst x)) (snd x)) p i j - eps_hat (snd x) i j) i j.
  Lemma k_step_is tmp a A x : is tmp tmp_data -> is a A ->
    exists r, k_step S kinv minv kind K eps_hat sg n mu tmp (Ok a) x = Ok r /\ is r (fun p i j => A p i j + term x p i j).
  Proof.
    intros Ht Ha. destruct x as [[w k] e]. unfold k_step. cbn [bind].
    destruct (inplace_is S L kind points mesh n Hwr sh Hsh ksub tmp (Arr S n n (fun i j => eps_hat e i j - mu * delta S i j)) _ (fun _ i j => eps_hat e i j - mu * delta S i j) Ht) as (t1 & E1 & I1).
    { repeat split. } rewrite E1. cbn [bind].
    assert (H2 : exists t2, match sg with SigGf _ _ _ => Ok t1 | SigFun _ _ f => inplace S kind ksub t1 (G S (f k e)) end = Ok t2 /\
      is t2 (fun p i j => (om p + mu) * unit_matrix S i j - field_value S field p i j - g_data S (sigma_value S sg k e) p i j - eps_hat e i j)).
    { unfold tmp_data in I1. destruct sg as [g|f]; cbn [sigma_value] in *.
      - exists t1. split; [reflexivity|]. eapply is_ext; [exact I1|]. intros p i j _ _ _. change (delta S i j) with (unit_matrix S i j). ring.
      - destruct (inplace_is S L kind points mesh n Hwr sh Hsh ksub t1 (G S (f k e)) _ _ I1 (is_self S points mesh n sh _ (Hsg k e))) as (t2 & E2 & I2).
        exists t2. split; [exact E2|]. eapply is_ext; [exact I2|]. intros p i j _ _ _. change (delta S i j) with (unit_matrix S i j). ring. }
    destruct H2 as (t2 & E2 & I2). rewrite E2. cbn [bind].
    destruct (gf_inverse_is S kinv minv points mesh n Hinv sh Hsh Hinv1' t2 _ I2) as (t3 & E3 & I3). rewrite E3. cbn [bind imatmul].
    destruct I3 as [I3 J3]. destruct (scale_means S points mesh n sh w t3 _ I3 J3) as [I4 J4].
    destruct (inplace_is S L kind points mesh n Hwr sh Hsh kadd a (G S (scale S w t3)) _ _ Ha (conj I4 J4)) as (r & E & I). exists r. split; [exact E|].
    eapply is_ext; [exact I|]. intros p i j _ _ _. unfold term. cbn [fst snd]. ring.
  Qed.
  Definition terms (l : list (S * K * (nat -> nat -> S))) (p i j : nat) : S := ksum (map (fun x => term x p i j) l).
  Lemma fold_is tmp l : is tmp tmp_data -> forall a A, is a A ->
    exists r, fold_left (k_step S kinv minv kind K eps_hat sg n mu tmp) l (Ok a) = Ok r /\ is r (fun p i j => A p i j + terms l p i j).
  Proof.
    intros Ht. induction l as [|x l IH]; intros a A Ha.
    - exists a. split; [reflexivity|]. eapply is_ext; [exact Ha|]. intros p i j _ _ _. unfold terms. cbn. ring.
    - cbn [fold_left]. destruct (k_step_is tmp a A x Ht Ha) as (b & E & Ib). rewrite E. destruct (IH b _ Ib) as (r & Er & Ir). exists r. split; [exact Er|]. eapply is_ext; [exact Ir|].
      intros p i j _ _ _. unfold terms. cbn [map ksum]. ring.
  Qed.
  Lemma zero_is model : on_mesh model -> is (zero S model) (fun _ _ _ => k0).
  Proof. intros H. split; [exact H|]. intros p i j _ _ _. reflexivity. Qed.
  Lemma omega_is g : on_mesh g -> exists r, describe S kind points (DOmega S) g = Ok r /\ is r (fun p i j => om p * unit_matrix S i j).
  Proof.
    intros Hg. pose proof Hg as (Gm & Gl & Gs). cbn [describe]. rewrite Gm, Gs, Hkind. cbn [mesh_freq negb]. unfold sh.
    destruct (fill_ok S points mesh n sh g (fun o => Arr S n n (fun i j => o * delta S i j)) Hg) as (r & E1 & E2 & E3).
    { intros o _. cbn. rewrite Nat.eqb_refl. reflexivity. }
    exists r. split; [exact E1|]. split; [exact E2|]. exact E3.
  Qed.
  Lemma rank_is size rank model w k hop : on_mesh model ->
    exists r, sumk_rank S kinv minv kind points K size rank eps_hat n false sg mu field model w k hop = Ok r /\
      is r (terms (List.combine (List.combine (slice_array size rank w) (slice_array size rank k)) (slice_array size rank hop))).
  Proof.
    intros Hm. pose proof Hm as (_ & _ & Gs). unfold sumk_rank. rewrite Gs. unfold sh at 1. rewrite Nat.eqb_refl. cbn [andb].
    destruct (omega_is (zero S model) Hm) as (t0 & E0 & I0). rewrite E0. cbn [bind].
    assert (H1 : exists t1, match field with None => Ok t0 | Some v => inplace S kind ksub t0 v end = Ok t1 /\ is t1 (fun p i j => om p * unit_matrix S i j - field_value S field p i j)).
    { destruct field as [v|]; [|exists t0; split; [reflexivity|]; eapply is_ext; [exact I0|]; intros p i j _ _ _; cbn [field_value]; ring].
      destruct (inplace_is S L kind points mesh n Hwr sh Hsh ksub t0 v _ (field_value S (Some v)) I0) as (t1 & E1 & I1); [|eauto].
      destruct v as [c|a b m|g]; cbn [field_fits] in Hfield; cbn [means field_value].
      - intros p i j _ _ _. reflexivity.
      - destruct Hfield as [-> ->]. repeat split.
      - split; [exact Hfield|]. intros p i j _ _ _. reflexivity. }
    destruct H1 as (t1 & E1 & I1). rewrite E1. cbn [bind].
    assert (H2 : exists t2, match sg with SigGf _ _ s => inplace S kind ksub t1 (G S s) | SigFun _ _ _ => Ok t1 end = Ok t2 /\ is t2 tmp_data).
    { unfold tmp_data. destruct sg as [g|f].
      - destruct (inplace_is S L kind points mesh n Hwr sh Hsh ksub t1 (G S g) _ (g_data S g) I1 (is_self S points mesh n sh _ Hsg)) as (t2 & E2 & I2). eauto.
      - exists t1. split; [reflexivity|]. eapply is_ext; [exact I1|]. intros p i j _ _ _. ring. }
    destruct H2 as (t2 & E2 & I2). rewrite E2. cbn [bind].
    destruct (fold_is t2 (List.combine (List.combine (slice_array size rank w) (slice_array size rank k)) (slice_array size rank hop)) I2 _ _ (zero_is model Hm)) as (r & Er & Ir).
    exists r. split; [exact Er|]. eapply is_ext; [exact Ir|]. intros p i j _ _ _. ring.
  Qed.
  Lemma add_ranks (rs : list (res (gf S))) (Ts : list (nat -> nat -> nat -> S)) :
    Forall2 (fun x T => exists g, x = Ok g /\ is g T) rs Ts ->
    forall a A, is a A -> exists r, fold_left (add_data S) rs (Ok a) = Ok r /\ is r (fun p i j => A p i j + ksum (map (fun T => T p i j) Ts)).
  Proof.
    intros H. induction H as [|x T rs Ts (g & -> & [Ig Jg]) _ IH]; intros a A [Ia Ja].
    - exists a. split; [reflexivity|]. split; [exact Ia|]. intros p i j Hp Hi Hj. rewrite (Ja p i j Hp Hi Hj). cbn. ring.
    - cbn [fold_left add_data bind].
      destruct (IH (with_data S a (fun p i j => g_data S a p i j + g_data S g p i j)) (fun p i j => A p i j + T p i j)) as (r & E & I).
      { split; [exact Ia|]. intros p i j Hp Hi Hj. cbn [with_data g_data]. rewrite (Ja p i j Hp Hi Hj), (Jg p i j Hp Hi Hj). reflexivity. }
      exists r. split; [exact E|]. eapply is_ext; [exact I|]. intros p i j _ _ _. cbn [map ksum]. ring.
  Qed.
  Lemma terms_concat ls p i j : ksum (map (fun l => terms l p i j) ls) = terms (concat ls) p i j.
  Proof. induction ls as [|l ls IH]; [reflexivity|]. cbn [map ksum concat]. rewrite IH. unfold terms. rewrite map_app, (ksum_app S L). reflexivity. Qed.
  Lemma sumk_is size model (l : list (S * K * (nat -> nat -> S))) : (1 <= size)%Z -> on_mesh model ->
    exists r, sumk S kinv minv kind points K size eps_hat n false sg mu field model (map (fun x => fst (fst x)) l) (map (fun x => snd (fst x)) l) (map snd l) = Ok r /\ is r (terms l).
  Proof.
    intros Hs Hm. unfold sumk.
    set (ranks := seq 0 (Z.to_nat size)).
    destruct (add_ranks (map (fun r => sumk_rank S kinv minv kind points K size (Z.of_nat r) eps_hat n false sg mu field model (map (fun x => fst (fst x)) l) (map (fun x => snd (fst x)) l) (map snd l)) ranks)
                        (map (fun r => terms (slice_array size (Z.of_nat r) l)) ranks)) with (a := zero S model) (A := fun _ _ _ : nat => (k0 : S)) as (r & E & I).
    - generalize ranks as rks. intros rks. induction rks as [|x rks IH]; cbn [map]; constructor; [|exact IH].
      destruct (rank_is size (Z.of_nat x) model (map (fun x => fst (fst x)) l) (map (fun x => snd (fst x)) l) (map snd l) Hm) as (g & E & I). exists g. split; [exact E|].
      rewrite !slice_map in I. rewrite <- (map_map fst fst), <- (map_map fst snd), combine_split, combine_split in I. exact I.
    - apply zero_is. exact Hm.
    - exists r. split; [exact E|]. eapply is_ext; [exact I|]. intros p i j _ _ _. rewrite map_map.
      replace (map (fun r => terms (slice_array size (Z.of_nat r) l) p i j) ranks) with (map (fun l => terms l p i j) (map (fun r => slice_array size (Z.of_nat r) l) ranks)) by (rewrite map_map; reflexivity).
      rewrite terms_concat. unfold ranks. rewrite C56_slice_array by exact Hs. ring.
  Qed.
End Sumk.
