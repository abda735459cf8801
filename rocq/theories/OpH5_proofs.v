(** Proofs about archives of many-body operators. *)
From Coq Require Import String ZArith QArith Qcanon List Bool Arith Sorted Lia.
From Verif Require Import Base Indices Scalar Fock OpModel OpNormal Hilbert Hilbert_proofs RealOrComplex OpH5 OpH5Spec.
Import ListNotations.
Local Open Scope nat_scope.

(** ---- maps ---- *)
Section Maps.
  Context {A : Type}.
  Implicit Types t op : tmap A.
  Definition kl (x y : monomial * A) : Prop := mcmp (fst x) (fst y) = Lt.
  Lemma lt_gt (x y : monomial) : mcmp x y = Lt -> mcmp y x = Gt.
  Proof. intros H. rewrite (oc_anti _ mcmp_ok), H. reflexivity. Qed.
  Lemma gt_lt (x y : monomial) : mcmp x y = Gt -> mcmp y x = Lt.
  Proof. intros H. rewrite (oc_anti _ mcmp_ok), H. reflexivity. Qed.
  Lemma insert_last m c t : Forall (fun x => mcmp (fst x) m = Lt) t -> t_insert m c t = t ++ [(m, c)].
  Proof.
    induction t as [|[m' c'] t IH]; intros H; [reflexivity|]. inversion_clear H. cbn [t_insert app fst] in *. rewrite (lt_gt _ _ H0), IH by assumption. reflexivity.
  Qed.
  Lemma inserts_sorted op : forall t, is_map (t ++ op) -> fold_left (fun t mc => t_insert (fst mc) (snd mc) t) op t = t ++ op.
  Proof.
    induction op as [|[m c] op IH]; intros t H; cbn [fold_left]; [rewrite app_nil_r; reflexivity|]. cbn [fst snd].
    assert (Hm : Forall (fun x => mcmp (fst x) m = Lt) t).
    { clear IH. induction t as [|x t IHt]; constructor; cbn [app] in H; inversion_clear H; [|apply IHt; assumption].
      rewrite Forall_forall in H1. apply (H1 (m, c)). apply in_or_app. right. left. reflexivity. }
    rewrite (insert_last m c t Hm), IH; rewrite <- app_assoc; [reflexivity|exact H].
  Qed.
  Lemma insert_Forall (P : monomial * A -> Prop) m c t : P (m, c) -> Forall P t -> Forall P (t_insert m c t).
  Proof.
    intros Hm H. induction H as [|[m' c'] t Hx Ht IH]; cbn [t_insert]; [constructor; auto|]. destruct (mcmp m m'); [constructor; auto|constructor; [exact Hm|constructor; auto]|constructor; auto].
  Qed.
  Lemma insert_map m c t : is_map t -> is_map (t_insert m c t).
  Proof.
    unfold is_map. induction t as [|[m' c'] t IH]; intros H; cbn [t_insert]; [repeat constructor|]. inversion_clear H. destruct (mcmp m m') eqn:E; [constructor; auto| |].
    - constructor; [constructor; auto|]. constructor; [exact E|]. eapply Forall_impl; [|exact H1]. intros x Hx. cbn [fst] in *. exact (oc_trans _ mcmp_ok _ _ _ E Hx).
    - constructor; [apply IH; assumption|]. apply insert_Forall; [cbn [fst]; apply gt_lt, E|exact H1].
  Qed.
  Lemma find_lt m t : Forall (fun x => mcmp m (fst x) = Lt) t -> t_find m t = None.
  Proof. intros H. destruct t as [|[m' c'] t]; [reflexivity|]. inversion_clear H. cbn [t_find fst] in *. rewrite H0. reflexivity. Qed.
  Lemma find_insert m c t m' : is_map t -> t_find m' (t_insert m c t) = match t_find m' t with Some x => Some x | None => match mcmp m' m with Eq => Some c | _ => None end end.
  Proof.
    unfold is_map. induction t as [|[m1 c1] t IH]; intros H; cbn [t_insert t_find]; [destruct (mcmp m' m); reflexivity|]. inversion_clear H. destruct (mcmp m m1) eqn:E.
    - cbn [t_find]. apply (oc_eq _ mcmp_ok) in E. subst m1. destruct (mcmp m' m) eqn:E'; [reflexivity|reflexivity|]. destruct (t_find m' t); reflexivity.
    - cbn [t_find]. destruct (mcmp m' m) eqn:E'.
      + apply (oc_eq _ mcmp_ok) in E'. subst m'. rewrite E. reflexivity.
      + rewrite (oc_trans _ mcmp_ok _ _ _ E' E). reflexivity.
      + destruct (mcmp m' m1); [reflexivity|reflexivity|]. destruct (t_find m' t); reflexivity.
    - cbn [t_find]. destruct (mcmp m' m1) eqn:E'; [reflexivity| |].
      + apply gt_lt in E. rewrite (oc_trans _ mcmp_ok _ _ _ E' E). reflexivity.
      + rewrite IH by assumption. reflexivity.
  Qed.
  Lemma find_inserts op : forall t m', is_map t -> is_map (fold_left (fun t mc => t_insert (fst mc) (snd mc) t) op t) /\
    (is_map op -> t_find m' (fold_left (fun t mc => t_insert (fst mc) (snd mc) t) op t) = match t_find m' t with Some x => Some x | None => t_find m' op end).
  Proof.
    induction op as [|[m c] op IH]; intros t m' Ht; cbn [fold_left fst snd]; [split; [exact Ht|]; intros _; cbn [t_find]; destruct (t_find m' t); reflexivity|].
    destruct (IH (t_insert m c t) m' (insert_map m c t Ht)) as [I1 I2]. split; [exact I1|]. intros Ho. inversion_clear Ho. rewrite (I2 H), (find_insert m c t m' Ht).
    destruct (t_find m' t) as [x|]; [reflexivity|]. cbn [t_find]. destruct (mcmp m' m) eqn:E; [reflexivity| |reflexivity].
    apply find_lt. eapply Forall_impl; [|exact H0]. intros x Hx. cbn [fst] in Hx. exact (oc_trans _ mcmp_ok _ _ _ E Hx).
  Qed.
  Lemma find_In m c t : is_map t -> (t_find m t = Some c <-> In (m, c) t).
  Proof.
    unfold is_map. induction t as [|[m1 c1] t IH]; intros H; cbn [t_find]; [split; [discriminate|intros []]|]. inversion_clear H. specialize (IH H0). rewrite Forall_forall in H1.
    destruct (mcmp m m1) eqn:E.
    - apply (oc_eq _ mcmp_ok) in E. subst m1. split; [intros [= ->]; left; reflexivity|]. intros [[= ->]|Hin]; [reflexivity|]. specialize (H1 _ Hin). cbn [fst] in H1.
      rewrite (oc_refl _ mcmp_ok) in H1. discriminate.
    - split; [discriminate|]. intros [[= -> ->]|Hin]; [rewrite (oc_refl _ mcmp_ok) in E; discriminate|]. specialize (H1 _ Hin). cbn [fst] in H1.
      pose proof (oc_trans _ mcmp_ok _ _ _ E H1) as H2. rewrite (oc_refl _ mcmp_ok) in H2. discriminate.
    - rewrite IH. split; [right; assumption|]. intros [[= -> ->]|Hin]; [rewrite (oc_refl _ mcmp_ok) in E; discriminate|exact Hin].
  Qed.
End Maps.

Lemma is_map_map {A B} (f : A -> B) (t : tmap A) : is_map t -> is_map (map (fun x => (fst x, f (snd x))) t).
Proof.
  intros H. induction H as [|x t Ht IH Hx]; cbn [map]; constructor; [exact IH|]. apply Forall_map. eapply Forall_impl; [|exact Hx]. intros y Hy. exact Hy.
Qed.

(** conversion *)
Lemma convert_ok {A B} (conv : A -> res B) (f : A -> B) (t : tmap A) : is_map t -> (forall x, In x t -> conv (snd x) = Ok (f (snd x))) ->
  op_convert conv t = Ok (map (fun x => (fst x, f (snd x))) t).
Proof.
  intros Hm Hc. unfold op_convert.
  assert (G : forall t0, (forall x, In x t -> conv (snd x) = Ok (f (snd x))) ->
    fold_left (fun r y => do t <- r ; do c <- conv (snd y) ; Ok (t_insert (fst y) c t)) t (Ok t0) =
    Ok (fold_left (fun t mc => t_insert (fst mc) (snd mc) t) (map (fun x => (fst x, f (snd x))) t) t0)).
  { clear. induction t as [|x t IH]; intros t0 Hc; [reflexivity|]. cbn [fold_left map fst snd bind]. rewrite (Hc x (or_introl eq_refl)). cbn [bind]. apply IH.
    intros y Hy. apply Hc. right. exact Hy. }
  etransitivity; [exact (G [] Hc)|]. f_equal. apply (inserts_sorted _ []). apply is_map_map, Hm.
Qed.
Lemma convert_throw {A B} (conv : A -> res B) (t : tmap A) : (forall c, conv c <> UB) -> (exists x, In x t /\ conv (snd x) = Throw) -> op_convert conv t = Throw.
Proof.
  intros Hu Hx. unfold op_convert.
  assert (Z : forall t : tmap A, fold_left (fun (r : res (tmap B)) y => do t <- r ; do c <- conv (snd y) ; Ok (t_insert (fst y) c t)) t Throw = Throw).
  { clear. induction t as [|x t IH]; [reflexivity|exact IH]. }
  generalize (@nil (monomial * B)) as t0. induction t as [|y t IH]; intros t0; [destruct Hx as (x & [] & _)|]. cbn [fold_left bind].
  destruct (conv (snd y)) as [c| |] eqn:E; cbn [bind]; [|apply Z|exfalso; exact (Hu _ E)].
  apply IH. destruct Hx as (x & [->|Hin] & Hx); [congruence|eauto].
Qed.

(** ---- one monomial ---- *)
Lemma int32_id z : (- 2 ^ 31 <= z < 2 ^ 31)%Z -> to_int32 z = z.
Proof. intros H. unfold to_int32. rewrite Z.mod_small by lia. lia. Qed.
Lemma numbers_ok l m : Forall (fun c => In (ind c) l) m -> exists xs, op_numbers l m = Ok xs /\ length xs = length m.
Proof.
  induction 1 as [|c m Hc Hm (xs & E & EL)]; [exists []; auto|]. cbn [op_numbers]. destruct (find_pos_In l (ind c) Hc) as [p Hp].
  unfold op_number, fops_at. rewrite Hp. cbn [bind]. rewrite E. cbn [bind]. eexists. split; [reflexivity|]. cbn [length]. rewrite EL. reflexivity.
Qed.
Lemma numbers_throw l m : ~ Forall (fun c => In (ind c) l) m -> op_numbers l m = Throw.
Proof.
  induction m as [|c m IH]; intros H; [exfalso; apply H; constructor|]. cbn [op_numbers]. unfold op_number, fops_at. destruct (find_pos l (ind c)) as [p|] eqn:E; cbn [bind]; [|reflexivity].
  rewrite IH; [reflexivity|]. intros Hm. apply H. constructor; [|exact Hm]. apply find_pos_nth in E. eapply nth_error_In; exact E.
Qed.
Lemma read_written l m k : (Z.of_nat (length l) < 2 ^ 31)%Z -> forall xs, op_numbers l m = Ok xs -> read_ops l (xs ++ repeat 0%Z k) = Ok m.
Proof.
  intros Hl. induction m as [|c m IH]; intros xs; cbn [op_numbers].
  - intros [= <-]. cbn [app]. destruct k; reflexivity.
  - unfold op_number, fops_at. destruct (find_pos l (ind c)) as [p|] eqn:E; cbn [bind]; [|discriminate].
    destruct (op_numbers l m) as [ys| |] eqn:Em; cbn [bind]; try discriminate. intros [= <-]. cbn [app read_ops].
    pose proof (find_pos_lt _ _ _ E) as Hp. pose proof (find_pos_nth _ _ _ E) as Hn. specialize (IH ys eq_refl).
    assert (H32 : to_int32 (if dag c then Z.of_nat p + 1 else - (Z.of_nat p + 1))%Z = (if dag c then Z.of_nat p + 1 else - (Z.of_nat p + 1))%Z) by (apply int32_id; destruct (dag c); lia).
    rewrite H32. destruct (Z.eqb_spec (if dag c then Z.of_nat p + 1 else - (Z.of_nat p + 1)) 0) as [H0|_]; [destruct (dag c); lia|].
    replace (Z.to_nat (Z.abs (if dag c then Z.of_nat p + 1 else - (Z.of_nat p + 1)) - 1)) with p by (destruct (dag c); lia). rewrite Hn, IH. cbn [bind].
    do 2 f_equal. destruct c as [d i]. cbn [dag ind]. f_equal. destruct d; [apply Z.ltb_lt; lia|apply Z.ltb_ge; lia].
Qed.

(** ---- the dataset ---- *)
Definition stored (r : roc) : roc := if is_real r then roc_of_d (re (val r)) else roc_of_c (mkC (re (val r)) (im (val r))).
Lemma stored_proper r : proper r -> stored r = r.
Proof. destruct r as [[|] [x y]]; unfold proper, stored; cbn; [|reflexivity]. intros H. rewrite (H eq_refl). reflexivity. Qed.

Lemma write_throw l op : ~ short op \/ ~ inside l op -> write_all l op = Throw.
Proof.
  assert (W : forall mc : monomial * roc, 4 < length (fst mc) \/ ~ Forall (fun c => In (ind c) l) (fst mc) -> write_monomial l mc = Throw).
  { intros mc H. unfold write_monomial, max_monomial_size. match goal with |- context [4 <? ?n] => destruct (4 <? n) eqn:El end; [reflexivity|]. apply Nat.ltb_ge in El. destruct H as [H|H]; [exfalso; apply (Nat.lt_irrefl 4); eapply Nat.lt_le_trans; [exact H|exact El]|]. rewrite (numbers_throw l _ H). reflexivity. }
  assert (N : forall mc, write_monomial l mc <> UB).
  { intros mc. unfold write_monomial. destruct (max_monomial_size <? length (fst mc)); [discriminate|]. destruct (op_numbers l (fst mc)) eqn:E; cbn [bind]; try discriminate.
    exfalso. revert E. generalize (fst mc). clear. induction m as [|c m IH]; cbn [op_numbers]; [discriminate|]. unfold op_number, fops_at. destruct (find_pos l (ind c)); cbn [bind]; [|discriminate].
    destruct (op_numbers l m); cbn [bind]; [discriminate|discriminate|]. intros _. apply IH. reflexivity. }
  intros H. induction op as [|mc op IH]; [exfalso; destruct H as [H|H]; apply H; constructor|]. cbn [write_all].
  destruct (write_monomial l mc) as [y| |] eqn:E; cbn [bind]; [|reflexivity|exfalso; exact (N _ E)].
  rewrite IH; [reflexivity|].
  assert (G : length (fst mc) <= 4 /\ Forall (fun c => In (ind c) l) (fst mc)).
  { split.
    - destruct (Nat.le_gt_cases (length (fst mc)) 4) as [|Hlt]; [assumption|]. rewrite W in E by (left; exact Hlt). discriminate.
    - destruct (Forall_dec (fun c => In (ind c) l) (fun c => match find_pos l (ind c) as o return find_pos l (ind c) = o -> _ with
        | Some p => fun Ep => left (nth_error_In _ _ (find_pos_nth _ _ _ Ep)) | None => fun Ep => right (proj1 (find_pos_None _ _) Ep) end eq_refl) (fst mc)) as [|Hn]; [assumption|].
      rewrite W in E by (right; exact Hn). discriminate. }
  destruct H as [H|H]; [left|right]; intros H'; apply H; constructor; auto; apply G.
Qed.

Lemma write_read l op op0 : (Z.of_nat (length l) < 2 ^ 31)%Z -> short op -> inside l op ->
  exists d, write_all l op = Ok d /\ fold_left (read_step l) d (Ok op0) = Ok (fold_left (fun t mc => t_insert (fst mc) (snd mc) t) (map (fun x => (fst x, stored (snd x))) op) op0).
Proof.
  intros Hl Hs Hi. revert op0. induction op as [|[m c] op IH]; intros op0; [exists []; auto|]. inversion_clear Hs. inversion_clear Hi. cbn [fst] in *. cbn [write_all].
  unfold write_monomial, max_monomial_size. cbn [fst snd]. match goal with |- context [4 <? ?n] => destruct (4 <? n) eqn:El end; [apply Nat.ltb_lt in El; exfalso; apply (Nat.lt_irrefl 4); eapply Nat.lt_le_trans; [exact El|exact H]|]. destruct (numbers_ok l m H1) as (xs & E & EL). rewrite E. cbn [bind].
  destruct (IH H0 H2 (t_insert m (stored c) op0)) as (d & Ed & Er). rewrite Ed. cbn [bind]. eexists. split; [reflexivity|]. cbn [fold_left map fst snd].
  unfold read_step at 2. cbn [bind hm_ops hm_real hm_re hm_im]. rewrite (read_written l m _ Hl xs E). cbn [bind]. exact Er.
Qed.

(** the archive with a given set of indices, read into any operator *)
Lemma thm_fops pad l op op0 : (Z.of_nat (length l) < 2 ^ 31)%Z -> Forall (Forall lbl_ok) l -> short op -> inside l op ->
  exists ds, h5_write_fops op l = Ok ds /\
    h5_read_fops pad ds op0 = Ok (fold_left (fun t mc => t_insert (fst mc) (snd mc) t) (map (fun x => (fst x, stored (snd x))) op) op0, l).
Proof.
  intros Hl Hlb Hs Hi. unfold h5_write_fops. destruct (write_read l op op0 Hl Hs Hi) as (d & -> & Er). cbn [bind]. eexists. split; [reflexivity|].
  unfold h5_read_fops. cbn [fst snd]. rewrite (thm_fops_h5 pad l Hlb). cbn [bind]. rewrite Er. reflexivity.
Qed.

(** ---- make_fundamental_operator_set ---- *)
Lemma make_fops_flat {A} (op : tmap A) : make_fops op = fops_inserts [] (map ind (flat_map fst op)).
Proof.
  unfold make_fops, fops_inserts. generalize (@nil indices) as f. induction op as [|[m c] op IH]; intros f; [reflexivity|]. cbn [fold_left flat_map fst]. rewrite IH, map_app, fold_left_app.
  f_equal. clear. revert f. induction m as [|c m IH]; intros f; [reflexivity|]. cbn [fold_left map]. apply IH.
Qed.
Lemma make_fops_In {A} (op : tmap A) i : In i (make_fops op) <-> exists mc c, In mc op /\ In c (fst mc) /\ ind c = i.
Proof.
  rewrite make_fops_flat, inserts_In, in_map_iff. split.
  - intros [[]|(c & Hc & Hin)]. apply in_flat_map in Hin. destruct Hin as (mc & H1 & H2). eauto.
  - intros (mc & c & H1 & H2 & H3). right. exists c. split; [exact H3|]. apply in_flat_map. eauto.
Qed.
Lemma make_fops_NoDup {A} (op : tmap A) : NoDup (make_fops op).
Proof. rewrite make_fops_flat. apply inserts_NoDup. constructor. Qed.
Lemma inserts_length ts : forall l, length (fops_inserts l ts) <= length l + length ts.
Proof.
  induction ts as [|t ts IH]; intros l; cbn [fops_inserts fold_left length]; [lia|]. specialize (IH (fops_insert l t)). unfold fops_inserts in IH. unfold fops_insert in *.
  destruct (fops_has l t); [lia|]. rewrite app_length in IH. cbn [length] in IH. lia.
Qed.
Lemma make_fops_length {A} (op : tmap A) : few op -> (Z.of_nat (length (make_fops op)) < 2 ^ 31)%Z.
Proof.
  unfold few. intros H. rewrite make_fops_flat. pose proof (inserts_length (map ind (flat_map fst op)) []) as G. rewrite map_length in G. cbn [length] in G.
  assert (E : length (flat_map fst op) = list_sum (map (fun mc => length (fst mc)) op)).
  { clear. induction op as [|mc op IH]; [reflexivity|]. cbn [flat_map map list_sum fold_right]. rewrite app_length, IH. reflexivity. }
  rewrite E in G. lia.
Qed.

(** ---- round trip ---- *)
Section Codec.
  Context {A B : Type} (to_roc : A -> roc) (of_roc : roc -> res B) (good : A -> Prop) (dec : A -> B).
  Hypothesis Hcodec : forall x, good x -> of_roc (stored (to_roc x)) = Ok (dec x).
  Lemma thm_round pad (op : tmap A) : is_map op -> short op -> labels_ok op -> few op -> Forall (fun mc => good (snd mc)) op ->
    exists ds, h5_write to_roc op = Ok ds /\ h5_read of_roc pad ds = Ok (map (fun mc => (fst mc, dec (snd mc))) op).
  Proof.
    intros Hm Hs Hl Hf Hg. unfold h5_write. rewrite (convert_ok _ to_roc op Hm) by reflexivity. cbn [bind].
    set (op' := map (fun x => (fst x, to_roc (snd x))) op).
    assert (Hs' : short op') by (unfold short, op'; apply Forall_map; exact Hs).
    assert (Hi' : inside (make_fops op) op').
    { unfold inside, op'. apply Forall_map. apply Forall_forall. intros mc Hmc. cbn [fst]. apply Forall_forall. intros c Hc. apply make_fops_In. exists mc, c. auto. }
    assert (Hlb : Forall (Forall lbl_ok) (make_fops op)).
    { apply Forall_forall. intros i Hi. apply make_fops_In in Hi. destruct Hi as (mc & c & H1 & H2 & <-). unfold labels_ok in Hl. rewrite Forall_forall in Hl. specialize (Hl mc H1).
      rewrite Forall_forall in Hl. exact (Hl c H2). }
    destruct (thm_fops pad (make_fops op) op' [] (make_fops_length op Hf) Hlb Hs' Hi') as (ds & -> & Er). exists ds. split; [reflexivity|].
    unfold h5_read. rewrite Er. cbn [bind fst].
    assert (Em : map (fun x => (fst x, stored (snd x))) op' = map (fun x => (fst x, stored (to_roc (snd x)))) op) by (unfold op'; rewrite map_map; reflexivity).
    rewrite Em. rewrite (inserts_sorted _ []) by (apply (is_map_map (fun c => stored (to_roc c))), Hm). cbn [app].
    rewrite Forall_forall in Hg.
    assert (G : forall t : tmap A, (forall x, In x t -> good (snd x)) -> forall t0 : tmap B,
      fold_left (fun r y => do t <- r ; do c <- of_roc (snd y) ; Ok (t_insert (fst y) c t)) (map (fun x => (fst x, stored (to_roc (snd x)))) t) (Ok t0) =
      Ok (fold_left (fun t mc => t_insert (fst mc) (snd mc) t) (map (fun mc => (fst mc, dec (snd mc))) t) t0)).
    { clear -Hcodec. induction t as [|x t IH]; intros Hg t0; [reflexivity|]. cbn [map fold_left fst snd bind]. rewrite (Hcodec _ (Hg x (or_introl eq_refl))). cbn [bind]. apply IH.
      intros y Hy. apply Hg. right. exact Hy. }
    unfold op_convert. etransitivity; [exact (G op Hg [])|]. f_equal. apply (inserts_sorted _ []). apply (is_map_map dec), Hm.
  Qed.
  Lemma thm_long (op : tmap A) : is_map op -> ~ short op -> h5_write to_roc op = Throw.
  Proof.
    intros Hm Hs. unfold h5_write. rewrite (convert_ok _ to_roc op Hm) by reflexivity. cbn [bind]. unfold h5_write_fops. rewrite write_throw; [reflexivity|].
    left. intros H. apply Hs. unfold short in *. apply Forall_map in H. exact H.
  Qed.
End Codec.

(** an archive with a complex coefficient, read as an operator with real coefficients *)
Lemma thm_real_from {A} (to_roc : A -> roc) pad (op : tmap A) : is_map op -> short op -> labels_ok op -> few op ->
  exists ds, h5_write to_roc op = Ok ds /\
    ((exists mc, In mc op /\ is_real (to_roc (snd mc)) = false) -> h5_read to_double pad ds = Throw).
Proof.
  intros Hm Hs Hl Hf.
  unfold h5_write. rewrite (convert_ok _ to_roc op Hm) by reflexivity. cbn [bind].
  set (op' := map (fun x => (fst x, to_roc (snd x))) op).
  assert (Hs' : short op') by (unfold short, op'; apply Forall_map; exact Hs).
  assert (Hi' : inside (make_fops op) op').
  { unfold inside, op'. apply Forall_map. apply Forall_forall. intros mc Hmc. cbn [fst]. apply Forall_forall. intros c Hc. apply make_fops_In. exists mc, c. auto. }
  assert (Hlb : Forall (Forall lbl_ok) (make_fops op)).
  { apply Forall_forall. intros i Hi. apply make_fops_In in Hi. destruct Hi as (mc & c & H1 & H2 & <-). unfold labels_ok in Hl. rewrite Forall_forall in Hl. specialize (Hl mc H1).
    rewrite Forall_forall in Hl. exact (Hl c H2). }
  destruct (thm_fops pad (make_fops op) op' [] (make_fops_length op Hf) Hlb Hs' Hi') as (ds & -> & Er). exists ds. split; [reflexivity|].
  intros (mc & Hin & Hr). unfold h5_read. rewrite Er. cbn [bind fst].
  assert (Em : map (fun x => (fst x, stored (snd x))) op' = map (fun x => (fst x, stored (to_roc (snd x)))) op) by (unfold op'; rewrite map_map; reflexivity).
  rewrite Em. rewrite (inserts_sorted _ []) by (apply (is_map_map (fun c => stored (to_roc c))), Hm). cbn [app].
  apply convert_throw.
  - intros c. unfold to_double. destruct (is_real c); discriminate.
  - exists (fst mc, stored (to_roc (snd mc))). split; [apply in_map_iff; exists mc; auto|]. cbn [snd]. unfold stored. rewrite Hr. reflexivity.
Qed.
