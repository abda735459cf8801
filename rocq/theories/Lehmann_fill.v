(** Proofs about the loops of gf.cpp: which terms reach which entry, and the two ways to fill a
    Green's function. *)
From Coq Require Import ZArith NArith String List Arith Bool Lia Reals.
From Coquelicot Require Import Coquelicot.
From Verif Require Import Base Indices Scalar Hilbert AtomDiag AtomDiag_lists RealAtom Lehmann.
Import ListNotations.
Local Open Scope nat_scope.

Section Loops.
  Context (S : scalar_ops) (inj : R -> S) (val : S -> C).
  Notation E := (RE S inj).
  Notation term := (term S).

  Definition hits (b i j : nat) (t : term) : bool := (b =? t_bl S t) && (i =? t_n1 S t) && (j =? t_n2 S t).
  Definition cell (b i j : nat) (ts : list term) : list (R * S) := map (fun t => (t_pole S t, t_res S t)) (filter (hits b i j) ts).
  Lemma cell_app b i j xs ys : cell b i j (xs ++ ys) = cell b i j xs ++ cell b i j ys.
  Proof. unfold cell. rewrite filter_app, map_app. reflexivity. Qed.
  Lemma cell_none b i j ts : (forall t, In t ts -> (t_bl S t, t_n1 S t, t_n2 S t) <> (b, i, j)) -> cell b i j ts = [].
  Proof.
    intros H. unfold cell. induction ts as [|t ts IH]; [reflexivity|]. cbn [filter]. destruct (hits b i j t) eqn:Q.
    - exfalso. apply (H t (or_introl eq_refl)). unfold hits in Q. rewrite !andb_true_iff, !Nat.eqb_eq in Q. destruct Q as [[-> ->] ->]. reflexivity.
    - apply IH. intros u Hu. apply H. right. exact Hu.
  Qed.
  Lemma cell_all b i j ts : (forall t, In t ts -> (t_bl S t, t_n1 S t, t_n2 S t) = (b, i, j)) -> cell b i j ts = map (fun t => (t_pole S t, t_res S t)) ts.
  Proof.
    intros H. unfold cell. induction ts as [|t ts IH]; [reflexivity|]. cbn [filter]. pose proof (H t (or_introl eq_refl)) as Q. injection Q as Q1 Q2 Q3.
    unfold hits. rewrite Q1, Q2, Q3, !Nat.eqb_refl. cbn [andb map]. f_equal. apply IH. intros u Hu. apply H. right. exact Hu.
  Qed.

  Lemma concatM_cons {A B} (f : A -> res (list B)) x xs ts : concatM f (x :: xs) = Ok ts -> exists r rs, f x = Ok r /\ concatM f xs = Ok rs /\ ts = r ++ rs.
  Proof. cbn [concatM]. destruct (f x) as [r| |]; cbn [bind]; try discriminate. destruct (concatM f xs) as [rs| |]; cbn [bind]; try discriminate. intros H. injection H as <-. exists r, rs. auto. Qed.
  Lemma concatM_in {A B} (f : A -> res (list B)) xs ts y : concatM f xs = Ok ts -> In y ts -> exists x r, In x xs /\ f x = Ok r /\ In y r.
  Proof.
    revert ts. induction xs as [|x xs IH]; intros ts H Hy; [injection H as <-; destruct Hy|].
    apply concatM_cons in H. destruct H as (r & rs & H1 & H2 & ->). apply in_app_or in Hy. destruct Hy as [Hy|Hy].
    - exists x, r. repeat split; auto. left; reflexivity.
    - destruct (IH rs H2 Hy) as (x' & r' & K1 & K2 & K3). exists x', r'. repeat split; auto. right; exact K1.
  Qed.
  Lemma concatM_total {A B} (f : A -> res (list B)) xs : (forall x, In x xs -> exists r, f x = Ok r) -> exists ts, concatM f xs = Ok ts.
  Proof.
    induction xs as [|x xs IH]; intros H; [exists []; reflexivity|]. destruct (H x (or_introl eq_refl)) as [r Hr].
    destruct IH as [rs Hrs]; [intros y Hy; apply H; right; exact Hy|]. exists (r ++ rs). cbn [concatM]. rewrite Hr, Hrs. reflexivity.
  Qed.
  Lemma concatM_cell_none {A} (f : A -> res (list term)) b i j xs ts : concatM f xs = Ok ts ->
    (forall x r, In x xs -> f x = Ok r -> cell b i j r = []) -> cell b i j ts = [].
  Proof.
    revert ts. induction xs as [|x xs IH]; intros ts H Hn; [injection H as <-; reflexivity|].
    apply concatM_cons in H. destruct H as (r & rs & H1 & H2 & ->). rewrite cell_app, (Hn x r (or_introl eq_refl) H1). apply (IH rs H2). intros y r' Hy. apply Hn. right. exact Hy.
  Qed.
  Lemma concatM_cell {A} (f : A -> res (list term)) b i j xs ts x0 : NoDup xs -> concatM f xs = Ok ts -> In x0 xs ->
    (forall x r, In x xs -> x <> x0 -> f x = Ok r -> cell b i j r = []) -> exists r, f x0 = Ok r /\ cell b i j ts = cell b i j r.
  Proof.
    revert ts. induction xs as [|x xs IH]; intros ts Hnd H Hin Hn; [destruct Hin|]. inversion Hnd as [|? ? Hni Hnd']; subst.
    apply concatM_cons in H. destruct H as (r & rs & H1 & H2 & ->). rewrite cell_app. destruct Hin as [->|Hin].
    - exists r. split; [exact H1|]. rewrite (concatM_cell_none f b i j xs rs H2); [apply app_nil_r|]. intros y r' Hy. apply Hn; [right; exact Hy|]. intros ->. apply Hni. exact Hy.
    - assert (Hne : x <> x0) by (intros ->; apply Hni; exact Hin). rewrite (Hn x r (or_introl eq_refl) Hne H1). apply (IH rs Hnd' H2 Hin). intros y r' Hy. apply Hn. right. exact Hy.
  Qed.
  Lemma concatM_app_sum {A} (f : A -> res (list term)) (phi : list term -> C) xs ts : concatM f xs = Ok ts -> phi [] = RtoC 0 -> (forall u v, phi (u ++ v) = Cplus (phi u) (phi v)) ->
    phi ts = fold_right (fun x z => Cplus (match f x with Ok r => phi r | _ => RtoC 0 end) z) (RtoC 0) xs.
  Proof.
    intros H H0 Ha. revert ts H. induction xs as [|x xs IH]; intros ts H; [injection H as <-; exact H0|].
    apply concatM_cons in H. destruct H as (r & rs & H1 & H2 & ->). cbn [fold_right]. rewrite H1, Ha. f_equal. apply IH. exact H2.
  Qed.

  Context (a : atom S E) (beta : R) (gs : gf_struct) (excluded : list (nat * nat)).

  (** the terms of an entry carry its indices *)
  Lemma block_tags bl i1 i2 n1 n2 A ts t : block_terms S inj val a beta excluded bl i1 i2 n1 n2 A = Ok ts -> In t ts -> (t_bl S t, t_n1 S t, t_n2 S t) = (bl, i1, i2).
  Proof.
    unfold block_terms. destruct (at_conn _ n2 A) as [B| |]; cbn [bind]; try discriminate. destruct (B =? -1)%Z; [intros H; injection H as <-; intros []|].
    destruct (B <? 0)%Z; [discriminate|]. destruct (at_conn _ n1 _) as [A'| |]; cbn [bind]; try discriminate. destruct (negb _); [intros H; injection H as <-; intros []|].
    do 4 (match goal with |- context [at_list ?x ?y] => destruct (at_list x y); cbn [bind]; try discriminate end).
    do 2 (match goal with |- context [at_mat S ?x ?y ?z] => destruct (at_mat S x y z); cbn [bind]; try discriminate end).
    intros H. injection H as <-. intros H. apply in_flat_map in H. destruct H as (ia & _ & H). destruct (is_excluded excluded A ia); [destruct H|].
    apply in_flat_map in H. destruct H as (ib & _ & H). destruct (is_excluded _ _ ib); [destruct H|]. unfold pair_term in H. destruct (negligible _ _ _); [destruct H|]. destruct H as [<-|[]]. reflexivity.
  Qed.
  Lemma entry_tags bl name i1 i2 ts t : entry_terms S inj val a beta excluded bl name i1 i2 = Ok ts -> In t ts -> (t_bl S t, t_n1 S t, t_n2 S t) = (bl, i1, i2).
  Proof.
    unfold entry_terms. destruct (fops_at _ _) as [n1| |]; cbn [bind]; try discriminate. destruct (fops_at _ _) as [n2| |]; cbn [bind]; try discriminate.
    intros H Ht. destruct (concatM_in _ _ _ _ H Ht) as (A & r & _ & Hr & Hin). eapply block_tags; eassumption.
  Qed.
  Lemma in_enum {A} (xs : list A) p : In p (enum xs) <-> nth_error xs (fst p) = Some (snd p).
  Proof.
    unfold enum. destruct p as [k x]. cbn [fst snd]. assert (G : forall m, In (k, x) (combine (seq m (length xs)) xs) <-> m <= k /\ nth_error xs (k - m) = Some x).
    { induction xs as [|y xs IH]; intros m; cbn [length seq combine]; [split; [intros []|intros [_ H]; destruct (k - m); discriminate]|].
      cbn [In]. rewrite IH. split.
      - intros [H|[H1 H2]]; [injection H as -> ->; rewrite Nat.sub_diag; split; [lia|reflexivity]|]. split; [lia|]. replace (k - m) with (Datatypes.S (k - Datatypes.S m)) by lia. exact H2.
      - intros [H1 H2]. destruct (Nat.eq_dec k m) as [->|Hne]; [rewrite Nat.sub_diag in H2; injection H2 as ->; left; reflexivity|].
        right. split; [lia|]. replace (k - m) with (Datatypes.S (k - Datatypes.S m)) in H2 by lia. exact H2. }
    rewrite G, Nat.sub_0_r. split; [intros [_ H]; exact H|intros H; split; [lia|exact H]].
  Qed.
  Lemma enum_NoDup {A} (xs : list A) : NoDup (enum xs).
  Proof.
    unfold enum. assert (G : forall m, NoDup (combine (seq m (length xs)) xs)); [|apply G]. induction xs as [|x xs IH]; intros m; cbn [length seq combine]; constructor; [|apply IH].
    intros H. apply in_combine_l in H. apply in_seq in H. lia.
  Qed.

  Definition row_terms (p : nat * (string * nat)) (i1 : nat) := concatM (fun i2 => entry_terms S inj val a beta excluded (fst p) (fst (snd p)) i1 i2) (seq 0 (snd (snd p))).
  Definition gblock_terms (p : nat * (string * nat)) := concatM (row_terms p) (seq 0 (snd (snd p))).
  Lemma row_tags p i1 r t : row_terms p i1 = Ok r -> In t r -> t_bl S t = fst p /\ t_n1 S t = i1 /\ t_n2 S t < snd (snd p).
  Proof.
    intros H Ht. destruct (concatM_in _ _ _ _ H Ht) as (i2 & r' & Hi & Hr & Hin). apply in_seq in Hi. pose proof (entry_tags _ _ _ _ _ _ Hr Hin) as Q. injection Q as -> -> ->. repeat split; lia.
  Qed.
  Lemma gblock_tags p r t : gblock_terms p = Ok r -> In t r -> t_bl S t = fst p /\ t_n1 S t < snd (snd p) /\ t_n2 S t < snd (snd p).
  Proof.
    intros H Ht. destruct (concatM_in _ _ _ _ H Ht) as (i1 & r' & Hi & Hr & Hin). apply in_seq in Hi. destruct (row_tags _ _ _ _ Hr Hin) as (-> & -> & ?). repeat split; lia.
  Qed.
  Lemma terms_tags ts t : lehmann_terms S inj val a beta gs excluded = Ok ts -> In t ts -> exists name m, nth_error gs (t_bl S t) = Some (name, m) /\ t_n1 S t < m /\ t_n2 S t < m.
  Proof.
    intros H Ht. destruct (concatM_in _ _ _ _ H Ht) as (p & r & Hp & Hr & Hin). apply in_enum in Hp. destruct (gblock_tags p r t Hr Hin) as (-> & K1 & K2). destruct p as [k [name m]]. exists name, m. auto.
  Qed.
  (** the terms that reach entry (bl, i1, i2) are those of its own loop *)
  Lemma cell_entry ts bl name m i1 i2 : lehmann_terms S inj val a beta gs excluded = Ok ts -> nth_error gs bl = Some (name, m) -> i1 < m -> i2 < m ->
    exists r, entry_terms S inj val a beta excluded bl name i1 i2 = Ok r /\ cell bl i1 i2 ts = map (fun t => (t_pole S t, t_res S t)) r.
  Proof.
    intros H Hg H1 H2.
    destruct (concatM_cell _ bl i1 i2 _ _ (bl, (name, m)) (enum_NoDup gs) H (proj2 (in_enum gs (bl, (name, m))) Hg)) as (r1 & K1 & ->).
    { intros p r Hp Hne Hr. apply cell_none. intros t Ht Q. injection Q as Q1 Q2 Q3. destruct (gblock_tags p r t Hr Ht) as (T & _). apply Hne. apply in_enum in Hp.
      rewrite <- T, Q1, Hg in Hp. injection Hp as Hp. destruct p as [k x]. cbn [fst snd] in *. subst. reflexivity. }
    destruct (concatM_cell _ bl i1 i2 _ _ i1 (seq_NoDup _ _) K1) as (r2 & K2 & ->); [apply in_seq; cbn; lia| |].
    { intros i r Hi Hne Hr. apply cell_none. intros t Ht Q. injection Q as Q1 Q2 Q3. destruct (row_tags _ _ _ _ Hr Ht) as (_ & T & _). congruence. }
    destruct (concatM_cell _ bl i1 i2 _ _ i2 (seq_NoDup _ _) K2) as (r3 & K3 & ->); [apply in_seq; cbn; lia| |].
    { intros i r Hi Hne Hr. apply cell_none. intros t Ht Q. injection Q as Q1 Q2 Q3. pose proof (entry_tags _ _ _ _ _ _ Hr Ht) as T. injection T as T1 T2 T3. congruence. }
    exists r3. split; [exact K3|]. apply cell_all. intros t Ht. exact (entry_tags _ _ _ _ _ _ K3 Ht).
  Qed.

  (** ---- the Lehmann representation ---- *)
  Lemma upd_nth_error {A} k (u : A -> A) xs b : nth_error (upd k u xs) b = if (b =? k) then option_map u (nth_error xs b) else nth_error xs b.
  Proof.
    revert k b. induction xs as [|x xs IH]; intros k b.
    - cbn [upd]. destruct k; cbn [upd]; destruct b; cbn; try reflexivity; destruct (_ =? _); reflexivity.
    - destruct k as [|k]; cbn [upd]; destruct b as [|b]; try reflexivity. cbn [nth_error Nat.eqb]. apply IH.
  Qed.
  Lemma emplace_all ts (g : lehmann_t S) b n0 m0 : nth_error g b = Some (n0, m0) ->
    exists m1, nth_error (fold_left (emplace S) ts g) b = Some (n0, m1) /\ forall i j, m1 i j = m0 i j ++ cell b i j ts.
  Proof.
    revert g m0. induction ts as [|t ts IH]; intros g m0 Hg; [exists m0; split; [exact Hg|]; intros; unfold cell; cbn; rewrite app_nil_r; reflexivity|].
    cbn [fold_left]. destruct (b =? t_bl S t) eqn:Q.
    - destruct (IH (emplace S g t) (fun i j => if ((i =? t_n1 S t) && (j =? t_n2 S t)) then m0 i j ++ [(t_pole S t, t_res S t)] else m0 i j)) as (m1 & K1 & K2).
      { unfold emplace. rewrite upd_nth_error, Q, Hg. reflexivity. }
      exists m1. split; [exact K1|]. intros i j. rewrite K2. unfold cell. cbn [filter]. unfold hits at 2. rewrite Q. cbn [andb].
      destruct ((i =? t_n1 S t) && (j =? t_n2 S t)); cbn [map]; [rewrite <- app_assoc; reflexivity|reflexivity].
    - destruct (IH (emplace S g t) m0) as (m1 & K1 & K2).
      { unfold emplace. rewrite upd_nth_error, Q. exact Hg. }
      exists m1. split; [exact K1|]. intros i j. rewrite K2. unfold cell. cbn [filter]. unfold hits at 2. rewrite Q. reflexivity.
  Qed.
  Lemma lehmann_at ts b name m : lehmann_terms S inj val a beta gs excluded = Ok ts -> nth_error gs b = Some (name, m) ->
    exists lh m1, atomic_g_lehmann S inj val a beta gs excluded = Ok lh /\ nth_error lh b = Some (m, m1) /\ forall i j, m1 i j = cell b i j ts.
  Proof.
    intros H Hg. unfold atomic_g_lehmann. rewrite H. cbn [bind]. eexists. 
    destruct (emplace_all ts (map (fun bs => (snd bs, fun _ _ => [])) gs) b m (fun _ _ => [])) as (m1 & K1 & K2); [rewrite nth_error_map, Hg; reflexivity|].
    exists m1. split; [reflexivity|]. split; [exact K1|exact K2].
  Qed.
  Lemma emplace_length ts (g : lehmann_t S) : length (fold_left (emplace S) ts g) = length g.
  Proof.
    revert g. induction ts as [|t ts IH]; intros g; [reflexivity|]. cbn [fold_left]. rewrite IH. unfold emplace. generalize (t_bl S t). induction g as [|x g IHg]; intros [|k]; cbn [upd length]; try reflexivity. rewrite IHg. reflexivity.
  Qed.

  (** ---- the two ways to fill a Green's function ---- *)
  Section Fill.
    Context {P G : Type} (zero : G) (step : P -> R -> S -> G -> G).
    Definition run (x : P) (prs : list (R * S)) (v : G) : G := fold_left (fun v pr => step x (fst pr) (snd pr) v) prs v.
    Lemma proc_all ts (g : bgf) b i j x :
      fold_left (fun g t => proc S step g (t_bl S t) (t_n1 S t) (t_n2 S t) (t_pole S t) (t_res S t)) ts g b i j x = run x (cell b i j ts) (g b i j x).
    Proof.
      revert g. induction ts as [|t ts IH]; intros g; [reflexivity|]. cbn [fold_left]. rewrite IH. unfold cell. cbn [filter]. unfold proc at 1. fold (hits b i j t).
      destruct (hits b i j t); reflexivity.
    Qed.
    Lemma proc_entry prs (g : bgf) bl n1 n2 b i j x :
      fold_left (fun g pr => proc S step g bl n1 n2 (fst pr) (snd pr)) prs g b i j x = if ((b =? bl) && (i =? n1) && (j =? n2)) then run x prs (g b i j x) else g b i j x.
    Proof.
      revert g. induction prs as [|pr prs IH]; intros g; cbn [fold_left]; [destruct (_ && _); reflexivity|]. rewrite IH. unfold proc.
      destruct ((b =? bl) && (i =? n1) && (j =? n2)); reflexivity.
    Qed.
    Lemma foldM_flat {A B} (f : B -> bgf -> res (@bgf P G)) (h : A -> list B) xs g : foldM f (flat_map h xs) g = foldM (fun x => foldM f (h x)) xs g.
    Proof.
      revert g. induction xs as [|x xs IH]; intros g; [reflexivity|]. cbn [flat_map foldM].
      assert (Q : forall us vs g, foldM f (us ++ vs) g = bind (foldM f us g) (foldM f vs)).
      { induction us as [|u us IHu]; intros vs g1; [reflexivity|]. cbn [app foldM]. destruct (f u g1); cbn [bind]; try reflexivity. apply IHu. }
      rewrite Q. destruct (foldM f (h x) g); cbn [bind]; try reflexivity. apply IH.
    Qed.
    Lemma foldM_map {A B} (f : B -> bgf -> res (@bgf P G)) (h : A -> B) xs g : foldM f (map h xs) g = foldM (fun x => f (h x)) xs g.
    Proof. revert g. induction xs as [|x xs IH]; intros g; [reflexivity|]. cbn [map foldM]. destruct (f (h x) g); cbn [bind]; try reflexivity. apply IH. Qed.
    Lemma foldM_ext {A} (f f' : A -> bgf -> res (@bgf P G)) xs g : (forall x g, f x g = f' x g) -> foldM f xs g = foldM f' xs g.
    Proof. intros H. revert g. induction xs as [|x xs IH]; intros g; [reflexivity|]. cbn [foldM]. rewrite H. destruct (f' x g); cbn [bind]; try reflexivity. apply IH. Qed.

    Definition places : list (nat * nat * nat) :=
      flat_map (fun p => flat_map (fun n1 => map (fun n2 => (fst p, n1, n2)) (seq 0 (snd (snd p)))) (seq 0 (snd (snd p)))) (enum gs).
    Lemma in_places b i j : In (b, i, j) places <-> exists name m, nth_error gs b = Some (name, m) /\ i < m /\ j < m.
    Proof.
      unfold places. rewrite in_flat_map. split.
      - intros ([k [name m]] & Hp & H). apply in_enum in Hp. cbn [fst snd] in *. apply in_flat_map in H. destruct H as (n1 & H1 & H). apply in_map_iff in H. destruct H as (n2 & Q & H2). injection Q as -> -> ->.
        apply in_seq in H1, H2. exists name, m. repeat split; [exact Hp|lia..].
      - intros (name & m & Hg & Hi & Hj). exists (b, (name, m)). split; [apply in_enum; exact Hg|]. cbn [fst snd]. apply in_flat_map. exists i. split; [apply in_seq; lia|]. apply in_map. apply in_seq. lia.
    Qed.
    Lemma NoDup_flat' {A B} (f : A -> list B) xs : NoDup xs -> (forall x, In x xs -> NoDup (f x)) -> (forall x y z, In x xs -> In y xs -> In z (f x) -> In z (f y) -> x = y) -> NoDup (flat_map f xs).
    Proof.
      induction xs as [|x xs IH]; intros Hn Hf Hd; [constructor|]. inversion Hn as [|? ? Hni Hn']; subst. cbn [flat_map].
      assert (App : forall u v : list B, NoDup u -> NoDup v -> (forall z, In z u -> ~ In z v) -> NoDup (u ++ v)).
      { induction u as [|z u IHu]; intros v Hu Hv Hz; [exact Hv|]. inversion Hu as [|? ? K1 K2]; subst. cbn. constructor; [|apply IHu; [exact K2|exact Hv|intros w Hw; apply Hz; right; exact Hw]].
        intros Hin. apply in_app_or in Hin. destruct Hin as [Hin|Hin]; [apply K1; exact Hin|exact (Hz z (or_introl eq_refl) Hin)]. }
      apply App.
      - apply Hf. left. reflexivity.
      - apply IH; [exact Hn'|intros y Hy; apply Hf; right; exact Hy|]. intros y y' z Hy Hy'. apply Hd; right; assumption.
      - intros z Hz Hin. apply in_flat_map in Hin. destruct Hin as (y & Hy & Hzy). apply Hni. rewrite (Hd x y z (or_introl eq_refl) (or_intror Hy) Hz Hzy). exact Hy.
    Qed.
    Lemma places_NoDup : NoDup places.
    Proof.
      apply NoDup_flat'; [apply enum_NoDup| |].
      - intros p _. apply NoDup_flat'; [apply seq_NoDup| |].
        + intros i _. apply FinFun.Injective_map_NoDup; [|apply seq_NoDup]. intros u v Q. injection Q as ->. reflexivity.
        + intros i i' z _ _ Hz Hz'. apply in_map_iff in Hz, Hz'. destruct Hz as (u & <- & _), Hz' as (v & Q & _). injection Q as Q _. symmetry. exact Q.
      - intros p p' z Hp Hp' Hz Hz'. apply in_enum in Hp, Hp'. apply in_flat_map in Hz, Hz'. destruct Hz as (u & _ & Hz), Hz' as (v & _ & Hz'). apply in_map_iff in Hz, Hz'. destruct Hz as (? & <- & _), Hz' as (? & Q & _).
        injection Q as Q _ _. rewrite Q, Hp in Hp'. destruct p, p'. cbn [fst snd] in *. subst. injection Hp' as ->. reflexivity.
    Qed.
    Lemma fill_flat lh : fill_block_gf S zero step lh gs = foldM (fun q => fill_entry S step lh (fst (fst q)) (snd (fst q)) (snd q)) places (new_gf zero).
    Proof.
      unfold fill_block_gf, places. rewrite foldM_flat. apply foldM_ext. intros p g. rewrite foldM_flat. apply foldM_ext. intros n1 g'. rewrite foldM_map. reflexivity.
    Qed.
    Lemma fill_places ts lh qs g : lehmann_terms S inj val a beta gs excluded = Ok ts -> atomic_g_lehmann S inj val a beta gs excluded = Ok lh -> NoDup qs -> (forall q, In q qs -> In q places) ->
      exists g', foldM (fun q => fill_entry S step lh (fst (fst q)) (snd (fst q)) (snd q)) qs g = Ok g' /\
        forall b i j x, (In (b, i, j) qs -> g' b i j x = run x (cell b i j ts) (g b i j x)) /\ (~ In (b, i, j) qs -> g' b i j x = g b i j x).
    Proof.
      intros Ht Hlh. revert g. induction qs as [|[[b0 i0] j0] qs IH]; intros g Hn Hq; [exists g; split; [reflexivity|]; intros; split; [intros []|reflexivity]|].
      cbn [foldM fst snd]. destruct (proj1 (in_places b0 i0 j0) (Hq _ (or_introl eq_refl))) as (name & m & Hg & Hi & Hj).
      destruct (lehmann_at ts b0 name m Ht Hg) as (lh' & m1 & K1 & K2 & K3). rewrite Hlh in K1. injection K1 as <-.
      unfold fill_entry at 1. unfold at_list. rewrite K2. cbn [bind fst snd]. apply Nat.ltb_lt in Hi, Hj. rewrite Hi, Hj. cbn [andb bind].
      inversion Hn as [|? ? Hni Hn']; subst.
      destruct (IH (fold_left (fun g pr => proc S step g b0 i0 j0 (fst pr) (snd pr)) (m1 i0 j0) g) Hn' (fun q H => Hq q (or_intror H))) as (g' & F1 & F2).
      exists g'. split; [exact F1|]. intros b i j x. destruct (F2 b i j x) as [F3 F4]. split.
      - intros [Q|Hin].
        + injection Q as <- <- <-. rewrite (F4 Hni), proc_entry, !Nat.eqb_refl, K3. reflexivity.
        + rewrite (F3 Hin), proc_entry. destruct ((b =? b0) && (i =? i0) && (j =? j0)) eqn:Q; [|reflexivity].
          rewrite !andb_true_iff, !Nat.eqb_eq in Q. destruct Q as [[-> ->] ->]. contradiction.
      - intros Hni2. rewrite F4 by (intros H; apply Hni2; right; exact H). rewrite proc_entry. destruct ((b =? b0) && (i =? i0) && (j =? j0)) eqn:Q; [|reflexivity].
        rewrite !andb_true_iff, !Nat.eqb_eq in Q. destruct Q as [[-> ->] ->]. exfalso. apply Hni2. left. reflexivity.
    Qed.
    Lemma cell_outside ts b i j : lehmann_terms S inj val a beta gs excluded = Ok ts -> ~ In (b, i, j) places -> cell b i j ts = [].
    Proof.
      intros Ht Hni. apply cell_none. intros t Hin Q. injection Q as Q1 Q2 Q3. apply Hni, in_places. rewrite <- Q1, <- Q2, <- Q3. exact (terms_tags ts t Ht Hin).
    Qed.
    Lemma direct_at ts : lehmann_terms S inj val a beta gs excluded = Ok ts -> exists g, atomic_g S inj val zero step a beta gs excluded = Ok g /\ forall b i j x, g b i j x = run x (cell b i j ts) zero.
    Proof. intros H. unfold atomic_g. rewrite H. cbn [bind]. eexists. split; [reflexivity|]. intros b i j x. apply proc_all. Qed.
    Lemma two_ways g lh : atomic_g S inj val zero step a beta gs excluded = Ok g -> atomic_g_lehmann S inj val a beta gs excluded = Ok lh ->
      exists g', fill_block_gf S zero step lh gs = Ok g' /\ forall b i j x, g' b i j x = g b i j x.
    Proof.
      intros Hg Hlh. assert (Ht : exists ts, lehmann_terms S inj val a beta gs excluded = Ok ts).
      { unfold atomic_g in Hg. destruct (lehmann_terms S inj val a beta gs excluded); cbn [bind] in Hg; try discriminate. eexists; reflexivity. }
      destruct Ht as [ts Ht]. destruct (direct_at ts Ht) as (g1 & K1 & K2). rewrite Hg in K1. injection K1 as <-.
      rewrite fill_flat. destruct (fill_places ts lh places (new_gf zero) Ht Hlh places_NoDup (fun q H => H)) as (g' & F1 & F2). exists g'. split; [exact F1|].
      intros b i j x. rewrite K2. destruct (F2 b i j x) as [F3 F4].
      assert (Dec : In (b, i, j) places \/ ~ In (b, i, j) places) by (destruct (in_dec (fun u v : nat * nat * nat => ltac:(decide equality; [apply Nat.eq_dec|decide equality; apply Nat.eq_dec])) (b, i, j) places); auto).
      destruct Dec as [H|H]; [exact (F3 H)|]. rewrite (F4 H), (cell_outside ts b i j Ht H). reflexivity.
    Qed.
  End Fill.
End Loops.
