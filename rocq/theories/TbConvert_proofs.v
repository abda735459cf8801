From Coq Require Import ZArith Reals List Bool Arith Lia Lra.
From Coquelicot Require Import Complex.
From Verif Require Import Base Lattice Lattice_proofs TightBinding TightBindingSpec TightBinding_proofs TbConvert TbConvertSpec.
Import ListNotations.
Local Open Scope nat_scope.

(** * dicts *)
Notation leq := (list_eq_dec Z.eq_dec).
Lemma get_set d R m Q : d_get (d_set d R m) Q = if leq Q R then Some m else d_get d Q.
Proof.
  induction d as [|[R' m'] d IH]; cbn [d_set d_get].
  - reflexivity.
  - destruct (leq R R') as [->|N]; cbn [d_get]; [destruct (leq Q R'); reflexivity|]. rewrite IH. destruct (leq Q R') as [->|]; [|reflexivity]. destruct (leq R' R); [congruence|reflexivity].
Qed.
Lemma get_keys d Q : d_get d Q <> None <-> In Q (map fst d).
Proof.
  induction d as [|[R m] d IH]; cbn [d_get map fst In]; [tauto|]. destruct (leq Q R) as [->|N]; [split; [auto|intros _; discriminate]|]. rewrite IH. split; [auto|]. intros [E|E]; [congruence|exact E].
Qed.
Lemma get_In d Q m : NoDup (map fst d) -> In (Q, m) d <-> d_get d Q = Some m.
Proof.
  induction d as [|[R m'] d IH]; cbn [d_get map fst In]; [split; [tauto|discriminate]|]. intros N. inversion_clear N as [|? ? N1 N2]. specialize (IH N2). destruct (leq Q R) as [->|NE].
  - split; [|intros H; injection H as ->; auto]. intros [E|E]; [injection E as ->; reflexivity|]. exfalso. apply N1. apply in_map_iff. exists (R, m). auto.
  - rewrite <- IH. split; [|auto]. intros [E|E]; [congruence|exact E].
Qed.
Lemma set_keys d R m Q : In Q (map fst (d_set d R m)) <-> Q = R \/ In Q (map fst d).
Proof. rewrite <- !get_keys, get_set. destruct (leq Q R); split; auto; intros; [discriminate|]. destruct H; [contradiction|assumption]. Qed.
Lemma set_NoDup d R m : NoDup (map fst d) -> NoDup (map fst (d_set d R m)).
Proof.
  induction d as [|[R' m'] d IH]; cbn [d_set map fst]; intros N; [repeat constructor; intros []|]. inversion_clear N as [|? ? N1 N2]. destruct (leq R R') as [->|NE]; cbn [map fst]; constructor; auto.
  intros H. apply set_keys in H. destruct H; [congruence|contradiction].
Qed.
Definition val (d : dict) (Q : list Z) (a b : nat) : C := match d_get d Q with Some m => m a b | None => RtoC 0 end.
(** sum over the dict with weights *)
Definition total (w : list Z -> C) (d : dict) (a b : nat) : C := csum (fun x => (w (fst x) * snd x a b)%C) d.
Lemma total_set w d R m a b : NoDup (map fst d) -> total w (d_set d R m) a b = (total w d a b + w R * (m a b - val d R a b))%C.
Proof.
  unfold total, val. induction d as [|[R' m'] d IH]; cbn [d_set d_get map fst snd csum]; intros N; [ring|]. inversion_clear N as [|? ? N1 N2]. destruct (leq R R') as [->|NE]; cbn [csum fst snd]; [ring|].
  rewrite (IH N2). ring.
Qed.

(** * pythTB *)
Definition ind (p : bool) (c : C) : C := if p then c else RtoC 0.
Record inv (d : dict) : Prop := mkInv {
  i_nodup : NoDup (map fst d);
  i_opp : forall Q, In Q (map fst d) -> In (map Z.opp Q) (map fst d);
  i_herm : forall Q a b, val d Q a b = Cconj (val d (map Z.opp Q) b a) }.
Lemma add_ok d R i j c : NoDup (map fst d) -> In R (map fst d) -> exists d', d_add d R i j c = Ok d' /\ NoDup (map fst d') /\ (forall Q, In Q (map fst d') <-> In Q (map fst d)) /\
  (forall Q a b, val d' Q a b = (val d Q a b + ind (if leq Q R then (a =? i) && (b =? j) else false) c)%C) /\
  forall w a b, total w d' a b = (total w d a b + ind ((a =? i) && (b =? j)) (w R * c))%C.
Proof.
  intros N H. unfold d_add. pose proof (proj2 (get_keys d R) H) as G. destruct (d_get d R) as [m|] eqn:E; [|contradiction G; reflexivity]. eexists. split; [reflexivity|]. split; [apply set_NoDup, N|]. split; [|split].
  - intros Q. rewrite set_keys. split; [intros [->|]; auto|auto].
  - intros Q a b. unfold val. rewrite get_set. destruct (leq Q R) as [->|]; [rewrite E|unfold ind; ring]. destruct ((a =? i) && (b =? j)); unfold ind; ring.
  - intros w a b. rewrite (total_set _ _ _ _ _ _ N). unfold val. rewrite E. destruct ((a =? i) && (b =? j)); unfold ind; ring.
Qed.
Lemma conj_plus (a b : C) : Cconj (a + b)%C = (Cconj a + Cconj b)%C.
Proof. destruct a as [a1 a2], b as [b1 b2]. unfold Cconj, Cplus. cbn [fst snd]. f_equal; ring. Qed.
Lemma conj_conj (a : C) : Cconj (Cconj a) = a.
Proof. destruct a as [a1 a2]. unfold Cconj. cbn [fst snd]. f_equal; ring. Qed.
Lemma conj_R (x : R) : Cconj (RtoC x) = RtoC x.
Proof. unfold Cconj, RtoC. cbn [fst snd]. f_equal; ring. Qed.
Lemma ind_conj p c : Cconj (ind p c) = ind p (Cconj c).
Proof. destruct p; cbn [ind]; [reflexivity|apply conj_R]. Qed.
Lemma opp_swap Q R : map Z.opp Q = R <-> Q = map Z.opp R.
Proof. split; [intros <-|intros ->]; rewrite map_opp_opp; reflexivity. Qed.
Lemma step_ok norb d h : inv d -> p_from h < norb -> p_to h < norb ->
  exists d', pyth_step norb (Ok d) h = Ok d' /\ inv d' /\ (forall Q, In Q (map fst d') <-> In Q (map fst d) \/ Q = p_R h \/ Q = map Z.opp (p_R h)) /\
    forall w a b, total w d' a b = (total w d a b + (ind ((a =? p_from h) && (b =? p_to h)) (w (p_R h) * p_t h) + ind ((a =? p_to h) && (b =? p_from h)) (w (map Z.opp (p_R h)) * Cconj (p_t h))))%C.
Proof.
  intros [N O V] Hf Ht. destruct h as [t i j R]. cbn [p_t p_from p_to p_R] in *. unfold pyth_step. cbn [bind p_t p_from p_to p_R].
  destruct (Nat.leb_spec norb i); [lia|]. destruct (Nat.leb_spec norb j); [lia|]. cbn [orb].
  set (d1 := match d_get d R with Some _ => d | None => d_set (d_set d R m_zero) (map Z.opp R) m_zero end).
  assert (H1 : NoDup (map fst d1) /\ (forall Q, In Q (map fst d1) <-> In Q (map fst d) \/ Q = R \/ Q = map Z.opp R) /\ (forall Q a b, val d1 Q a b = val d Q a b) /\ forall w a b, total w d1 a b = total w d a b).
  { unfold d1. destruct (d_get d R) as [m|] eqn:E.
    - assert (HR : In R (map fst d)) by (apply get_keys; congruence). split; [exact N|]. split; [|split; reflexivity]. intros Q. split; [auto|]. intros [Q1|[->| ->]]; auto.
    - assert (E' : d_get d (map Z.opp R) = None).
      { destruct (d_get d (map Z.opp R)) as [m|] eqn:E'; [|reflexivity]. exfalso. assert (HR : In (map Z.opp R) (map fst d)) by (apply get_keys; congruence). apply O in HR. rewrite map_opp_opp in HR. apply get_keys in HR. contradiction. }
      split; [apply set_NoDup, set_NoDup, N|]. split; [intros Q; rewrite !set_keys; tauto|]. split.
      + intros Q a b. unfold val. rewrite !get_set. destruct (leq Q (map Z.opp R)) as [->|]; [rewrite E'; reflexivity|]. destruct (leq Q R) as [->|]; [rewrite E|]; reflexivity.
      + intros w a b. rewrite total_set by apply set_NoDup, N. rewrite total_set by exact N. unfold val. rewrite get_set, E. unfold m_zero. destruct (leq (map Z.opp R) R); [|rewrite E']; ring. }
  destruct H1 as (N1 & K1 & V1 & T1).
  destruct (add_ok d1 R i j t N1) as (d2 & E2 & N2 & K2 & V2 & T2); [apply K1; auto|]. rewrite E2. cbn [bind].
  destruct (add_ok d2 (map Z.opp R) j i (Cconj t) N2) as (d3 & E3 & N3 & K3 & V3 & T3); [apply K2, K1; auto|]. exists d3. split; [exact E3|]. split; [|split].
  - split; [exact N3| |].
    + intros Q. rewrite K3, K2, K1, K3, K2, K1. intros [H1|[->| ->]]; [left; apply O; exact H1|auto|]. right. left. apply map_opp_opp.
    + intros Q a b. rewrite !V3, !V2, !V1, !conj_plus, !ind_conj, <- V, conj_conj.
      replace (if leq (map Z.opp Q) R then (b =? i) && (a =? j) else false) with (if leq Q (map Z.opp R) then (a =? j) && (b =? i) else false).
      2: { destruct (leq Q (map Z.opp R)) as [X|X], (leq (map Z.opp Q) R) as [Y|Y]; [apply andb_comm|apply opp_swap in X; contradiction|apply opp_swap in Y; contradiction|reflexivity]. }
      replace (if leq (map Z.opp Q) (map Z.opp R) then (b =? j) && (a =? i) else false) with (if leq Q R then (a =? i) && (b =? j) else false).
      2: { destruct (leq Q R) as [X|X], (leq (map Z.opp Q) (map Z.opp R)) as [Y|Y]; [apply andb_comm|congruence|apply opp_swap in Y; rewrite map_opp_opp in Y; contradiction|reflexivity]. }
      ring.
  - intros Q. rewrite K3, K2. apply K1.
  - intros w a b. rewrite T3, T2, T1. ring.
Qed.
Lemma zeros_opp : map Z.opp [0; 0; 0]%Z = [0; 0; 0]%Z. Proof. reflexivity. Qed.
Lemma init_inv E : inv (pyth_init E).
Proof.
  split; [repeat constructor; intros []| |].
  - intros Q [<-|[]]. left. reflexivity.
  - intros Q a b. unfold val, pyth_init. cbn [d_get]. destruct (leq Q [0; 0; 0]%Z) as [EQ|X], (leq (map Z.opp Q) [0; 0; 0]%Z) as [Y|Y].
    + rewrite (Nat.eqb_sym b a). destruct (Nat.eqb_spec a b) as [->|]; rewrite conj_R; reflexivity.
    + contradiction Y. rewrite EQ. reflexivity.
    + apply opp_swap in Y. contradiction.
    + rewrite conj_R. reflexivity.
Qed.
Lemma fold_pyth norb hops : (forall h, In h hops -> p_from h < norb /\ p_to h < norb) -> forall d, inv d ->
  exists d', fold_left (pyth_step norb) hops (Ok d) = Ok d' /\ inv d' /\ (forall Q, In Q (map fst d') <-> In Q (map fst d) \/ exists h, In h hops /\ (Q = p_R h \/ Q = map Z.opp (p_R h))) /\
    forall w a b, total w d' a b = (total w d a b + csum (fun h => ind ((a =? p_from h) && (b =? p_to h)) (w (p_R h) * p_t h) + ind ((a =? p_to h) && (b =? p_from h)) (w (map Z.opp (p_R h)) * Cconj (p_t h))) hops)%C.
Proof.
  induction hops as [|h hops IH]; intros H d I.
  - exists d. split; [reflexivity|]. split; [exact I|]. split; [intros Q; split; [auto|intros [X|(h & [] & _)]; exact X]|]. intros w a b. cbn [csum]. ring.
  - destruct (H h (or_introl eq_refl)) as [Hf Ht]. destruct (step_ok norb d h I Hf Ht) as (d1 & E1 & I1 & K1 & T1). cbn [fold_left]. rewrite E1.
    destruct (IH (fun x Hx => H x (or_intror Hx)) d1 I1) as (d' & E & I' & K & T). exists d'. split; [exact E|]. split; [exact I'|]. split.
    + intros Q. rewrite K, K1. split.
      * intros [[X|X]|(x & X1 & X2)]; [auto|right; exists h; cbn; auto|right; exists x; cbn; auto].
      * intros [X|(x & [->|X1] & X2)]; [auto|auto|right; exists x; auto].
    + intros w a b. rewrite T, T1. cbn [csum]. ring.
Qed.
Lemma dict_hopping n d R m : hopping (map fst d) (map (fun x => mkHop n n (snd x)) d) R m <-> exists e, In (R, e) d /\ m = mkHop n n e.
Proof.
  rewrite <- In_hopping. induction d as [|[R' e'] d IH]; cbn [map combine In fst snd]; [split; [tauto|intros (e & [] & _)]|]. rewrite IH. split.
  - intros [X|(e & X1 & X2)]; [injection X as <- <-; exists e'; auto|exists e; auto].
  - intros (e & [X|X] & ->); [injection X as <- <-; auto|right; exists e; auto].
Qed.
Lemma dict_total n d k a b : h_k (map fst d) (map (fun x => mkHop n n (snd x)) d) k a b = total (fun R => phase (2 * PI * inner k R)) d a b.
Proof. unfold h_k, total. induction d as [|[R e] d IH]; cbn [map combine csum fst snd h_el]; [reflexivity|]. rewrite IH. reflexivity. Qed.
Lemma conjugate_exact n m m' : (forall i j, h_el m i j = Cconj (h_el m' j i)) -> conjugate_hops n m m'.
Proof. intros H i j _ _. rewrite H. replace (Cconj (h_el m' j i) - Cconj (h_el m' j i))%C with (RtoC 0) by ring. rewrite Cmod_0. lra. Qed.
Lemma make_pyth ndim norb d : inv d -> (forall Q, In Q (map fst d) -> length Q = ndim) -> tb_of_dict ndim norb d = Ok (mkTb ndim norb (map fst d) (map (fun x => mkHop norb norb (snd x)) d)).
Proof.
  intros [N O V] HL. unfold tb_of_dict. apply accepted_make; [rewrite !map_length; reflexivity|exact N|]. intros R m Hm. apply dict_hopping in Hm. destruct Hm as (e & He & ->). cbn [h_rows h_cols].
  assert (HR : In R (map fst d)) by (apply in_map_iff; exists (R, e); auto). split; [apply HL, HR|]. split; [reflexivity|]. split; [reflexivity|].
  pose proof (proj2 (get_keys _ _) (O R HR)) as G. destruct (d_get d (map Z.opp R)) as [e'|] eqn:E'; [|contradiction G; reflexivity]. exists (mkHop norb norb e'). split.
  - apply dict_hopping. exists e'. split; [apply get_In; assumption|reflexivity].
  - apply conjugate_exact. intros i j. cbn [h_el]. specialize (V R i j). unfold val in V. apply (get_In d R e N) in He. rewrite He, E' in V. exact V.
Qed.
Lemma inner_zero k : inner k [0; 0; 0]%Z = 0%R.
Proof. destruct k as [|x [|y [|z [|u k]]]]; cbn [inner]; ring. Qed.
Lemma phase_0 : phase 0 = RtoC 1.
Proof. unfold phase, RtoC. rewrite cos_0, sin_0. reflexivity. Qed.
Lemma pyth_ok norb E hops : pyth_fits 3 norb hops ->
  exists t, tb_from_pyth 3 norb E hops = Ok t /\ tb_dim t = 3 /\ tb_norb t = norb /\
    forall k, 3 <= length k -> exists h, fourier t k = Ok h /\ forall a b, h a b = pyth_h E hops k a b.
Proof.
  intros F. destruct (fold_pyth norb hops) with (d := pyth_init E) as (d & Ed & I & K & T); [intros h Hh; destruct (proj1 (Forall_forall _ _) F h Hh); tauto|apply init_inv|].
  assert (HL : forall Q, In Q (map fst d) -> length Q = 3).
  { intros Q HQ. apply K in HQ. destruct HQ as [[<-|[]]|(h & Hh & HQ)]; [reflexivity|]. destruct (proj1 (Forall_forall _ _) F h Hh) as (_ & _ & HL). destruct HQ as [->| ->]; [|rewrite map_length]; exact HL. }
  eexists. unfold tb_from_pyth. rewrite Ed. cbn [bind]. rewrite (make_pyth 3 norb d I HL). split; [reflexivity|]. split; [reflexivity|]. split; [reflexivity|]. intros k Hk.
  destruct (make_accepted 3 norb _ _ _ (make_pyth 3 norb d I HL)) as (_ & HLen & HA).
  destruct (fourier_sum (mkTb 3 norb (map fst d) (map (fun x => mkHop norb norb (snd x)) d)) k HA HLen) as (h & Eh & Vh); [|exact Hk|].
  - cbn [tb_displ]. intros X. assert (Y : In [0; 0; 0]%Z (map fst d)) by (apply K; left; left; reflexivity). rewrite X in Y. destruct Y.
  - exists h. split; [exact Eh|]. intros a b. rewrite Vh. cbn [tb_displ tb_mats]. rewrite dict_total, T. unfold pyth_h. f_equal.
    + unfold total, pyth_init. cbn [csum fst snd]. rewrite inner_zero, Rmult_0_r, phase_0. destruct (Nat.eqb_spec a b) as [->|]; ring.
    + apply csum_ext. intros x _. unfold ind. rewrite inner_opp. replace (2 * PI * - inner k (p_R x))%R with (- (2 * PI * inner k (p_R x)))%R by ring. reflexivity.
Qed.
Lemma pyth_herm E hops k a b : pyth_h E hops k a b = Cconj (pyth_h E hops k b a).
Proof.
  unfold pyth_h. rewrite conj_plus, csum_conj. f_equal.
  - rewrite (Nat.eqb_sym b a). destruct (Nat.eqb_spec a b) as [->|]; rewrite conj_R; reflexivity.
  - apply csum_ext. intros h _. rewrite conj_plus, (andb_comm (b =? p_from h)), (andb_comm (b =? p_to h)).
    destruct ((a =? p_from h) && (b =? p_to h)), ((a =? p_to h) && (b =? p_from h)); rewrite ?conj_mult, ?phase_conj, ?conj_conj, ?conj_R, ?Ropp_involutive; ring.
Qed.
Lemma fold_pyth_fail norb hops r : (forall d, r <> Ok d) -> forall d, fold_left (pyth_step norb) hops r <> Ok d.
Proof.
  revert r. induction hops as [|h hops IH]; intros r Hr; [exact Hr|]. cbn [fold_left]. apply IH. intros d. unfold pyth_step. destruct r as [x| |]; cbn [bind]; [contradiction (Hr x); reflexivity|discriminate|discriminate].
Qed.
Lemma pyth_fold_range norb hops : forall r d, fold_left (pyth_step norb) hops r = Ok d -> forall h, In h hops -> p_from h < norb /\ p_to h < norb.
Proof.
  induction hops as [|x hops IH]; intros r d E h; [intros []|]. cbn [fold_left] in E. intros [<-|Hh]; [|eapply IH; [exact E|exact Hh]].
  destruct (Nat.ltb_spec (p_from x) norb) as [A|A], (Nat.ltb_spec (p_to x) norb) as [B|B]; [auto| | |]; exfalso; revert E; apply fold_pyth_fail; intros d'; unfold pyth_step; (destruct r as [y| |]; cbn [bind]; [|discriminate|discriminate]);
    rewrite ?(proj2 (Nat.leb_le _ _) A), ?(proj2 (Nat.leb_le _ _) B), ?orb_true_r; discriminate.
Qed.
Lemma pyth_dim ndim norb E hops t : tb_from_pyth ndim norb E hops = Ok t -> ndim = 3 /\ pyth_fits 3 norb hops.
Proof.
  unfold tb_from_pyth. destruct (fold_left (pyth_step norb) hops (Ok (pyth_init E))) as [d| |] eqn:Ed; cbn [bind]; [|discriminate|discriminate]. intros H.
  pose proof (pyth_fold_range _ _ _ _ Ed) as HR. destruct (fold_pyth norb hops HR _ (init_inv E)) as (d' & Ed' & I & K & _). assert (d' = d) by congruence. subst d'.
  destruct (make_accepted _ _ _ _ _ H) as (_ & _ & HA).
  assert (L : forall Q, In Q (map fst d) -> length Q = ndim).
  { intros Q HQ. apply in_map_iff in HQ. destruct HQ as ([Q' e] & <- & He). destruct (HA Q' (mkHop norb norb e)) as (X & _); [|exact X]. apply dict_hopping. exists e. auto. }
  assert (E3 : ndim = 3). { rewrite <- (L [0; 0; 0]%Z); [reflexivity|]. apply K. left. left. reflexivity. }
  split; [exact E3|]. subst ndim. apply Forall_forall. intros h Hh. destruct (HR h Hh). repeat split; auto. apply L. apply K. right. exists h. auto.
Qed.

(** * Wannier90 *)
Definition entry (nw : nat) (deg : list Z) (rows : list hr_row) (i : nat) : list Z * elements :=
  (w_key rows (i * nw * nw), fun a b => (w_el rows ((i * nw + a) * nw + b) / RtoC (IZR (nth i deg 1%Z)))%C).
Lemma set_fresh d R m : ~ In R (map fst d) -> d_set d R m = d ++ [(R, m)].
Proof. induction d as [|[R' m'] d IH]; cbn [d_set map fst In app]; [reflexivity|]. intros H. destruct (leq R R') as [->|]; [contradiction H; auto|]. rewrite IH; [reflexivity|tauto]. Qed.
Lemma fold_entries (f : nat -> list Z * elements) l : forall d, NoDup (map fst d ++ map (fun i => fst (f i)) l) -> fold_left (fun d i => d_set d (fst (f i)) (snd (f i))) l d = d ++ map f l.
Proof.
  induction l as [|i l IH]; intros d N; cbn [fold_left map]; [rewrite app_nil_r; reflexivity|]. cbn [map] in N. rewrite set_fresh.
  - rewrite IH; [rewrite <- app_assoc; destruct (f i); reflexivity|]. rewrite map_app. cbn [map fst]. rewrite <- app_assoc. exact N.
  - intros X. apply NoDup_remove_2 in N. apply N. apply in_or_app. auto.
Qed.
Section Wannier.
  Variables (nw nr : nat) (Rs : nat -> list Z) (H : nat -> nat -> nat -> C) (rows : list hr_row) (deg : list Z).
  Hypothesis Hfile : wannier_file nw nr Rs H rows.
  Hypothesis Hdist : distinct nr Rs.
  Hypothesis Hdeg : length deg = nr.
  Hypothesis Hnw : 0 < nw.
  Lemma key_ok r : r < nr -> w_key rows (r * nw * nw) = Rs r.
  Proof. intros Hr. unfold w_key. destruct Hfile as [_ F]. specialize (F r 0 0 Hr Hnw Hnw). rewrite !Nat.add_0_r in F. rewrite F. reflexivity. Qed.
  Lemma el_ok r a b : r < nr -> a < nw -> b < nw -> w_el rows ((r * nw + a) * nw + b) = H r b a.
  Proof. intros Hr Ha Hb. unfold w_el. destruct Hfile as [_ F]. rewrite (F r b a Hr Hb Ha). reflexivity. Qed.
  Lemma dict_ok : wannier_dict nw nr deg rows = Ok (map (entry nw deg rows) (seq 0 nr)).
  Proof.
    unfold wannier_dict. destruct Hfile as [HL _]. rewrite Hdeg, HL, !Nat.eqb_refl. cbn [negb]. destruct (Nat.eqb_spec nw 0); [lia|]. cbn [andb]. f_equal.
    change (fold_left (fun d i => d_set d (fst (entry nw deg rows i)) (snd (entry nw deg rows i))) (seq 0 nr) [] = map (entry nw deg rows) (seq 0 nr)).
    rewrite fold_entries; [reflexivity|]. cbn [map app]. rewrite (map_ext_in _ Rs); [|intros r Hr; apply in_seq in Hr; apply key_ok; lia].
    assert (X : forall l, NoDup l -> (forall r, In r l -> r < nr) -> NoDup (map Rs l)).
    { induction l as [|r l IH]; intros N B; cbn [map]; constructor; inversion_clear N as [|? ? N1 N2]; [|apply IH; [exact N2|intros x Hx; apply B; right; exact Hx]].
      intros X. apply in_map_iff in X. destruct X as (s & E & Hs). apply Hdist in E; [subst; contradiction|apply B; right; exact Hs|apply B; left; reflexivity]. }
    apply X; [apply seq_NoDup|intros r Hr; apply in_seq in Hr; lia].
  Qed.
  Lemma total_entries k f m n : (forall r, r < nr -> f r m n = (H r n m / RtoC (IZR (nth r deg 1%Z)))%C) ->
    csum (fun r => (phase (2 * PI * inner k (Rs r)) * f r m n)%C) (seq 0 nr) = wannier_h nr Rs (fun r => nth r deg 1%Z) H k n m.
  Proof. intros X. unfold wannier_h. apply csum_ext. intros r Hr. apply in_seq in Hr. rewrite X by lia. reflexivity. Qed.
  Definition spin_entries (spin : bool) : dict := if spin then extend_to_spin nw (map (entry nw deg rows) (seq 0 nr)) else map (entry nw deg rows) (seq 0 nr).
  Lemma spin_keys spin : map fst (spin_entries spin) = map Rs (seq 0 nr).
  Proof.
    unfold spin_entries, extend_to_spin. destruct spin; rewrite ?map_map; apply map_ext_in; intros r Hr; apply in_seq in Hr; cbn [entry fst]; apply key_ok; lia.
  Qed.
  Lemma spin_nodup spin : NoDup (map fst (spin_entries spin)).
  Proof.
    rewrite spin_keys. assert (X : forall l, NoDup l -> (forall r, In r l -> r < nr) -> NoDup (map Rs l)).
    { induction l as [|r l IH]; intros N B; cbn [map]; constructor; inversion_clear N as [|? ? N1 N2]; [|apply IH; [exact N2|intros x Hx; apply B; right; exact Hx]].
      intros X. apply in_map_iff in X. destruct X as (s & E & Hs). apply Hdist in E; [subst; contradiction|apply B; right; exact Hs|apply B; left; reflexivity]. }
    apply X; [apply seq_NoDup|intros r Hr; apply in_seq in Hr; lia].
  Qed.
  Lemma csum_zero {A} (l : list A) (w : A -> C) : csum (fun x => w x * RtoC 0)%C l = RtoC 0.
  Proof. induction l as [|x l IH]; cbn [csum]; [reflexivity|]. rewrite IH. ring. Qed.
  Lemma spin_total (spin : bool) k i j : i < (if spin then 2 * nw else nw) -> j < (if spin then 2 * nw else nw) ->
    total (fun R => phase (2 * PI * inner k R)) (spin_entries spin) i j = with_spin spin nw (fun m n => wannier_h nr Rs (fun r => nth r deg 1%Z) H k n m) i j.
  Proof.
    intros Hi Hj. unfold total, spin_entries, with_spin, extend_to_spin. destruct spin.
    - rewrite !csum_map. cbn [fst snd]. unfold kron2. destruct (i / nw =? j / nw); [|rewrite csum_zero; reflexivity].
      transitivity (csum (fun r => (phase (2 * PI * inner k (Rs r)) * snd (entry nw deg rows r) (i mod nw) (j mod nw))%C) (seq 0 nr)).
      + apply csum_ext. intros r Hr. apply in_seq in Hr. cbn [entry fst]. rewrite key_ok by lia. reflexivity.
      + apply (total_entries k (fun r => snd (entry nw deg rows r))). intros r Hr. cbn [entry snd]. rewrite el_ok; [reflexivity|exact Hr|apply Nat.mod_upper_bound; lia|apply Nat.mod_upper_bound; lia].
    - rewrite !csum_map. transitivity (csum (fun r => (phase (2 * PI * inner k (Rs r)) * snd (entry nw deg rows r) i j)%C) (seq 0 nr)).
      + apply csum_ext. intros r Hr. apply in_seq in Hr. cbn [entry fst]. rewrite key_ok by lia. reflexivity.
      + apply (total_entries k (fun r => snd (entry nw deg rows r))). intros r Hr. cbn [entry snd]. rewrite el_ok by assumption. reflexivity.
  Qed.
  Lemma wannier_ok (spin : bool) local t k : tb_from_wannier nw nr deg rows spin local = Ok t -> 0 < nr -> 3 <= length k ->
    exists h, fourier t k = Ok h /\ forall i j, i < (if spin then 2 * nw else nw) -> j < (if spin then 2 * nw else nw) ->
      h i j = (with_spin spin nw (fun m n => wannier_h nr Rs (fun r => nth r deg 1%Z) H k n m) i j + match local with Some l => l i j | None => RtoC 0 end)%C.
  Proof.
    intros E Hnr Hk. unfold tb_from_wannier in E. rewrite dict_ok in E. cbn [bind] in E. fold (spin_entries spin) in E.
    set (norb := if spin then 2 * nw else nw) in *.
    assert (F : forall d, tb_of_dict 3 norb d = Ok t -> d <> [] -> exists h, fourier t k = Ok h /\ forall i j, h i j = total (fun R => phase (2 * PI * inner k R)) d i j).
    { intros d Ed Hd. unfold tb_of_dict in Ed. destruct (make_accepted _ _ _ _ _ Ed) as (-> & HL & HA). destruct (fourier_sum (mkTb 3 norb (map fst d) (map (fun x => mkHop norb norb (snd x)) d)) k HA HL) as (h & Eh & Vh); [|exact Hk|].
      - cbn [tb_displ]. intros X. apply map_eq_nil in X. contradiction.
      - exists h. split; [exact Eh|]. intros i j. rewrite Vh. cbn [tb_displ tb_mats]. apply dict_total. }
    assert (NE : spin_entries spin <> []). { intros X. pose proof (spin_keys spin) as Y. rewrite X in Y. destruct nr; [lia|]. discriminate Y. }
    destruct local as [l|].
    - destruct (d_get (spin_entries spin) [0; 0; 0]%Z) as [m|] eqn:G; cbn [bind] in E; [|discriminate E].
      destruct (F _ E) as (h & Eh & Vh). { intros X. pose proof (set_keys (spin_entries spin) [0; 0; 0]%Z (fun a b => (m a b + l a b)%C) [0; 0; 0]%Z) as Y. rewrite X in Y. cbn in Y. tauto. }
      exists h. split; [exact Eh|]. intros i j Hi Hj. rewrite Vh, (total_set _ _ _ _ _ _ (spin_nodup spin)), (spin_total spin k i j Hi Hj). unfold val. rewrite G, inner_zero, Rmult_0_r, phase_0. ring.
    - cbn [bind] in E. destruct (F _ E NE) as (h & Eh & Vh). exists h. split; [exact Eh|]. intros i j Hi Hj. rewrite Vh, (spin_total spin k i j Hi Hj). ring.
  Qed.
End Wannier.

(** * paths *)
Local Open Scope R_scope.
Lemma norm_scal c v : 0 <= c -> norm (vscal c v) = c * norm v.
Proof.
  intros Hc. unfold norm. replace (dot (vscal c v) (vscal c v)) with (c * c * dot v v) by (unfold dot, vscal; cbn [vx vy vz]; ring).
  rewrite sqrt_mult_alt by nra. rewrite sqrt_square by exact Hc. reflexivity.
Qed.
Lemma cell_diff cell a b x : vsub (times_cell cell (vadd a (vscal x (vsub b a)))) (times_cell cell (vadd a (vscal 0 (vsub b a)))) = vscal x (times_cell cell (vsub b a)).
Proof. unfold times_cell, mvec, vsub, vadd, vscal, dot, transpose. cbn [vx vy vz r0 r1 r2]. f_equal; ring. Qed.
Lemma linspace_nonneg num i : 0 <= linspace num i.
Proof. destruct num as [|[|n]]; cbn [linspace]; try lra. apply Rmult_le_pos; [apply pos_INR|]. apply Rlt_le, Rinv_0_lt_compat. apply lt_0_INR. lia. Qed.
Lemma linspace_first num : linspace num 0 = 0.
Proof. destruct num as [|[|n]]; cbn [linspace]; try reflexivity. cbn [INR]. unfold Rdiv. ring. Qed.
Lemma linspace_last num : (2 <= num)%nat -> linspace num (num - 1) = 1.
Proof. intros H. destruct num as [|[|n]]; try lia. unfold linspace. field. apply not_0_INR. lia. Qed.
Definition seg_dist (cell : mat) (num : nat) (s : vec * vec) (cur : R) : list R := map (fun i => linspace num i * segment_length cell s + cur) (seq 0 num).
Lemma step_path cell num s d cur : (2 <= num)%nat ->
  path_step (Ok (d, cur)) (map (times_cell cell) (segment_points num s)) = Ok (d ++ seg_dist cell num s cur, cur + segment_length cell s).
Proof.
  intros Hn. set (f := fun i => times_cell cell (vadd (fst s) (vscal (linspace num i) (vsub (snd s) (fst s))))).
  assert (EP : map (times_cell cell) (segment_points num s) = map f (seq 0 num)) by (unfold segment_points; rewrite map_map; reflexivity).
  rewrite EP. unfold path_step. cbn [bind fst snd]. destruct (map f (seq 0 num)) as [|k0 tl] eqn:E.
  { apply (f_equal (@length _)) in E. rewrite map_length, seq_length in E. cbn in E. lia. }
  assert (E0 : k0 = f 0%nat). { destruct num as [|num]; [lia|]. cbn [seq map] in E. injection E as E1 _. symmetry. exact E1. }
  rewrite <- E, map_map.
  assert (ED : map (fun x => norm (vsub (f x) k0) + cur) (seq 0 num) = seg_dist cell num s cur).
  { apply map_ext. intros i. rewrite E0. unfold f. rewrite linspace_first, cell_diff, norm_scal by apply linspace_nonneg. reflexivity. }
  rewrite ED. f_equal. f_equal. unfold seg_dist. replace (seq 0 num) with (seq 0 (num - 1) ++ [(num - 1)%nat]).
  2: { replace num with (S (num - 1)) at 3 by lia. rewrite seq_S. reflexivity. }
  rewrite map_app, app_assoc. cbn [map]. rewrite last_last, (linspace_last num Hn). ring.
Qed.
Fixpoint dists (cell : mat) (num : nat) (l : list (vec * vec)) (cur : R) : list R :=
  match l with [] => [] | s :: l' => seg_dist cell num s cur ++ dists cell num l' (cur + segment_length cell s) end.
Fixpoint tick_list (cell : mat) (l : list (vec * vec)) (cur : R) : list R :=
  match l with [] => [] | s :: l' => (cur + segment_length cell s) :: tick_list cell l' (cur + segment_length cell s) end.
Lemma fold_path cell num l : (2 <= num)%nat -> forall d cur, exists e,
  fold_left path_step (map (map (times_cell cell)) (map (segment_points num) l)) (Ok (d, cur)) = Ok (d ++ dists cell num l cur, e).
Proof.
  intros Hn. induction l as [|s l IH]; intros d cur; [exists cur; cbn; rewrite app_nil_r; reflexivity|]. cbn [map fold_left]. rewrite (step_path cell num s d cur Hn).
  destruct (IH (d ++ seg_dist cell num s cur) (cur + segment_length cell s)) as [e E]. exists e. rewrite E. cbn [dists]. rewrite app_assoc. reflexivity.
Qed.
Lemma every_chunk {A} (x : A) step l c : every (length c) step (c ++ x :: l) = x :: every (step - 1) step l.
Proof. induction c as [|y c IH]; cbn [length app every]; [reflexivity|exact IH]. Qed.
Lemma every_dists cell num l : (2 <= num)%nat -> forall cur, every (num - 1) num (dists cell num l cur) = tick_list cell l cur.
Proof.
  intros Hn. induction l as [|s l IH]; intros cur; [reflexivity|]. cbn [dists tick_list]. unfold seg_dist. replace (seq 0 num) with (seq 0 (num - 1) ++ [(num - 1)%nat]) by (symmetry; replace num with (S (num - 1)) at 1 by lia; apply seq_S). rewrite map_app. cbn [map]. rewrite <- app_assoc. cbn [app].
  set (c := map (fun i => linspace num i * segment_length cell s + cur) (seq 0 (num - 1))). assert (Lc : length c = (num - 1)%nat) by (unfold c; rewrite map_length, seq_length; reflexivity).
  rewrite <- Lc at 1. rewrite every_chunk, IH, (linspace_last num Hn). f_equal. ring.
Qed.
Lemma before_cons cell s l n : length_before cell (s :: l) (S n) = segment_length cell s + length_before cell l n.
Proof. reflexivity. Qed.
Lemma tick_nth cell l : forall cur n, (n < length l)%nat -> nth n (tick_list cell l cur) 0 = cur + length_before cell l (S n).
Proof.
  induction l as [|s l IH]; intros cur n Hn; cbn [length] in Hn; [lia|]. rewrite before_cons. destruct n as [|n]; cbn [tick_list nth]; [unfold length_before; cbn; ring|]. rewrite IH by lia. ring.
Qed.
Lemma tick_length cell l : forall cur, length (tick_list cell l cur) = length l.
Proof. induction l as [|s l IH]; intros cur; cbn [tick_list length]; [reflexivity|]. rewrite IH. reflexivity. Qed.
Lemma seg_dist_length cell num s cur : length (seg_dist cell num s cur) = num.
Proof. unfold seg_dist. rewrite map_length, seq_length. reflexivity. Qed.
Lemma dists_nth cell num l : forall cur n i, (i < num)%nat -> forall s, nth_error l n = Some s ->
  nth_error (dists cell num l cur) (n * num + i) = Some (linspace num i * segment_length cell s + (cur + length_before cell l n)).
Proof.
  induction l as [|s' l IH]; intros cur n i Hi s E; [destruct n; discriminate E|]. destruct n as [|n]; cbn [nth_error] in E; cbn [dists].
  - injection E as ->. cbn [Nat.mul Nat.add]. rewrite nth_error_app1 by (rewrite seg_dist_length; exact Hi). unfold seg_dist.
    rewrite nth_error_map. rewrite (nth_error_nth' (seq 0 num) 0%nat) by (rewrite seq_length; exact Hi). rewrite seq_nth by exact Hi. cbn [option_map Nat.add]. unfold length_before. cbn. f_equal. ring.
  - rewrite before_cons. rewrite nth_error_app2 by (rewrite seg_dist_length; lia). rewrite seg_dist_length. replace (S n * num + i - num)%nat with (n * num + i)%nat by lia. rewrite (IH _ _ _ Hi s E). f_equal. ring.
Qed.
Lemma dists_length cell num l : forall cur, length (dists cell num l cur) = (length l * num)%nat.
Proof. induction l as [|s l IH]; intros cur; cbn [dists length]; [reflexivity|]. rewrite app_length, seg_dist_length, IH. cbn [Nat.mul]. reflexivity. Qed.
Lemma concat_nth {A} (ls : list (list A)) num : Forall (fun l => length l = num) ls -> forall n i l, (i < num)%nat -> nth_error ls n = Some l -> nth_error (concat ls) (n * num + i) = nth_error l i.
Proof.
  induction 1 as [|x ls Hx _ IH]; intros n i l Hi E; [destruct n; discriminate E|]. destruct n as [|n]; cbn [nth_error] in E; cbn [concat].
  - injection E as ->. cbn [Nat.mul Nat.add]. apply nth_error_app1. lia.
  - rewrite nth_error_app2 by (rewrite Hx; lia). rewrite Hx. replace (S n * num + i - num)%nat with (n * num + i)%nat by lia. apply IH; assumption.
Qed.
Lemma points_nth num s i : (i < num)%nat -> nth_error (segment_points num s) i = Some (vadd (fst s) (vscal (linspace num i) (vsub (snd s) (fst s)))).
Proof.
  intros Hi. unfold segment_points. rewrite nth_error_map, (nth_error_nth' (seq 0 num) 0%nat) by (rewrite seq_length; exact Hi). rewrite seq_nth by exact Hi. reflexivity.
Qed.
Lemma points_length num s : length (segment_points num s) = num.
Proof. unfold segment_points. rewrite map_length, seq_length. reflexivity. Qed.
