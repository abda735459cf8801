(** Proofs about densities. *)
From Coq Require Import ZArith Reals List Bool Arith Lia Lra.
From Coquelicot Require Import Coquelicot.
From Verif Require Import Base Matsubara LinMesh ThermalSpec Csum Fourier FourierSpec Fourier_dft Fourier_lat Fourier_real Fourier_riemann Fourier_mats Fourier_tail Fourier_proofs MatsSum Density DensitySpec.
Import ListNotations.
Local Open Scope R_scope.

(** ---- Matsubara frequencies ---- *)
Lemma below_ok n tol v : (forall i j, (i < n)%nat -> (j < n)%nat -> Cmod (v i j) < tol) -> below n n tol v = true.
Proof.
  intros H. unfold below. apply forallb_forall. intros i Hi. apply forallb_forall. intros j Hj. apply in_seq in Hi. apply in_seq in Hj.
  destruct (Rlt_dec (Cmod (v i j)) tol) as [_|N]; [reflexivity|]. exfalso. apply N. apply H; lia.
Qed.
Lemma below_no n1 n2 tol v i j : (i < n1)%nat -> (j < n2)%nat -> tol <= Cmod (v i j) -> below n1 n2 tol v = false.
Proof.
  intros Hi Hj H. destruct (below n1 n2 tol v) eqn:E; [|reflexivity]. unfold below in E. rewrite forallb_forall in E. specialize (E i ltac:(apply in_seq; lia)).
  rewrite forallb_forall in E. specialize (E j ltac:(apply in_seq; lia)). destruct (Rlt_dec (Cmod (v i j)) tol); [lra|discriminate].
Qed.
Lemma fold_csum {A} (f : A -> C) l : forall z, fold_left (fun r d => Cplus r (f d)) l z = Cplus z (csum l f).
Proof. induction l as [|x l IH]; intros z; cbn; [ring|]. rewrite IH. fold (csum l f). ring. Qed.
Lemma d_good s k : good_pole s (d_pole s k).
Proof. destruct s; cbn; [|exact I]. destruct k as [|[|k]]; lra. Qed.
Lemma F_eq s beta a b : good_pole s b -> beta <> 0 -> d_F beta (d_xi s) a b = Cmult a (one_pole s (RtoC 1) b 0 beta).
Proof.
  intros Hg Hb. rewrite one_eq by assumption. pose proof (den_nz s b beta Hg Hb) as Hd. rewrite Rmult_0_r, exp_0. unfold d_F.
  set (x := exp (- beta * b)) in *. destruct s; cbn [d_xi pm] in *.
  - assert (- (1) + x <> 0) by lra. replace (RtoC (1 / (1 - 1 * x))) with (Copp (Cinv (RtoC (- (1) + x)))). 2:{ rewrite <- RtoC_inv by assumption. apply Ceq; cbn; field; lra. } unfold Cdiv. ring.
  - assert (- -1 + x <> 0) by (intros Z; apply Hd; lra). replace (RtoC (1 / (1 - -1 * x))) with (Cinv (RtoC (- -1 + x))). 2:{ rewrite <- RtoC_inv by assumption. apply Ceq; cbn; field; lra. }
    unfold Cdiv. replace (RtoC (-1)) with (Copp (RtoC 1)) by (apply Ceq; cbn; ring). ring.
Qed.
Lemma d_weights s m1 m2 m3 : Cplus (Cplus (d_weight s m1 m2 m3 0) (d_weight s m1 m2 m3 1)) (d_weight s m1 m2 m3 2) = m1.
Proof. destruct s; cbn [d_weight]; apply Ceq; unfold Cdiv; cbn; field. Qed.
Lemma d_moments s m1 m2 m3 : csum [0;1;2]%nat (fun k => Cmult (d_weight s m1 m2 m3 k) (RtoC (d_pole s k))) = m2
  /\ csum [0;1;2]%nat (fun k => Cmult (d_weight s m1 m2 m3 k) (RtoC (d_pole s k ^ 2))) = m3.
Proof. destruct s; split; apply Ceq; unfold csum, Cdiv; cbn; field. Qed.
Lemma csum3 f : csum [0;1;2]%nat f = Cplus (f 0%nat) (Cplus (f 1%nat) (Cplus (f 2%nat) (RtoC 0))).
Proof. reflexivity. Qed.
(** the averages over the mesh of 1/(i w_n - b) *)
Definition msum (m : imfreq) (b : R) : C := Cdiv (csum (seq 0 (Z.to_nat (if_size m))) (fun d => hinv (if_beta m) (if_stat m) b (if_to_index m (Z.of_nat d)))) (RtoC (if_beta m)).
(** the element i j, before conjugation *)
Definition d_val (m : imfreq) (g : nat -> mat) (km : list mat) (i j : nat) : C :=
  let s := if_stat m in let beta := if_beta m in
  let a k := d_weight s (mrow km 1 i j) (mrow km 2 i j) (mrow km 3 i j) k in
  Cmult (RtoC (- pm s)) (Cplus (Cplus (Cdiv (csum (seq 0 (Z.to_nat (if_size m))) (fun d => g d i j)) (RtoC beta)) (mrow km 1 i j))
    (csum [0;1;2]%nat (fun k => Cmult (a k) (Cminus (one_pole s (RtoC 1) (d_pole s k) 0 beta) (msum m (d_pole s k)))))).
Lemma known_eq m n g km : 0 < if_beta m -> exists r, density_known m n n g km = Ok r /\ forall i j, r i j = if (i <=? j)%nat then d_val m g km i j else Cconj (d_val m g km j i).
Proof.
  intros Hb. unfold density_known. rewrite Nat.eqb_refl. cbn [negb]. cbv zeta. eexists. split; [reflexivity|]. intros i0 j0. cbv beta.
  assert (E : forall i j, Cmult (RtoC (- d_xi (if_stat m)))
    (Cplus (Cplus (Cplus (Cplus (Cdiv (fold_left (fun r d => Cplus r (Cminus (g d i j) (Cplus (Cplus (Cdiv (d_weight (if_stat m) (mrow km 1 i j) (mrow km 2 i j) (mrow km 3 i j) 0) (Cminus (iw_pt m (if_to_index m (Z.of_nat d))) (RtoC (d_pole (if_stat m) 0))))
       (Cdiv (d_weight (if_stat m) (mrow km 1 i j) (mrow km 2 i j) (mrow km 3 i j) 1) (Cminus (iw_pt m (if_to_index m (Z.of_nat d))) (RtoC (d_pole (if_stat m) 1)))))
       (Cdiv (d_weight (if_stat m) (mrow km 1 i j) (mrow km 2 i j) (mrow km 3 i j) 2) (Cminus (iw_pt m (if_to_index m (Z.of_nat d))) (RtoC (d_pole (if_stat m) 2)))))))
       (seq 0 (Z.to_nat (if_size m))) (RtoC 0)) (RtoC (if_beta m))) (mrow km 1 i j)) (d_F (if_beta m) (d_xi (if_stat m)) (d_weight (if_stat m) (mrow km 1 i j) (mrow km 2 i j) (mrow km 3 i j) 0) (d_pole (if_stat m) 0)))
       (d_F (if_beta m) (d_xi (if_stat m)) (d_weight (if_stat m) (mrow km 1 i j) (mrow km 2 i j) (mrow km 3 i j) 1) (d_pole (if_stat m) 1)))
       (d_F (if_beta m) (d_xi (if_stat m)) (d_weight (if_stat m) (mrow km 1 i j) (mrow km 2 i j) (mrow km 3 i j) 2) (d_pole (if_stat m) 2))) = d_val m g km i j).
  { intros i j. unfold d_val. cbv zeta. set (s := if_stat m). set (beta := if_beta m) in *. set (a := d_weight s (mrow km 1 i j) (mrow km 2 i j) (mrow km 3 i j)).
    assert (Hb0 : beta <> 0) by lra. replace (d_xi s) with (pm s) at 1 by (destruct s; reflexivity). rewrite !F_eq by (apply d_good || exact Hb0). f_equal.
    rewrite fold_csum. rewrite (csum_ext _ (fun d => Cplus (g d i j) (Cmult (RtoC (-1)) (Cplus (Cplus (Cmult (a 0%nat) (hinv beta s (d_pole s 0) (if_to_index m (Z.of_nat d)))) (Cmult (a 1%nat) (hinv beta s (d_pole s 1) (if_to_index m (Z.of_nat d)))))
       (Cmult (a 2%nat) (hinv beta s (d_pole s 2) (if_to_index m (Z.of_nat d)))))))).
    2:{ intros d _. rewrite iw_pt_eq. fold beta. fold s. unfold hinv, Cdiv. replace (RtoC (-1)) with (Copp (RtoC 1)) by (apply Ceq; cbn; ring). ring. }
    rewrite csum_add, csum_l, !csum_add, !csum_l. rewrite csum3. unfold msum. fold beta. fold s. replace (RtoC (-1)) with (Copp (RtoC 1)) by (apply Ceq; cbn; ring). unfold Cdiv. ring. }
  rewrite !E. reflexivity.
Qed.
Lemma iw_ok fit m n g km : 0 < if_beta m -> if_pos m = false -> matrices_given n km ->
  exists r, density_iw fit m n n g km = Ok r /\ forall i j, r i j = if (i <=? j)%nat then d_val m g km i j else Cconj (d_val m g km j i).
Proof.
  intros Hb Hp (Hn & Hl & H0). unfold density_iw. rewrite Hp. destruct (Nat.eqb_spec (n * n) 0) as [E|_]; [nia|]. destruct km as [|k0 km']; [cbn in Hl; lia|]. set (km := k0 :: km') in *.
  rewrite below_ok by exact H0. cbn [negb]. destruct (Nat.ltb_spec (length km) 4); [lia|]. apply known_eq. exact Hb.
Qed.

(** the limit *)
Definition occ_sum (s : statistic) (beta : R) (ps : list (R * (nat -> nat -> C))) (i j : nat) : C := csum ps (fun p => Cmult (snd p i j) (RtoC (occupation s beta (fst p)))).
Lemma occ_eq s beta e : good_pole s e -> beta <> 0 -> Cmult (RtoC (- pm s)) (Cplus (one_pole s (RtoC 1) e 0 beta) (RtoC 1)) = RtoC (occupation s beta e).
Proof.
  intros Hg Hb. rewrite one_eq by assumption. pose proof (den_nz s e beta Hg Hb) as Hd. rewrite Rmult_0_r, exp_0. unfold occupation.
  replace (beta * e) with (- (- beta * e)) by ring. rewrite exp_Ropp. pose proof (exp_pos (- beta * e)) as Px. set (x := exp (- beta * e)) in *. destruct s; cbn [pm] in *; apply Ceq; cbn; field; repeat split; lra.
Qed.
Lemma combo_limit beta s (l : list (R * C)) : 0 < beta -> (forall p, In p l -> good_pole s (fst p)) -> forall eps, 0 < eps -> exists N0, forall N, (N0 <= N)%nat ->
  Cmod (csum l (fun p => Cmult (snd p) (Cminus (msum (mkImfreq beta s (Z.of_nat N) false) (fst p)) (middle beta s (fst p))))) < eps.
Proof.
  intros Hb. induction l as [|[b c] l IH]; intros Hg eps He.
  - exists 0%nat. intros N _. cbn. rewrite Cmod_0. exact He.
  - destruct (IH (fun p H => Hg p (or_intror H)) (eps / 2) ltac:(lra)) as [N1 B1].
    assert (Pc : 0 < Cmod c + 1) by (pose proof (Cmod_ge_0 c); lra).
    destruct (mats_sum beta s b Hb (Hg _ (or_introl eq_refl)) (eps / 2 / (Cmod c + 1))) as [N2 B2]; [apply Rdiv_lt_0_compat; lra|].
    exists (N1 + N2)%nat. intros N HN. specialize (B1 N ltac:(lia)). specialize (B2 N ltac:(lia)). rewrite csum_cons. cbn [fst snd].
    eapply Rle_lt_trans; [apply Cmod_triangle|]. rewrite Cmod_mult. change (full_mesh beta s N) with (mkImfreq beta s (Z.of_nat N) false) in B2.
    unfold msum at 1. cbn [if_beta if_stat]. set (x := Cmod (Cminus (Cdiv _ (RtoC beta)) (middle beta s b))) in *. assert (Px : 0 <= x) by apply Cmod_ge_0.
    assert (Cmod c * x <= eps / 2). { apply Rle_trans with ((Cmod c + 1) * x); [nra|]. apply (Rmult_le_reg_r (/ (Cmod c + 1))); [apply Rinv_0_lt_compat; exact Pc|].
      replace ((Cmod c + 1) * x * / (Cmod c + 1)) with x by (field; lra). unfold Rdiv in B2. lra. }
    lra.
Qed.
Definition good_list s (ps : list (R * (nat -> nat -> C))) : no_zero_mode s ps -> forall p, In p ps -> good_pole s (fst p).
Proof. intros H p Hp. destruct s; cbn in *; [apply H; exact Hp|exact I]. Qed.
Lemma val_err beta s N ps km i j : 0 < beta -> no_zero_mode s ps -> mrow km 1 i j = csum ps (fun p => snd p i j) ->
  let m := mkImfreq beta s (Z.of_nat N) false in
  let l := map (fun p => (fst p, snd p i j)) ps ++ map (fun k => (d_pole s k, Copp (d_weight s (mrow km 1 i j) (mrow km 2 i j) (mrow km 3 i j) k))) [0;1;2]%nat in
  Cminus (d_val m (on_mesh m (poles ps)) km i j) (occ_sum s beta ps i j) = Cmult (RtoC (- pm s)) (csum l (fun p => Cmult (snd p) (Cminus (msum m (fst p)) (middle beta s (fst p))))).
Proof.
  intros Hb Hz H1 m l. assert (Hb0 : beta <> 0) by lra. pose proof (d_weights s (mrow km 1 i j) (mrow km 2 i j) (mrow km 3 i j)) as W. unfold l. rewrite csum_app, !csum_map. cbn [fst snd].
  set (a := d_weight s (mrow km 1 i j) (mrow km 2 i j) (mrow km 3 i j)) in *. unfold d_val. cbv zeta. cbn [if_beta if_stat m]. fold a.
  (* the sum of the values of g *)
  assert (G : Cdiv (csum (seq 0 (Z.to_nat (if_size m))) (fun d => on_mesh m (poles ps) d i j)) (RtoC beta) = csum ps (fun p => Cmult (snd p i j) (msum m (fst p)))).
  { unfold on_mesh, poles. rewrite csum_swap. unfold Cdiv. rewrite <- csum_r. apply csum_ext. intros p _. unfold msum, Cdiv. cbn [if_beta if_stat m]. rewrite Cmult_assoc, <- csum_l. f_equal. apply csum_ext. intros d _. unfold hinv, Cdiv. ring. }
  rewrite G.
  assert (O : occ_sum s beta ps i j = Cmult (RtoC (- pm s)) (Cplus (csum ps (fun p => Cmult (snd p i j) (middle beta s (fst p)))) (Cmult (RtoC (1 / 2)) (mrow km 1 i j)))).
  { rewrite H1, <- csum_l, <- csum_add, <- csum_l. apply csum_ext. intros p Hp. rewrite <- (occ_eq s beta (fst p) (good_list s ps Hz p Hp) Hb0). unfold middle.
    replace (RtoC 1) with (Cplus (RtoC (1 / 2)) (RtoC (1 / 2))) at 2 by (apply Ceq; cbn; field). ring. }
  rewrite O.
  rewrite (csum_ext (fun p => Cmult (snd p i j) (Cminus (msum m (fst p)) (middle beta s (fst p)))) (fun p => Cplus (Cmult (snd p i j) (msum m (fst p))) (Cmult (RtoC (-1)) (Cmult (snd p i j) (middle beta s (fst p)))))).
  2:{ intros p _. replace (RtoC (-1)) with (Copp (RtoC 1)) by (apply Ceq; cbn; ring). ring. }
  rewrite csum_add, csum_l. rewrite <- W at 1 2. change (mkImfreq beta s (Z.of_nat N) false) with m. unfold middle. rewrite !csum3. replace (RtoC (-1)) with (Copp (RtoC 1)) by (apply Ceq; cbn; ring).
  assert (H : Cplus (Cplus (a 0%nat) (a 1%nat)) (a 2%nat) = Cplus (Cmult (RtoC (1 / 2)) (Cplus (Cplus (a 0%nat) (a 1%nat)) (a 2%nat))) (Cmult (RtoC (1 / 2)) (Cplus (Cplus (a 0%nat) (a 1%nat)) (a 2%nat)))).
  { rewrite <- Cmult_plus_distr_r. replace (Cplus (RtoC (1 / 2)) (RtoC (1 / 2))) with (RtoC 1) by (apply Ceq; cbn; field). ring. }
  rewrite H at 1. ring.
Qed.
Lemma pm_mod s z : Cmod (Cmult (RtoC (- pm s)) z) = Cmod z.
Proof. rewrite Cmod_mult, Cmod_R. replace (Rabs (- pm s)) with 1; [ring|]. destruct s; cbn; [rewrite Rabs_Ropp; symmetry; apply Rabs_pos_eq; lra|replace (- -1) with 1 by ring; symmetry; apply Rabs_pos_eq; lra]. Qed.
Lemma val_limit beta s ps km i j : 0 < beta -> no_zero_mode s ps -> mrow km 1 i j = csum ps (fun p => snd p i j) ->
  forall eps, 0 < eps -> exists N0, forall N, (N0 <= N)%nat -> let m := mkImfreq beta s (Z.of_nat N) false in
  Cmod (Cminus (d_val m (on_mesh m (poles ps)) km i j) (occ_sum s beta ps i j)) < eps.
Proof.
  intros Hb Hz H1 eps He. set (l := map (fun p => (fst p, snd p i j)) ps ++ map (fun k => (d_pole s k, Copp (d_weight s (mrow km 1 i j) (mrow km 2 i j) (mrow km 3 i j) k))) [0;1;2]%nat).
  destruct (combo_limit beta s l Hb) with (eps := eps) as [N0 B]; [|exact He|].
  - intros p Hp. unfold l in Hp. apply in_app_or in Hp. destruct Hp as [Hp|Hp]; apply in_map_iff in Hp; destruct Hp as (q & <- & Hq); cbn [fst]; [apply (good_list s ps Hz q Hq)|apply d_good].
  - exists N0. intros N HN m. unfold m. rewrite (val_err beta s N ps km i j Hb Hz H1). rewrite pm_mod. exact (B N HN).
Qed.
Lemma Cmod_conj_eq z : Cmod (Cconj z) = Cmod z.
Proof. unfold Cmod, Cconj. cbn. f_equal. ring. Qed.
Lemma conj_mult x y : Cconj (Cmult x y) = Cmult (Cconj x) (Cconj y). Proof. apply Ceq; cbn; ring. Qed.
Lemma conj_minus x y : Cconj (Cminus x y) = Cminus (Cconj x) (Cconj y). Proof. apply Ceq; cbn; ring. Qed.
Lemma conj_plus x y : Cconj (Cplus x y) = Cplus (Cconj x) (Cconj y). Proof. apply Ceq; cbn; ring. Qed.
Lemma conj_R x : Cconj (RtoC x) = RtoC x. Proof. apply Ceq; cbn; ring. Qed.
Lemma conj_conj x : Cconj (Cconj x) = x. Proof. apply Ceq; cbn; ring. Qed.
Lemma occ_conj s beta ps i j : (forall p, In p ps -> snd p j i = Cconj (snd p i j)) -> occ_sum s beta ps j i = Cconj (occ_sum s beta ps i j).
Proof. intros H. unfold occ_sum. rewrite csum_conj. apply csum_ext. intros p Hp. rewrite conj_mult, conj_R, (H p Hp). reflexivity. Qed.

Lemma thm_limit_poles fit beta s n ps km i j : 0 < beta -> no_zero_mode s ps -> matrices_given n km -> (i < n)%nat -> (j < n)%nat ->
  (forall p, In p ps -> forall i j, snd p j i = Cconj (snd p i j)) -> (forall i j, (i < n)%nat -> (j < n)%nat -> nth 1 km (fun _ _ => RtoC 0) i j = csum ps (fun p => snd p i j)) ->
  forall eps, 0 < eps -> exists N0, forall N, (N0 <= N)%nat -> let m := mkImfreq beta s (Z.of_nat N) false in
    exists r, density_iw fit m n n (on_mesh m (poles ps)) km = Ok r /\ Cmod (Cminus (r i j) (csum ps (fun p => Cmult (snd p i j) (RtoC (occupation s beta (fst p)))))) < eps.
Proof.
  intros Hb Hz Hm Hi Hj Hh H1 eps He. destruct (Nat.leb_spec i j) as [L|L].
  - destruct (val_limit beta s ps km i j Hb Hz (H1 i j Hi Hj) eps He) as [N0 B]. exists N0. intros N HN m. specialize (B N HN). cbv zeta in B. fold m in B.
    destruct (iw_ok fit m n (on_mesh m (poles ps)) km Hb eq_refl Hm) as (r & E & V). exists r. split; [exact E|]. rewrite V. destruct (Nat.leb_spec i j); [exact B|lia].
  - destruct (val_limit beta s ps km j i Hb Hz (H1 j i Hj Hi) eps He) as [N0 B]. exists N0. intros N HN m. specialize (B N HN). cbv zeta in B. fold m in B.
    destruct (iw_ok fit m n (on_mesh m (poles ps)) km Hb eq_refl Hm) as (r & E & V). exists r. split; [exact E|]. rewrite V. destruct (Nat.leb_spec i j); [lia|].
    fold (occ_sum s beta ps i j). rewrite (occ_conj s beta ps j i) by (intros p Hp; apply Hh; exact Hp). rewrite <- conj_minus, Cmod_conj_eq. exact B.
Qed.

(** exact if the poles are those of the tail *)
Lemma vander s (A B C0 : C) : let w := d_weight s (Cplus A (Cplus B C0)) (Cplus (Cmult A (RtoC (d_pole s 0))) (Cplus (Cmult B (RtoC (d_pole s 1))) (Cmult C0 (RtoC (d_pole s 2)))))
    (Cplus (Cmult A (RtoC (d_pole s 0 ^ 2))) (Cplus (Cmult B (RtoC (d_pole s 1 ^ 2))) (Cmult C0 (RtoC (d_pole s 2 ^ 2))))) in
  w 0%nat = A /\ w 1%nat = B /\ w 2%nat = C0.
Proof. intros w. unfold w. destruct s; repeat split; apply Ceq; unfold Cdiv; cbn; field. Qed.
Lemma three_eq s A B C0 : three_poles s A B C0 = [(d_pole s 0, A); (d_pole s 1, B); (d_pole s 2, C0)].
Proof. destruct s; reflexivity. Qed.
Lemma csum_3 {A} (x y z : A) f : csum [x; y; z] f = Cplus (f x) (Cplus (f y) (Cplus (f z) (RtoC 0))). Proof. reflexivity. Qed.
Lemma thm_exact_poles fit beta s N n A B C0 km : 0 < beta -> matrices_given n km -> let ps := three_poles s A B C0 in
  (forall p, In p ps -> forall i j, snd p j i = Cconj (snd p i j)) ->
  (forall i j k, (i < n)%nat -> (j < n)%nat -> (1 <= k <= 3)%nat -> nth k km (fun _ _ => RtoC 0) i j = csum ps (fun p => Cmult (snd p i j) (RtoC (fst p ^ (k - 1))))) ->
  let m := mkImfreq beta s (Z.of_nat N) false in
  exists r, density_iw fit m n n (on_mesh m (poles ps)) km = Ok r /\ forall i j, (i < n)%nat -> (j < n)%nat -> r i j = csum ps (fun p => Cmult (snd p i j) (RtoC (occupation s beta (fst p)))).
Proof.
  intros Hb Hm ps Hh H1 m. assert (Hz : no_zero_mode s ps). { unfold ps. rewrite three_eq. destruct s; cbn; [|exact I]. intros p Hp. cbn in Hp. destruct Hp as [<-|[<-|[<-|[]]]]; cbn; lra. }
  destruct (iw_ok fit m n (on_mesh m (poles ps)) km Hb eq_refl Hm) as (r & E & V). exists r. split; [exact E|].
  assert (Val : forall i j, (i < n)%nat -> (j < n)%nat -> d_val m (on_mesh m (poles ps)) km i j = occ_sum s beta ps i j).
  { intros i j Hi Hj. assert (M1 : mrow km 1 i j = csum ps (fun p => snd p i j)).
    { etransitivity; [exact (H1 i j 1%nat Hi Hj ltac:(lia))|]. apply csum_ext. intros p _. replace (fst p ^ (1 - 1)) with 1 by reflexivity. ring. }
    pose proof (val_err beta s N ps km i j Hb Hz M1) as D. cbv zeta in D. fold m in D. rewrite csum_app, !csum_map in D. cbn [fst snd] in D.
    pose proof (vander s (A i j) (B i j) (C0 i j)) as W. cbv zeta in W.
    replace (Cplus (A i j) (Cplus (B i j) (C0 i j))) with (mrow km 1 i j) in W by (rewrite M1; unfold ps; rewrite three_eq, csum_3; cbn [fst snd]; ring).
    replace (Cplus (Cmult (A i j) (RtoC (d_pole s 0))) (Cplus (Cmult (B i j) (RtoC (d_pole s 1))) (Cmult (C0 i j) (RtoC (d_pole s 2))))) with (mrow km 2 i j) in W
      by (etransitivity; [exact (H1 i j 2%nat Hi Hj ltac:(lia))|]; unfold ps; rewrite three_eq, csum_3; cbn [fst snd]; replace (2 - 1)%nat with 1%nat by reflexivity; rewrite !pow_1; ring).
    replace (Cplus (Cmult (A i j) (RtoC (d_pole s 0 ^ 2))) (Cplus (Cmult (B i j) (RtoC (d_pole s 1 ^ 2))) (Cmult (C0 i j) (RtoC (d_pole s 2 ^ 2))))) with (mrow km 3 i j) in W
      by (etransitivity; [exact (H1 i j 3%nat Hi Hj ltac:(lia))|]; unfold ps; rewrite three_eq, csum_3; cbn [fst snd]; replace (3 - 1)%nat with 2%nat by reflexivity; ring).
    destruct W as (W0 & W1 & W2). rewrite csum3, W0, W1, W2 in D. unfold ps in D at 3. rewrite three_eq, csum_3 in D. cbn [fst snd] in D.
    match type of D with Cminus ?x ?y = ?z => assert (Z : z = RtoC 0) by ring; rewrite Z in D; transitivity (Cplus (Cminus x y) y); [ring|rewrite D; ring] end. }
  intros i j Hi Hj. rewrite V. destruct (i <=? j)%nat; [apply Val; assumption|]. rewrite Val by assumption. symmetry. apply (occ_conj s beta ps j i). intros p Hp. apply Hh. exact Hp.
Qed.

(** minus G(beta) of the inverse Fourier transform *)
Lemma thm_fourier fit fit' m s' L beta n i j g km (gw : data) (km' : rows) c nc : 0 < beta -> if_beta m = beta -> if_stat m = Fermion -> if_pos m = false -> tau_fits m L ->
  matrices_given n km -> moments_given 4 nc km' -> (i <= j)%nat ->
  (forall d, gw d c = g d i j) -> (forall k, moment km' k c = nth k km (fun _ _ => RtoC 0) i j) ->
  exists r gt, density_iw fit m n n g km = Ok r /\ fourier_iw_to_tau fit' (tau_mesh beta s' L) m nc gw km' = Ok gt /\ r i j = Copp (gt L c).
Proof.
  intros Hb Eb Es Hp Hf Hm Hm' Hij Hg Hk. destruct (iw_ok fit m n g km ltac:(lra) Hp Hm) as (r & E & V). destruct (thm_inverse fit' m s' L beta nc gw km' Hb Eb Hp Hf Hm') as (gt & E' & V0 & VL). cbv zeta in V0, VL.
  exists r, gt. split; [exact E|]. split; [exact E'|]. rewrite V. destruct (Nat.leb_spec i j); [|lia]. rewrite VL, V0 by (destruct Hf; lia). rewrite !Hk. rewrite tau_0, Es.
  change (nth 1 km (fun _ _ => RtoC 0) i j) with (mrow km 1 i j). change (nth 2 km (fun _ _ => RtoC 0) i j) with (mrow km 2 i j). change (nth 3 km (fun _ _ => RtoC 0) i j) with (mrow km 3 i j).
  assert (Hb0 : beta <> 0) by lra. unfold d_val. cbv zeta. rewrite Es, Eb. rewrite csum3. set (a := d_weight Fermion (mrow km 1 i j) (mrow km 2 i j) (mrow km 3 i j)).
  assert (T : tail_tau Fermion beta (mrow km 1 i j) (mrow km 2 i j) (mrow km 3 i j) 0 = Cplus (Cplus (Cmult (a 0%nat) (one_pole Fermion (RtoC 1) (d_pole Fermion 0) 0 beta)) (Cmult (a 1%nat) (one_pole Fermion (RtoC 1) (d_pole Fermion 1) 0 beta))) (Cmult (a 2%nat) (one_pole Fermion (RtoC 1) (d_pole Fermion 2) 0 beta))).
  { unfold tail_tau. rewrite !one_eq by (exact I || exact Hb0). cbn [weight pole d_pole]. unfold a. cbn [d_weight]. ring. }
  rewrite T. unfold total.
  rewrite (csum_ext (fun d => Cmult (Cconj (matsubara_wave beta Fermion (if_to_index m (Z.of_nat d)) 0)) (Cminus (gw d c) (tail_iw Fermion (mrow km 1 i j) (mrow km 2 i j) (mrow km 3 i j) (i_omega beta Fermion (if_to_index m (Z.of_nat d))))))
    (fun d => Cplus (g d i j) (Cmult (RtoC (-1)) (Cplus (Cplus (Cmult (a 0%nat) (hinv beta Fermion (d_pole Fermion 0) (if_to_index m (Z.of_nat d)))) (Cmult (a 1%nat) (hinv beta Fermion (d_pole Fermion 1) (if_to_index m (Z.of_nat d)))))
       (Cmult (a 2%nat) (hinv beta Fermion (d_pole Fermion 2) (if_to_index m (Z.of_nat d)))))))).
  2:{ intros d _. rewrite wave_0, Cconj_1, Hg. unfold tail_iw, hinv, Cdiv. cbn [pole d_pole]. unfold a. cbn [weight d_weight]. unfold Cdiv. replace (RtoC (-1)) with (Copp (RtoC 1)) by (apply Ceq; cbn; ring). ring. }
  rewrite csum_add, csum_l, !csum_add, !csum_l. unfold msum. rewrite Es, Eb. cbn [pm]. replace (RtoC (1 / beta)) with (Cinv (RtoC beta)) by (rewrite <- RtoC_inv by exact Hb0; f_equal; field; exact Hb0).
  replace (RtoC (- -1)) with (RtoC 1) by (apply Ceq; cbn; ring). replace (RtoC (-1)) with (Copp (RtoC 1)) by (apply Ceq; cbn; ring). unfold Cdiv. ring.
Qed.

(** hermitian functions *)
Lemma one_real s b beta : good_pole s b -> beta <> 0 -> Cconj (one_pole s (RtoC 1) b 0 beta) = one_pole s (RtoC 1) b 0 beta.
Proof. intros Hg Hb. rewrite one_eq by assumption. apply Ceq; cbn; ring. Qed.
Lemma conj_div_R x b : Cconj (Cdiv x (RtoC b)) = Cdiv (Cconj x) (RtoC b).
Proof. unfold Cdiv. rewrite conj_mult. f_equal. destruct (Req_dec b 0) as [->|H]; [apply Ceq; unfold Cinv, Cconj; cbn; unfold Rdiv; ring|]. rewrite <- RtoC_inv by exact H. apply conj_R. Qed.
Lemma weight_conj s m1 m2 m3 k : Cconj (d_weight s m1 m2 m3 k) = d_weight s (Cconj m1) (Cconj m2) (Cconj m3) k.
Proof. destruct s, k as [|[|k]]; cbn [d_weight]; apply Ceq; unfold Cdiv; cbn; field. Qed.
Lemma size_pos beta s N : Z.to_nat (if_size (mkImfreq beta s (Z.of_nat N) false)) = match N with O => 0%nat | _ => len s N end.
Proof. exact (mesh_size beta s N). Qed.
Lemma hinv_conj beta s b n n' : 0 < beta -> good_pole s b -> nu s n' = - nu s n -> Cconj (hinv beta s b n) = hinv beta s b n'.
Proof.
  intros Hb Hg E. destruct (hinv_parts beta s b n Hb Hg) as (F1 & F2 & Q). destruct (hinv_parts beta s b n' Hb Hg) as (G1 & G2 & _). cbv zeta in *. apply Ceq; cbn [fst snd Cconj].
  - rewrite F1, G1, E. f_equal. f_equal. field. lra.
  - rewrite F2, G2, E. field. repeat split; try lra. intros Z. revert Q. replace (PI * nu s n / beta) with (PI * nu s n * / beta) by reflexivity. set (w := PI * nu s n) in *.
    replace (b * b + w * / beta * (w * / beta)) with ((b * b * (beta * beta) + w * w) / (beta * beta)) by (field; lra). intros Q. assert (b * b * (beta * beta) + w * w = 0) by (unfold w; nra). rewrite H in Q. unfold Rdiv in Q. lra.
Qed.
Lemma csum_mirror (f f' : nat -> C) n : (forall d, (d < n)%nat -> f (n - 1 - d)%nat = f' d) -> csum (seq 0 n) f = csum (seq 0 n) f'.
Proof.
  intros H. apply Ceq; rewrite ?csum_fst_rs, ?csum_snd_rs; rewrite rs_rev; apply rs_ext; intros k Hk; rewrite H by exact Hk; reflexivity.
Qed.
Lemma mirror_nu beta s N d : (d < Z.to_nat (if_size (mkImfreq beta s (Z.of_nat N) false)))%nat -> let m := mkImfreq beta s (Z.of_nat N) false in
  nu s (if_to_index m (Z.of_nat (Z.to_nat (if_size m) - 1 - d))) = - nu s (if_to_index m (Z.of_nat d)).
Proof.
  intros Hd m. unfold m in *. rewrite size_pos in *. destruct N as [|M]; [lia|]. change (mkImfreq beta s (Z.of_nat (S M)) false) with (full_mesh beta s (S M)). rewrite !mesh_index. unfold nu. rewrite <- opp_IZR. f_equal. unfold len, first in *. destruct s; lia.
Qed.
Lemma msum_real beta s N b : 0 < beta -> good_pole s b -> Cconj (msum (mkImfreq beta s (Z.of_nat N) false) b) = msum (mkImfreq beta s (Z.of_nat N) false) b.
Proof.
  intros Hb Hg. unfold msum. rewrite conj_div_R, csum_conj. f_equal. apply csum_mirror. intros d Hd. cbn [if_beta if_stat]. set (m := mkImfreq beta s (Z.of_nat N) false) in *.
  rewrite (hinv_conj beta s b _ (if_to_index m (Z.of_nat (Z.to_nat (if_size m) - 1 - (Z.to_nat (if_size m) - 1 - d)))) Hb Hg); [do 3 f_equal; lia|]. apply (mirror_nu beta s N). fold m. lia.
Qed.
Lemma val_conj beta s N g km i j : 0 < beta -> let m := mkImfreq beta s (Z.of_nat N) false in
  (forall d, (d < Z.to_nat (if_size m))%nat -> g (Z.to_nat (if_size m) - 1 - d)%nat j i = Cconj (g d i j)) -> (forall k, mrow km k j i = Cconj (mrow km k i j)) ->
  Cconj (d_val m g km i j) = d_val m g km j i.
Proof.
  intros Hb m Hg Hk. assert (Hb0 : beta <> 0) by lra. unfold d_val. cbv zeta. rewrite conj_mult, conj_R. f_equal. rewrite !conj_plus, conj_div_R, !csum_conj, (Hk 1%nat). f_equal; [f_equal; f_equal|].
  - symmetry. apply csum_mirror. exact Hg.
  - apply csum_ext. intros k _. cbn [if_stat if_beta m]. rewrite conj_mult, weight_conj, conj_minus, one_real by (apply d_good || exact Hb0). fold m. unfold m. rewrite msum_real by (apply d_good || exact Hb). rewrite (Hk 2%nat), (Hk 3%nat). reflexivity.
Qed.
Lemma thm_hermitian fit beta s N n g km : 0 < beta -> matrices_given n km -> let m := mkImfreq beta s (Z.of_nat N) false in
  (forall d i j, (d < Z.to_nat (if_size m))%nat -> g (Z.to_nat (if_size m) - 1 - d)%nat j i = Cconj (g d i j)) ->
  (forall k i j, nth k km (fun _ _ => RtoC 0) j i = Cconj (nth k km (fun _ _ => RtoC 0) i j)) ->
  exists r, density_iw fit m n n g km = Ok r /\ forall i j, r j i = Cconj (r i j).
Proof.
  intros Hb Hm m Hg Hk. destruct (iw_ok fit m n g km Hb eq_refl Hm) as (r & E & V). exists r. split; [exact E|]. intros i j. rewrite !V.
  pose proof (val_conj beta s N g km i j Hb (fun d Hd => Hg d i j Hd) (fun k => Hk k i j)) as C1. cbv zeta in C1. fold m in C1.
  destruct (Nat.leb_spec j i), (Nat.leb_spec i j); try lia.
  - symmetry. exact C1.
  - rewrite conj_conj. reflexivity.
  - reflexivity.
Qed.
Lemma thm_triangle fit m n g km : 0 < if_beta m -> if_pos m = false -> matrices_given n km ->
  exists r, density_iw fit m n n g km = Ok r /\ forall i j, (i < j)%nat -> r j i = Cconj (r i j).
Proof.
  intros Hb Hp Hm. destruct (iw_ok fit m n g km Hb Hp Hm) as (r & E & V). exists r. split; [exact E|]. intros i j Hij. rewrite !V. destruct (Nat.leb_spec j i), (Nat.leb_spec i j); try lia. reflexivity.
Qed.
Lemma thm_fitted fit m n g km t err : (0 < n)%nat -> (1 <= length km <= 3)%nat -> (forall i j, (i < n)%nat -> (j < n)%nat -> Cmod (nth 0 km (fun _ _ => RtoC 0) i j) < / 10 ^ 8) ->
  fit g km = (t, err) -> err < / 10 ^ 2 -> (4 <= length t)%nat -> density_iw fit m n n g km = density_iw fit m n n g t.
Proof.
  intros Hn Hl H0 Ef He Ht. unfold density_iw at 1. destruct km as [|k0 km']; [cbn in Hl; lia|]. set (km := k0 :: km') in *. destruct (if_pos m) eqn:Hp; [unfold density_iw; rewrite Hp; reflexivity|].
  destruct (Nat.eqb_spec (n * n) 0) as [E|_]; [nia|]. rewrite below_ok by exact H0. cbn [negb]. destruct (Nat.ltb_spec (length km) 4); [|lia]. rewrite Ef. destruct (Rlt_dec err (/ 10 ^ 2)); [|contradiction].
  destruct (Nat.ltb_spec 3 (length t)); [|lia]. unfold density_iw. rewrite Hp. destruct (Nat.eqb_spec (n * n) 0) as [E|_]; [nia|]. destruct t as [|t0 t']; [cbn in Ht; lia|]. destruct (negb _); [reflexivity|].
  match goal with |- _ = (if (?x <? 4)%nat then _ else _) => replace (x <? 4)%nat with false by (symmetry; apply Nat.ltb_ge; exact Ht) end. reflexivity.
Qed.
Lemma thm_default_d fit m n g : (0 < n)%nat -> density_iw fit m n n g [] = density_iw fit m n n g [fun _ _ => RtoC 0].
Proof. reflexivity. Qed.
Lemma thm_rejects fit m n1 n2 g km : (0 < n1 * n2)%nat ->
  (if_pos m = true -> density_iw fit m n1 n2 g km = Throw) /\
  (forall i j, (i < n1)%nat -> (j < n2)%nat -> km <> [] -> / 10 ^ 8 <= Cmod (nth 0 km (fun _ _ => RtoC 0) i j) -> density_iw fit m n1 n2 g km = Throw) /\
  (forall t err, (length km < 4)%nat -> fit g (match km with [] => [fun _ _ => RtoC 0] | _ => km end) = (t, err) -> / 10 ^ 2 <= err \/ (length t < 4)%nat -> density_iw fit m n1 n2 g km = Throw).
Proof.
  intros Hn. unfold density_iw. split; [intros ->; reflexivity|]. destruct (Nat.eqb_spec (n1 * n2) 0); [lia|]. split.
  - intros i j Hi Hj Hk H. destruct km as [|k0 km']; [contradiction|]. destruct (if_pos m); [reflexivity|]. rewrite (below_no n1 n2 _ (mrow (k0 :: km') 0) i j Hi Hj H). reflexivity.
  - intros t err Hl Ef H. assert (Z : (if Rlt_dec err (/ 10 ^ 2) then if (3 <? length t)%nat then if negb (below n1 n2 (/ 10 ^ 8) (mrow t 0)) then Throw else density_known m n1 n2 g t else Throw else Throw) = Throw).
    { destruct (Rlt_dec err (/ 10 ^ 2)); [|reflexivity]. destruct (Nat.ltb_spec 3 (length t)) as [L3|]; [|reflexivity]. destruct H as [H|H]; [lra|exfalso; revert H L3; change (nat -> nat -> C) with mat; lia]. }
    destruct (if_pos m); [reflexivity|]. destruct km as [|k0 km']; [|destruct (Nat.ltb_spec (@length mat (k0 :: km')) 4) as [_|L]; [|exfalso; revert Hl L; change (nat -> nat -> C) with mat; lia]].
    + destruct (negb (below n1 n2 (/ 10 ^ 8) (mrow [fun _ _ => RtoC 0] 0))); [reflexivity|]. cbn [length Nat.ltb Nat.leb]. rewrite Ef. exact Z.
    + destruct (negb (below n1 n2 (/ 10 ^ 8) (mrow (k0 :: km') 0))); [reflexivity|]. rewrite Ef. match goal with |- (if ?b then _ else _) = _ => replace b with true by (symmetry; apply Nat.ltb_lt; exact Hl) end. exact Z.
Qed.
Lemma thm_not_square fit m n1 n2 g km : if_pos m = false -> (0 < n1)%nat -> (0 < n2)%nat -> n1 <> n2 -> (4 <= length km)%nat ->
  (forall i j, (i < n1)%nat -> (j < n2)%nat -> Cmod (nth 0 km (fun _ _ => RtoC 0) i j) < / 10 ^ 8) -> density_iw fit m n1 n2 g km = UB.
Proof.
  intros Hp H1 H2 Hn Hl H0. unfold density_iw. rewrite Hp. destruct (Nat.eqb_spec (n1 * n2) 0); [nia|]. destruct km as [|k0 km']; [cbn in Hl; lia|]. set (km := k0 :: km') in *.
  destruct (below n1 n2 (/ 10 ^ 8) (mrow km 0)) eqn:B.
  - cbn [negb]. destruct (Nat.ltb_spec (length km) 4); [lia|]. unfold density_known. destruct (Nat.eqb_spec n1 n2); [contradiction|]. reflexivity.
  - exfalso. enough (below n1 n2 (/ 10 ^ 8) (mrow km 0) = true) by congruence. unfold below. apply forallb_forall. intros i Hi. apply forallb_forall. intros j Hj. apply in_seq in Hi. apply in_seq in Hj.
    destruct (Rlt_dec (Cmod (mrow km 0 i j)) (/ 10 ^ 8)) as [_|N]; [reflexivity|]. exfalso. apply N. apply H0; lia.
Qed.

(** ---- real frequencies ---- *)
Lemma finish_eq dw acc i j : d_finish dw acc i j = Cmult (RtoC dw) (spectral acc i j).
Proof.
  pose proof PI_RGT_0. unfold d_finish, spectral. destruct (Nat.eqb_spec i j) as [->|N].
  - rewrite Nat.eqb_refl. apply Ceq; unfold Cdiv, Cminus; cbn; field; lra.
  - destruct (Nat.eqb_spec j i) as [E|_]; [congruence|]. apply Ceq; unfold Cdiv, Cminus; cbn; field; lra.
Qed.
Lemma spectral_sum {A} (l : list A) (f : A -> R) (g : A -> mat) i j :
  spectral (fun i j => csum l (fun d => Cmult (RtoC (f d)) (g d i j))) i j = csum l (fun d => Cmult (RtoC (f d)) (spectral (g d) i j)).
Proof.
  unfold spectral, Cdiv. rewrite csum_conj. induction l as [|x l IH]; [unfold csum; cbn [fold_right]; ring|]. rewrite !csum_cons, <- IH. rewrite conj_mult, conj_R. ring.
Qed.
Lemma thm_refreq m beta g i j :
  density_w m beta g i j = Cmult (RtoC (li_delta m)) (csum (seq 0 (Z.to_nat (li_L m))) (fun k => Cmult (RtoC (occupation Fermion beta (li_value m (Z.of_nat k)))) (spectral (g k) i j))).
Proof.
  unfold density_w. rewrite finish_eq. f_equal. rewrite <- spectral_sum. unfold spectral. rewrite !fold_csum, !Cplus_0_l.
  assert (E : forall i j, csum (seq 0 (li_rows m)) (fun d => Cdiv (g d i j) (RtoC (1 + exp (beta * li_pt m d)))) = csum (seq 0 (Z.to_nat (li_L m))) (fun k => Cmult (RtoC (occupation Fermion beta (li_value m (Z.of_nat k)))) (g k i j))).
  { intros i0 j0. apply csum_ext. intros k _. unfold occupation, li_pt. pose proof (exp_pos (beta * li_value m (Z.of_nat k))). replace (1 / (exp (beta * li_value m (Z.of_nat k)) - -1)) with (/ (1 + exp (beta * li_value m (Z.of_nat k)))) by (field; lra).
    rewrite RtoC_inv by lra. unfold Cdiv. ring. }
  rewrite !E. reflexivity.
Qed.
Lemma value_make a b N k : (0 < N)%nat -> li_value (li_make a b (Z.of_nat N + 1)) (Z.of_nat k) = a + tau_pt (b - a) N k.
Proof.
  intros HN. unfold li_value, li_make, tau_pt. cbn [li_L li_min li_max]. destruct (Z.eqb_spec (Z.of_nat N + 1) 1); [lia|]. rewrite plus_IZR, <- !INR_IZR_INZ. assert (0 < INR N) by (apply lt_0_INR; exact HN). field; lra.
Qed.
Lemma delta_make a b N : (0 < N)%nat -> li_delta (li_make a b (Z.of_nat N + 1)) = (b - a) / INR N.
Proof.
  intros HN. unfold li_make. cbn [li_delta]. destruct (Z.eqb_spec (Z.of_nat N + 1) 1); [lia|]. rewrite plus_IZR, <- !INR_IZR_INZ. f_equal. ring.
Qed.
Lemma cint_shift f a b I : cintegral f a b I -> cintegral (fun t => f (a + t)) 0 (b - a) I.
Proof.
  intros [H1 H2]. split.
  - apply (is_RInt_ext (fun y => scal 1 (fst (f (1 * y + a))))); [intros x _; unfold scal; cbn; unfold mult; cbn; rewrite Rmult_1_l; do 2 f_equal; ring|]. apply (is_RInt_comp_lin (fun t => fst (f t)) 1 a 0 (b - a)). replace (1 * 0 + a) with a by ring. replace (1 * (b - a) + a) with b by ring. exact H1.
  - apply (is_RInt_ext (fun y => scal 1 (snd (f (1 * y + a))))); [intros x _; unfold scal; cbn; unfold mult; cbn; rewrite Rmult_1_l; do 2 f_equal; ring|]. apply (is_RInt_comp_lin (fun t => snd (f t)) 1 a 0 (b - a)). replace (1 * 0 + a) with a by ring. replace (1 * (b - a) + a) with b by ring. exact H2.
Qed.
Lemma thm_refreq_limit beta a b (G : R -> mat) i j I : a < b -> cintegral (fun w => Cmult (RtoC (occupation Fermion beta w)) (spectral (G w) i j)) a b I ->
  forall eps, 0 < eps -> exists N0, forall N, (N0 <= N)%nat -> let m := li_make a b (Z.of_nat N + 1) in
    Cmod (Cminus (density_w m beta (fun k => G (li_value m (Z.of_nat k))) i j) I) < eps.
Proof.
  intros Hab HI eps He. set (F := fun w => Cmult (RtoC (occupation Fermion beta w)) (spectral (G w) i j)) in *.
  destruct (left_csums (fun t => F (a + t)) (b - a) I ltac:(lra) (cint_shift F a b I HI) (eps / 2) ltac:(lra)) as [N1 B1].
  destruct (archimed_cor1 (eps / 2 / ((b - a) * (Cmod (F b) + 1)))) as (N2 & B2 & P2). { pose proof (Cmod_ge_0 (F b)). apply Rdiv_lt_0_compat; [lra|nra]. }
  exists (S (N1 + N2)). intros N HN m. assert (HN0 : (0 < N)%nat) by lia. rewrite thm_refreq. unfold m. rewrite delta_make by exact HN0. cbn [li_make li_L]. replace (Z.to_nat (Z.of_nat N + 1)) with (S N) by lia.
  rewrite (csum_ext _ (fun k => F (a + tau_pt (b - a) N k))). 2:{ intros k _. fold (li_make a b (Z.of_nat N + 1)). rewrite value_make by exact HN0. reflexivity. }
  rewrite seq_S, csum_app. change (0 + N)%nat with N. unfold csum at 2. cbn [fold_right]. rewrite tau_L by exact HN0. replace (a + (b - a)) with b by ring.
  specialize (B1 N ltac:(lia) HN0). unfold total in B1. set (X := csum _ _) in *.
  replace (Cminus (Cmult (RtoC ((b - a) / INR N)) (Cplus X (Cplus (F b) (RtoC 0)))) I) with (Cplus (Cminus (Cmult (RtoC ((b - a) / INR N)) X) I) (Cmult (RtoC ((b - a) / INR N)) (F b))) by ring.
  eapply Rle_lt_trans; [apply Cmod_triangle|]. assert (Cmod (Cmult (RtoC ((b - a) / INR N)) (F b)) < eps / 2); [|lra].
  assert (PN : 0 < INR N) by (apply lt_0_INR; exact HN0). assert (PN2 : 0 < INR N2) by (apply lt_0_INR; exact P2). assert (LN : INR N2 <= INR N) by (apply le_INR; lia).
  rewrite Cmod_mult, Cmod_R, Rabs_pos_eq by (left; apply Rdiv_lt_0_compat; lra). pose proof (Cmod_ge_0 (F b)) as PF. set (c := Cmod (F b)) in *.
  assert (/ INR N <= / INR N2) by (apply Rinv_le_contravar; assumption). assert (Q : / INR N < eps / 2 / ((b - a) * (c + 1))) by lra.
  apply (Rmult_lt_compat_r ((b - a) * (c + 1))) in Q; [|nra]. replace (eps / 2 / ((b - a) * (c + 1)) * ((b - a) * (c + 1))) with (eps / 2) in Q by (field; repeat split; lra).
  assert (0 < / INR N) by (apply Rinv_0_lt_compat; exact PN). unfold Rdiv. assert (0 < (b - a) * / INR N) by nra. nra.
Qed.

(** zero temperature *)
Lemma built_eq m : li_built m -> 0 < li_delta m /\ (2 <= li_L m)%Z /\ forall k, li_value m k = li_min m + IZR k * li_delta m.
Proof.
  intros (a & b & n & Hn & Hab & ->). unfold li_make, li_value. cbn [li_L li_min li_max li_delta]. destruct (Z.eqb_spec n 1); [lia|]. assert (P : 0 < IZR n - 1) by (apply IZR_le in Hn; lra).
  split; [apply Rdiv_lt_0_compat; lra|]. split; [exact Hn|]. intros k. field. lra.
Qed.
Lemma built_max m : li_built m -> li_max m = li_min m + (IZR (li_L m) - 1) * li_delta m.
Proof.
  intros (a & b & n & Hn & Hab & ->). unfold li_make. cbn [li_L li_min li_max li_delta]. destruct (Z.eqb_spec n 1); [lia|]. assert (P : 0 < IZR n - 1) by (apply IZR_le in Hn; lra). field. lra.
Qed.
Lemma int_part_eq x k : IZR k <= x < IZR k + 1 -> Int_part x = k.
Proof.
  intros [H1 H2]. destruct (base_Int_part x) as [B1 B2]. assert (IZR (Int_part x) < IZR (k + 1)) by (rewrite plus_IZR; lra). assert (IZR k < IZR (Int_part x + 1)) by (rewrite plus_IZR; lra). apply lt_IZR in H, H0. lia.
Qed.
Lemma areas_eq h n f : areas h n f = Cmult (RtoC h) (Cminus (Cplus (Cmult (RtoC (1 / 2)) (f 0%nat)) (csum (seq 1 n) f)) (Cmult (RtoC (1 / 2)) (f n))).
Proof.
  induction n as [|n IH]; [unfold areas, csum; cbn [seq fold_right]; ring|]. unfold areas in *. rewrite (seq_S n 0), (seq_S n 1), !csum_app, IH. unfold csum at 2 4. cbn [fold_right Nat.add].
  replace (RtoC (h / 2)) with (Cmult (RtoC h) (RtoC (1 / 2))) by (apply Ceq; cbn; field).
  replace (csum (seq 1 n) f) with (Cplus (csum (seq 1 n) f) (RtoC 0)) at 2 by ring. set (hh := RtoC (1 / 2)). assert (E : Cplus hh hh = RtoC 1) by (apply Ceq; cbn; field).
  transitivity (Cmult (RtoC h) (Cplus (Cminus (Cplus (Cmult hh (f 0%nat)) (csum (seq 1 n) f)) (Cmult hh (f n))) (Cplus (Cmult hh (f n)) (Cmult hh (f (S n)))))); [ring|]. f_equal.
  replace (f (S n)) with (Cmult (Cplus hh hh) (f (S n))) at 2 by (rewrite E; ring). ring.
Qed.
Lemma spectral_lin2 (x y : mat) (a b : R) i j : spectral (fun i j => Cplus (Cmult (RtoC a) (x i j)) (Cmult (RtoC b) (y i j))) i j = Cplus (Cmult (RtoC a) (spectral x i j)) (Cmult (RtoC b) (spectral y i j)).
Proof. unfold spectral, Cdiv. rewrite conj_plus, !conj_mult, !conj_R. ring. Qed.
Lemma spectral_ext (x y : mat) i j : (forall i j, x i j = y i j) -> spectral x i j = spectral y i j.
Proof. intros H. unfold spectral. rewrite !H. reflexivity. Qed.
(** the first part of the sum *)
Lemma spectral_acc (g : nat -> mat) n i j : spectral (fun i j => fold_left (fun r d => Cplus r (g d i j)) (seq 1 n) (Cmult (RtoC (1 / 2)) (g 0%nat i j))) i j
  = Cplus (Cmult (RtoC (1 / 2)) (spectral (g 0%nat) i j)) (csum (seq 1 n) (fun d => spectral (g d) i j)).
Proof.
  transitivity (spectral (fun i j => Cplus (Cmult (RtoC (1 / 2)) (g 0%nat i j)) (Cmult (RtoC 1) (csum (seq 1 n) (fun d => Cmult (RtoC 1) (g d i j))))) i j).
  { apply spectral_ext. intros a b. rewrite fold_csum. f_equal. rewrite Cmult_1_l. apply csum_ext. intros. ring. }
  rewrite spectral_lin2, spectral_sum. f_equal. rewrite Cmult_1_l. apply csum_ext. intros. ring.
Qed.
Lemma w0_index m k : li_built m -> li_value m (Z.of_nat k) <= 0 < li_value m (Z.of_nat k) + li_delta m -> Int_part (- li_min m / li_delta m) = Z.of_nat k.
Proof.
  intros Hm. destruct (built_eq m Hm) as (P & _ & V). rewrite V. intros [H1 H2]. apply int_part_eq. split.
  - apply (Rmult_le_reg_r (li_delta m)); [exact P|]. unfold Rdiv. rewrite Rmult_assoc, Rinv_l by lra. lra.
  - apply (Rmult_lt_reg_r (li_delta m)); [exact P|]. unfold Rdiv. rewrite Rmult_assoc, Rinv_l by lra. lra.
Qed.
Lemma thm_zero_on_mesh m g k : li_built m -> li_min m < 0 -> (Z.of_nat k < li_L m)%Z -> - (/ 10 ^ 9) <= li_value m (Z.of_nat k) <= 0 -> 0 < li_value m (Z.of_nat k) + li_delta m ->
  exists r, density_w0 m g = Ok r /\ forall i j, r i j = areas (li_delta m) k (fun d => spectral (g d) i j).
Proof.
  intros Hm Hw Hk Hz Hp. destruct (built_eq m Hm) as (P & HL & V). pose proof (w0_index m k Hm (conj (proj2 Hz) Hp)) as I. unfold density_w0. cbv zeta. destruct (Rlt_dec (li_min m) 0); [|contradiction].
  destruct (Req_EM_T (li_delta m) 0); [lra|]. rewrite I. destruct (Z.ltb_spec (li_L m) (Z.of_nat k + 1)); [lia|]. rewrite V in Hz.
  destruct (Rlt_dec (/ 10 ^ 9) _) as [A|_].
  { exfalso. rewrite plus_IZR in A. replace (- li_min m - (IZR (Z.of_nat k) + 1 - 1) * li_delta m) with (- (li_min m + IZR (Z.of_nat k) * li_delta m)) in A by ring. rewrite Rabs_Ropp, Rabs_left1 in A by lra. lra. }
  eexists. split; [reflexivity|]. intros i j. rewrite finish_eq, areas_eq. f_equal. replace (Z.to_nat (Z.of_nat k + 1)) with (S k) by lia. replace (S k - 1)%nat with k by lia.
  rewrite <- spectral_acc. set (X := fun i j : nat => fold_left _ _ _).
  transitivity (spectral (fun i j => Cplus (Cmult (RtoC 1) (X i j)) (Cmult (RtoC (- (1 / 2))) (g k i j))) i j).
  { apply spectral_ext. intros a b. unfold X. replace (RtoC (- (1 / 2))) with (Copp (RtoC (1 / 2))) by (apply Ceq; cbn; ring). ring. }
  rewrite spectral_lin2. replace (RtoC (- (1 / 2))) with (Copp (RtoC (1 / 2))) by (apply Ceq; cbn; ring). unfold X. ring.
Qed.
Lemma thm_zero_between m g k : li_built m -> li_min m < 0 -> (Z.of_nat k + 1 < li_L m)%Z -> li_value m (Z.of_nat k) < - (/ 10 ^ 9) -> 0 < li_value m (Z.of_nat k) + li_delta m ->
  exists r, density_w0 m g = Ok r /\ forall i j, let A d := spectral (g d) i j in let a := - li_value m (Z.of_nat k) / li_delta m in
    r i j = Cplus (Cplus (areas (li_delta m) k A) (part_area (li_delta m) a (A k) (A (S k)))) (Cmult (RtoC (li_delta m * (a * (1 - a)))) (Cminus (A (S k)) (A k))).
Proof.
  intros Hm Hw Hk Hz Hp. destruct (built_eq m Hm) as (P & HL & V). assert (T9 : 0 < / 10 ^ 9) by (apply Rinv_0_lt_compat; apply pow_lt; lra). assert (Hz0 : li_value m (Z.of_nat k) <= 0) by lra. pose proof (w0_index m k Hm (conj Hz0 Hp)) as I. unfold density_w0. cbv zeta. destruct (Rlt_dec (li_min m) 0); [|contradiction].
  destruct (Req_EM_T (li_delta m) 0); [lra|]. rewrite I. destruct (Z.ltb_spec (li_L m) (Z.of_nat k + 1)); [lia|]. assert (E0 : - li_min m - (IZR (Z.of_nat k + 1) - 1) * li_delta m = - li_value m (Z.of_nat k)) by (rewrite V, plus_IZR; ring).
  rewrite E0. destruct (Rlt_dec (/ 10 ^ 9) _) as [_|A]. 2:{ exfalso. apply A. rewrite Rabs_Ropp, Rabs_left by lra. lra. }
  destruct (Z.leb_spec (li_L m) (Z.of_nat k + 1)); [lia|]. eexists. split; [reflexivity|]. intros i j. rewrite finish_eq. replace (Z.to_nat (Z.of_nat k + 1)) with (S k) by lia. replace (S k - 1)%nat with k by lia.
  set (a := - li_value m (Z.of_nat k) / li_delta m). rewrite areas_eq, <- spectral_acc. set (X := fun i j : nat => fold_left _ _ _).
  transitivity (Cmult (RtoC (li_delta m)) (spectral (fun i j => Cplus (Cmult (RtoC 1) (X i j)) (Cmult (RtoC (1 / 2)) (Cplus (Cmult (RtoC (a * a - 1)) (g k i j)) (Cmult (RtoC (a * (2 - a))) (g (S k) i j))))) i j)).
  { f_equal. apply spectral_ext. intros b c. unfold X. ring. }
  rewrite spectral_lin2. rewrite (spectral_lin2 (g k) (g (S k))). unfold part_area. fold (spectral X i j).
  assert (R1 : RtoC (a * a - 1) = Cminus (Cmult (RtoC a) (RtoC a)) (RtoC 1)) by (apply Ceq; cbn; ring).
  set (h := li_delta m). set (sk := spectral (g k) i j). set (sk1 := spectral (g (S k)) i j). set (sx := spectral X i j). clearbody a sk sk1 sx h. apply Ceq; cbn; field.
Qed.
Lemma thm_zero_out m g : li_built m -> li_max m < - (/ 10 ^ 9) -> density_w0 m g = UB.
Proof.
  intros Hm Hx. destruct (built_eq m Hm) as (P & HL & V). pose proof (built_max m Hm) as Mx. unfold density_w0. cbv zeta. destruct (Rlt_dec (li_min m) 0); [|reflexivity]. destruct (Req_EM_T (li_delta m) 0) as [|Nz]; [reflexivity|].
  assert (T9 : 0 < / 10 ^ 9) by (apply Rinv_0_lt_compat; apply pow_lt; lra). destruct (base_Int_part (- li_min m / li_delta m)) as [B1 B2]. set (n := Int_part (- li_min m / li_delta m)) in *.
  assert (H : (li_L m <= n + 1)%Z).
  { assert (Q : IZR (li_L m) - 1 < - li_min m / li_delta m). { apply (Rmult_lt_reg_r (li_delta m)); [exact P|]. unfold Rdiv. rewrite Rmult_assoc, Rinv_l by lra. lra. }
    assert (IZR (li_L m) < IZR (n + 2)) by (rewrite plus_IZR; lra). apply lt_IZR in H. lia. }
  destruct (Z.ltb_spec (li_L m) (n + 1)); [reflexivity|]. assert (E : n = (li_L m - 1)%Z) by lia. destruct (Z.leb_spec (li_L m) (n + 1)); [|lia]. destruct (Rlt_dec (/ 10 ^ 9) _) as [_|A]; [reflexivity|].
  exfalso. apply A. rewrite E. replace (li_L m - 1 + 1)%Z with (li_L m) by lia. replace (- li_min m - (IZR (li_L m) - 1) * li_delta m) with (- li_max m) by (rewrite Mx; ring). rewrite Rabs_Ropp, Rabs_left by lra. lra.
Qed.
