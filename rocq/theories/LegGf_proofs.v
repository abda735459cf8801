(** Proofs about Green's functions of Legendre coefficients. *)
From Coq Require Import ZArith NArith List Arith Bool Lia Reals Lra.
From Coquelicot Require Import Coquelicot.
From Verif Require Import Base Matsubara LinMesh ThermalSpec Csum LehmannSpec Legendre Legendre_proofs LegendrePoly LegOrth Fourier FourierSpec Fourier_dft Fourier_lat Fourier_tail Fourier_mats Density Density_proofs LegGf LegGfSpec LegGf_int.
Import ListNotations.
Local Open Scope R_scope.

(** ---- the generator ---- *)
Fixpoint lg_iter (k : nat) (g : lgen) : lgen := match k with O => g | S k' => lg_iter k' (snd (lg_next g)) end.
Lemma calls_nth k : forall g i, (i < k)%nat -> nth i (lg_calls k g) 0 = fst (lg_next (lg_iter i g)).
Proof.
  induction k as [|k IH]; intros g i Hi; [lia|]. cbn [lg_calls]. destruct (lg_next g) as [v g'] eqn:E. destruct i as [|i]; cbn [nth lg_iter]; [rewrite E; reflexivity|]. rewrite E. cbn [snd]. apply IH. lia.
Qed.
Lemma iter_S k : forall g, lg_iter (S k) g = snd (lg_next (lg_iter k g)).
Proof. induction k as [|k IH]; intros g; [reflexivity|]. change (lg_iter (S (S k)) g) with (lg_iter (S k) (snd (lg_next g))). rewrite IH. reflexivity. Qed.
Lemma P_bonnet x : bonnet x (fun n => P n x).
Proof.
  split; [reflexivity|]. split; [reflexivity|]. intros n Hn. destruct n as [|[|n]]; try lia. replace (S (S n) - 1)%nat with (S n) by lia. replace (S (S n) - 2)%nat with n by lia. rewrite P_rec, !S_INR. pose proof (pos_INR n). field. lra.
Qed.
Lemma next_P x l : fst (lg_next (lg_iter l (lg_reset x))) = P l x.
Proof.
  rewrite <- (calls_nth (S l)) by lia. rewrite (thm_lg x (fun n => P n x) (S l) (P_bonnet x)). rewrite (nth_indep _ 0 (P 0%nat x)) by (rewrite map_length, seq_length; lia). rewrite (map_nth (fun n => P n x)). rewrite seq_nth by lia. reflexivity.
Qed.
(** a loop that calls the generator once for each l and adds *)
Lemma lg_loop x (F : nat -> R -> C) k : forall a z, 
  fold_left (fun (st : lgen * C) l => let (v, L) := lg_next (fst st) in (L, Cplus (snd st) (F l v))) (seq a k) (lg_iter a (lg_reset x), z)
  = (lg_iter (a + k) (lg_reset x), Cplus z (csum (seq a k) (fun l => F l (P l x)))).
Proof.
  induction k as [|k IH]; intros a z; cbn [seq fold_left].
  - rewrite Nat.add_0_r. f_equal. cbn. ring.
  - cbn [fst snd]. destruct (lg_next (lg_iter a (lg_reset x))) as [v L] eqn:E. replace L with (lg_iter (S a) (lg_reset x)) by (rewrite iter_S, E; reflexivity). rewrite IH. rewrite csum_cons.
    replace v with (P a x) by (rewrite <- next_P, E; reflexivity). replace (S a + k)%nat with (a + S k)%nat by lia. f_equal. ring.
Qed.
Lemma INR_odd l : INR (2 * l + 1) = 2 * INR l + 1. Proof. rewrite plus_INR, mult_INR. cbn [INR]. ring. Qed.

(** ---- to imaginary time ---- *)
Lemma to_tau_gen tm nl gl j c : leg_to_tau tm nl gl j c = leg_function (it_beta tm) nl (fun l => gl l c) (it_pt tm j).
Proof.
  unfold leg_to_tau. cbv zeta. change (lg_reset (2 * it_pt tm j / it_beta tm - 1)) with (lg_iter 0 (lg_reset (2 * it_pt tm j / it_beta tm - 1))).
  rewrite (lg_loop _ (fun l v => Cmult (Cmult (RtoC (sqrt (INR (2 * l + 1)) / it_beta tm)) (gl l c)) (RtoC v)) nl 0 (RtoC 0)). cbn [snd]. unfold leg_function, total.
  rewrite Cplus_0_l. apply csum_ext. intros l _. rewrite INR_odd, RtoC_mult. ring.
Qed.
Lemma tau_mesh_pt beta s L j : (0 < L)%nat -> it_pt (tau_mesh beta s L) j = tau_pt beta L j.
Proof. intros HL. unfold it_pt, li_pt, tau_mesh, it_make. cbn [it_lin]. rewrite value_make by exact HL. replace (beta - 0) with beta by ring. ring. Qed.
Lemma thm_to_tau beta s L nl gl j c : (0 < L)%nat -> leg_to_tau (tau_mesh beta s L) nl gl j c = leg_function beta nl (fun l => gl l c) (tau_pt beta L j).
Proof. intros HL. rewrite to_tau_gen, tau_mesh_pt by exact HL. reflexivity. Qed.
Lemma thm_eval beta nl gl tau c : (0 < nl)%nat -> beta <> 0 -> leg_eval beta nl gl tau c = Ok (leg_function beta nl (fun l => gl l c) tau).
Proof.
  intros Hn Hb. destruct nl as [|k]; [lia|]. unfold leg_eval. cbv zeta. f_equal. set (x := 2 * tau / beta - 1).
  pose (F := fun l v => Cdiv (Cmult (Cmult (gl l c) (RtoC (sqrt (INR (2 * l + 1))))) (RtoC v)) (RtoC beta)).
  destruct (lg_next (lg_reset x)) as [v L] eqn:E. replace L with (lg_iter 1 (lg_reset x)) by (cbn [lg_iter]; rewrite E; reflexivity).
  replace v with (P 0 x) by (rewrite <- (next_P x 0); cbn [lg_iter]; rewrite E; reflexivity).
  assert (X : forall st l, (let (L0, x0) := let (v0, L') := lg_next (fst st) in (L', F l v0) in (L0, Cplus (snd st) x0)) = (let (v0, L') := lg_next (fst st) in (L', Cplus (snd st) (F l v0)))) by (intros st l; destruct (lg_next (fst st)); reflexivity).
  match goal with |- snd (fold_left ?f _ ?s0) = _ => assert (Y : forall l0 s1, fold_left f l0 s1 = fold_left (fun (st : lgen * C) l => let (v0, L') := lg_next (fst st) in (L', Cplus (snd st) (F l v0))) l0 s1) end.
  { induction l0 as [|a l0 IH]; intros s1; [reflexivity|]. cbn [fold_left]. rewrite IH. f_equal. apply (X s1 a). }
  rewrite Y, lg_loop. cbn [snd]. unfold leg_function, total. cbn [seq]. rewrite csum_cons.
  assert (Fe : forall l, F l (P l x) = Cmult (RtoC (sqrt (2 * INR l + 1) / beta * P l x)) (gl l c)).
  { intros l. unfold F. rewrite INR_odd. unfold Rdiv. rewrite !RtoC_mult, RtoC_inv by exact Hb. unfold Cdiv. ring. }
  change (Cdiv (Cmult (Cmult (gl 0%nat c) (RtoC (sqrt (INR (2 * 0 + 1))))) (RtoC (P 0 x))) (RtoC beta)) with (F 0%nat (P 0 x)). rewrite Fe. f_equal. apply csum_ext. intros l _. apply Fe.
Qed.

(** ---- from imaginary time ---- *)
Lemma lg_pass x (F : nat -> R -> nat -> C) k : forall a (g : data),
  let st := fold_left (fun (st : lgen * data) l => let (v, L) := lg_next (fst st) in (L, fun l' c => if (l' =? l)%nat then Cplus (snd st l' c) (F l v c) else snd st l' c)) (seq a k) (lg_iter a (lg_reset x), g) in
  forall l c, snd st l c = if ((a <=? l) && (l <? a + k))%nat then Cplus (g l c) (F l (P l x) c) else g l c.
Proof.
  induction k as [|k IH]; intros a g st l c.
  - subst st. cbn [seq fold_left snd]. destruct (Nat.leb_spec a l); destruct (Nat.ltb_spec l (a + 0)); cbn [andb]; try lia; reflexivity.
  - subst st. cbn [seq fold_left fst snd]. destruct (lg_next (lg_iter a (lg_reset x))) as [v L] eqn:E. replace L with (lg_iter (S a) (lg_reset x)) by (rewrite iter_S, E; reflexivity).
    rewrite (IH (S a)). replace v with (P a x) by (rewrite <- next_P, E; reflexivity).
    destruct (Nat.leb_spec (S a) l); destruct (Nat.ltb_spec l (S a + k)); destruct (Nat.leb_spec a l); destruct (Nat.ltb_spec l (a + S k)); destruct (Nat.eqb_spec l a); cbn [andb]; try lia; try reflexivity. subst. reflexivity.
Qed.
Lemma from_tau_gen nl tm gt l c : (l < nl)%nat ->
  tau_to_leg nl tm gt l c = Cmult (csum (seq 0 (it_rows tm)) (fun j => Cmult (RtoC ((if ((Z.of_nat j =? 0) || (Z.of_nat j =? li_L (it_lin tm) - 1))%Z then 1 / 2 else 1) * sqrt (INR (2 * l + 1)) * P l (2 * it_pt tm j / it_beta tm - 1))) (gt j c))) (RtoC (li_delta (it_lin tm))).
Proof.
  intros Hl. unfold tau_to_leg. cbv zeta. f_equal. set (N := (li_L (it_lin tm) - 1)%Z). set (coef := fun j => if ((Z.of_nat j =? 0) || (Z.of_nat j =? N))%Z then 1 / 2 else 1).
  match goal with |- fold_left ?f _ _ l c = _ => assert (Y : forall js (g : data), fold_left f js g l c = Cplus (g l c) (csum js (fun j => Cmult (RtoC (coef j * sqrt (INR (2 * l + 1)) * P l (2 * it_pt tm j / it_beta tm - 1))) (gt j c)))) end.
  { induction js as [|j js IH]; intros g; cbn [fold_left]; [cbn; ring|]. rewrite IH, csum_cons.
    pose proof (lg_pass (2 * it_pt tm j / it_beta tm - 1) (fun l v c => Cmult (RtoC (coef j * sqrt (INR (2 * l + 1)) * v)) (gt j c)) nl 0 g) as A. cbv zeta in A. cbn [lg_iter] in A. fold (coef j). rewrite A.
    replace ((0 <=? l) && (l <? 0 + nl))%nat with true by (symmetry; apply andb_true_iff; split; [apply Nat.leb_le; lia|apply Nat.ltb_lt; lia]). ring. }
  rewrite Y. fold coef. cbv beta. rewrite Cplus_0_l. reflexivity.
Qed.
Lemma trap_sum L (f : nat -> C) : (0 < L)%nat -> csum (seq 0 (S L)) (fun j => Cmult (RtoC (if ((Z.of_nat j =? 0) || (Z.of_nat j =? Z.of_nat L))%Z then 1 / 2 else 1)) (f j)) =
  Cplus (total L f) (Cmult (RtoC (1 / 2)) (Cminus (f L) (f 0%nat))).
Proof.
  intros HL. unfold total. rewrite csum_S. destruct L as [|L]; [lia|].
  assert (E : forall k, (k <= L)%nat -> csum (seq 0 (S k)) (fun j => Cmult (RtoC (if ((Z.of_nat j =? 0) || (Z.of_nat j =? Z.of_nat (S L)))%Z then 1 / 2 else 1)) (f j)) = Cminus (csum (seq 0 (S k)) f) (Cmult (RtoC (1 / 2)) (f 0%nat))).
  { induction k as [|k IH]; intros Hk.
    - cbn [seq]. rewrite !csum_cons. change (Z.of_nat 0 =? 0)%Z with true. cbn [orb csum fold_right]. change (csum [] ?h) with (RtoC 0). apply Ceq; cbn; lra.
    - rewrite (csum_S _ (S k)), IH by lia. rewrite (csum_S f (S k)). destruct (Z.eqb_spec (Z.of_nat (S k)) 0); [lia|]. destruct (Z.eqb_spec (Z.of_nat (S k)) (Z.of_nat (S L))); [lia|]. cbn [orb]. ring. }
  rewrite (E L (le_n L)). rewrite Z.eqb_refl, orb_true_r. ring.
Qed.
Lemma li_L_make a b N : li_L (li_make a b (Z.of_nat N + 1)) = (Z.of_nat N + 1)%Z. Proof. reflexivity. Qed.
Lemma rows_tau beta s L : it_rows (tau_mesh beta s L) = S L.
Proof. unfold it_rows, li_rows, tau_mesh, it_make. cbn [it_lin]. rewrite li_L_make. lia. Qed.
Lemma thm_from_tau nl beta s L gt l c : (0 < L)%nat -> (l < nl)%nat ->
  tau_to_leg nl (tau_mesh beta s L) gt l c = trapezoid beta L (fun j => Cmult (RtoC (leg_weight beta l (tau_pt beta L j))) (gt j c)).
Proof.
  intros HL Hl. rewrite from_tau_gen by exact Hl. rewrite rows_tau. unfold trapezoid. rewrite <- (trap_sum L (fun j => Cmult (RtoC (leg_weight beta l (tau_pt beta L j))) (gt j c)) HL).
  replace (li_delta (it_lin (tau_mesh beta s L))) with (beta / INR L) by (unfold tau_mesh, it_make; cbn [it_lin]; rewrite delta_make by exact HL; f_equal; ring). rewrite Cmult_comm. f_equal.
  apply csum_ext. intros j _. rewrite tau_mesh_pt by exact HL. change (it_beta (tau_mesh beta s L)) with beta. unfold tau_mesh, it_make. cbn [it_lin]. rewrite li_L_make. replace (Z.of_nat L + 1 - 1)%Z with (Z.of_nat L) by lia.
  unfold leg_weight. rewrite INR_odd, !RtoC_mult. ring.
Qed.
Lemma thm_from_tau_limit nl beta s (g : nat -> R -> C) l c z : 0 < beta -> (l < nl)%nat -> leg_coefficient beta l (g c) z ->
  forall eps, 0 < eps -> exists N, forall L, (N <= L)%nat -> Cmod (Cminus (tau_to_leg nl (tau_mesh beta s L) (fun j c => g c (tau_pt beta L j)) l c) z) < eps.
Proof.
  intros Hb Hl Hz eps He. destruct (trapezoid_limit _ beta z Hb Hz eps He) as [N B]. exists (S N). intros L HL. rewrite thm_from_tau by (try exact Hl; lia). apply B; lia.
Qed.
Lemma trapezoid_ext b n f g : (forall j, (j <= n)%nat -> f j = g j) -> trapezoid b n f = trapezoid b n g.
Proof. intros H. unfold trapezoid, total. rewrite (H n), (H 0%nat) by lia. do 2 f_equal. apply csum_ext. intros j Hj. apply in_seq in Hj. apply H. lia. Qed.
Lemma thm_leg_round nl nl' beta s s' gl l c : 0 < beta -> (l < nl)%nat -> (l < nl')%nat ->
  forall eps, 0 < eps -> exists N, forall L, (N <= L)%nat -> Cmod (Cminus (tau_to_leg nl' (tau_mesh beta s L) (leg_to_tau (tau_mesh beta s' L) nl gl) l c) (gl l c)) < eps.
Proof.
  intros Hb Hl Hl' eps He. destruct (thm_from_tau_limit nl' beta s (fun c => leg_function beta nl (fun l => gl l c)) l c (gl l c) Hb Hl' (leg_coeff beta nl (fun l => gl l c) l Hb Hl) eps He) as [N B].
  exists (S N). intros L HL. specialize (B L ltac:(lia)). rewrite thm_from_tau in B |- * by (try exact Hl'; lia). erewrite trapezoid_ext; [exact B|]. intros j _. cbv beta. rewrite thm_to_tau by lia. reflexivity.
Qed.
(** also beyond the given coefficients *)
Lemma fun_pad beta nl gl k t : leg_function beta (nl + k) (fun l => if (l <? nl)%nat then gl l else RtoC 0) t = leg_function beta nl gl t.
Proof.
  unfold leg_function, total. rewrite seq_app, csum_app. rewrite (csum_zero _ (seq (0 + nl) k)).
  - rewrite Cplus_0_r. apply csum_ext. intros l Hl. apply in_seq in Hl. destruct (Nat.ltb_spec l nl); [reflexivity|lia].
  - intros l Hl. apply in_seq in Hl. destruct (Nat.ltb_spec l nl); [lia|ring].
Qed.
Lemma thm_coefficients beta nl gl l : 0 < beta -> leg_coefficient beta l (leg_function beta nl gl) (if (l <? nl)%nat then gl l else RtoC 0).
Proof.
  intros Hb. pose proof (leg_coeff beta (nl + S l) (fun l => if (l <? nl)%nat then gl l else RtoC 0) l Hb ltac:(lia)) as A. unfold leg_coefficient in *. eapply cint_ext; [|exact A]. intros t. cbv beta. rewrite fun_pad. reflexivity.
Qed.
Lemma thm_leg_round_all nl nl' beta s s' gl l c : 0 < beta -> (l < nl')%nat ->
  forall eps, 0 < eps -> exists N, forall L, (N <= L)%nat -> Cmod (Cminus (tau_to_leg nl' (tau_mesh beta s L) (leg_to_tau (tau_mesh beta s' L) nl gl) l c) (if (l <? nl)%nat then gl l c else RtoC 0)) < eps.
Proof.
  intros Hb Hl' eps He. destruct (thm_from_tau_limit nl' beta s (fun c => leg_function beta nl (fun l => gl l c)) l c _ Hb Hl' (thm_coefficients beta nl (fun l => gl l c) l Hb) eps He) as [N B].
  exists (S N). intros L HL. specialize (B L ltac:(lia)). rewrite thm_from_tau in B |- * by (try exact Hl'; lia). erewrite trapezoid_ext; [exact B|]. intros j _. cbv beta. rewrite thm_to_tau by lia. reflexivity.
Qed.
