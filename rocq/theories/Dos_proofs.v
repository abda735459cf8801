From Coq Require Import ZArith Reals List Bool Lia Lra Psatz.
From Coquelicot Require Import Complex.
From Verif Require Import Base MpiSlice MpiSlice_props Dos DosSpec.
Import ListNotations.
Local Open Scope R_scope.

Lemma fold_plus l : forall s, fold_left Rplus l s = s + add l.
Proof. induction l as [|x l IH]; intros s; cbn [fold_left add]; [lra|]. rewrite IH. lra. Qed.
Lemma rsum_add l : rsum l = add l.
Proof. unfold rsum. rewrite fold_plus. lra. Qed.

(** * density *)
Lemma uniform_above d : 0 < d -> forall es e, uniform d (e :: es) -> forall mu, mu <= e -> forall rs, filled (e :: es) rs mu = 0.
Proof.
  intros Hd. induction es as [|e1 es IH]; intros e U mu Hm [|r0 [|r1 rs]]; try reflexivity. destruct U as [U1 U].
  change (filled (e :: e1 :: es) (r0 :: r1 :: rs) mu) with ((Rmin mu e1 - Rmin mu e) * ((r0 + r1) / 2) + filled (e1 :: es) (r1 :: rs) mu).
  rewrite IH by (auto; lra). unfold Rmin. destruct (Rle_dec mu e1), (Rle_dec mu e); lra.
Qed.
Lemma density_sum d mu : 0 < d -> forall es e0 r0 rs, uniform d (e0 :: es) -> length rs = length es -> e0 <= mu ->
  let k := first_above mu es in
  (add (r0 :: firstn k rs) - r0 / 2 - nth k (r0 :: rs) 0 / 2) * d +
  (if (k <? length es)%nat then (mu - nth k (e0 :: es) 0) * (nth k (r0 :: rs) 0 + nth k rs 0) / 2 else 0) = filled (e0 :: es) (r0 :: rs) mu.
Proof.
  intros Hd. induction es as [|e1 es IH]; intros e0 r0 rs U L Hm.
  - destruct rs; [|discriminate L]. cbn. lra.
  - destruct rs as [|r1 rs]; [discriminate L|]. injection L as L. destruct U as [U1 U].
    change (filled (e0 :: e1 :: es) (r0 :: r1 :: rs) mu) with ((Rmin mu e1 - Rmin mu e0) * ((r0 + r1) / 2) + filled (e1 :: es) (r1 :: rs) mu).
    cbn [first_above]. destruct (Rlt_dec mu e1) as [H|H].
    + cbv zeta. cbn [firstn add nth length Nat.ltb Nat.leb]. rewrite (uniform_above d Hd es e1 U mu) by lra. unfold Rmin. destruct (Rle_dec mu e1), (Rle_dec mu e0); try lra.
      replace e0 with mu by lra. lra.
    + specialize (IH e1 r1 rs U L ltac:(lra)). cbv zeta in IH |- *. rewrite <- IH. cbn [firstn add length]. change (S (first_above mu es) <? S (length es))%nat with (first_above mu es <? length es)%nat.
      change (nth (S (first_above mu es)) (r0 :: r1 :: rs) 0) with (nth (first_above mu es) (r1 :: rs) 0).
      change (nth (S (first_above mu es)) (e0 :: e1 :: es) 0) with (nth (first_above mu es) (e1 :: es) 0).
      change (nth (S (first_above mu es)) (r1 :: rs) 0) with (nth (first_above mu es) rs 0). cbn [add].
      rewrite (Rmin_right mu e1), (Rmin_right mu e0) by lra. replace (e1 - e0) with d by lra. destruct (first_above mu es <? length es)%nat; lra.
Qed.
Lemma first_above_le mu l : (first_above mu l <= length l)%nat.
Proof. induction l as [|e l IH]; cbn [first_above length]; [lia|]. destruct (Rlt_dec mu e); lia. Qed.
Lemma py_at_nat l (i : nat) : (i < length l)%nat -> py_at l (Z.of_nat i) = Ok (nth i l 0).
Proof.
  intros H. unfold py_at. replace (Z.of_nat i <? 0)%Z with false by (symmetry; apply Z.ltb_ge; lia). replace (Z.of_nat i <? 0)%Z with false by (symmetry; apply Z.ltb_ge; lia).
  rewrite Nat2Z.id. rewrite (nth_error_nth' l 0 H). reflexivity.
Qed.
Lemma density_filled d eps rho mu : 0 < d -> uniform d eps -> length rho = length eps -> (2 <= length eps)%nat -> nth 0 eps 0 <= mu ->
  density eps rho mu = Ok (filled eps rho mu).
Proof.
  intros Hd U L L2 Hm. destruct eps as [|e0 es]; [cbn in L2; lia|]. destruct rho as [|r0 rs]; [discriminate L|]. cbn [length] in L. injection L as L. cbn [nth] in Hm.
  unfold density. cbn [first_above]. destruct (Rlt_dec mu e0) as [F|_]; [lra|]. set (k := first_above mu es).
  change 1%Z with (Z.of_nat 1). change 0%Z with (Z.of_nat 0). rewrite !py_at_nat by (cbn [length] in *; lia).
  replace (Z.of_nat (S k) - Z.of_nat 1)%Z with (Z.of_nat k) by lia. pose proof (first_above_le mu es) as Hk. fold k in Hk.
  rewrite !py_at_nat by (cbn [length]; lia). cbn [bind]. replace (nth 1 (e0 :: es) 0 - nth 0 (e0 :: es) 0) with d.
  2: { destruct es as [|e1 es]; [cbn in L2; lia|]. destruct U as [-> _]. cbn [nth]. lra. }
  rewrite rsum_add. cbn [firstn nth]. pose proof (density_sum d mu Hd es e0 r0 rs U L Hm) as G. cbv zeta in G. fold k in G.
  cbn [length]. change (S k <? S (length es))%nat with (k <? length es)%nat. destruct (k <? length es)%nat eqn:E.
  - apply Nat.ltb_lt in E. rewrite py_at_nat by (cbn [length]; lia). cbn [bind]. f_equal. rewrite <- G. cbn [nth]. destruct k; cbn [nth]; lra.
  - f_equal. rewrite <- G. cbn [nth]. destruct k; cbn [nth]; lra.
Qed.
Lemma filled_mono mu mu' : mu <= mu' -> forall d, 0 < d -> forall eps rho, uniform d eps -> Forall (fun r => 0 <= r) rho -> filled eps rho mu <= filled eps rho mu'.
Proof.
  intros H d Hd. induction eps as [|e0 es IH]; intros rho U Hr; [cbn; lra|]. destruct es as [|e1 es]; [destruct rho; cbn; lra|].
  destruct rho as [|r0 [|r1 rs]]; [cbn; lra|cbn; lra|]. destruct U as [U1 U].
  inversion_clear Hr as [|? ? H0 Hr']. pose proof (Forall_inv Hr') as H1. specialize (IH (r1 :: rs) U Hr').
  change (filled (e0 :: e1 :: es) (r0 :: r1 :: rs) mu) with ((Rmin mu e1 - Rmin mu e0) * ((r0 + r1) / 2) + filled (e1 :: es) (r1 :: rs) mu).
  change (filled (e0 :: e1 :: es) (r0 :: r1 :: rs) mu') with ((Rmin mu' e1 - Rmin mu' e0) * ((r0 + r1) / 2) + filled (e1 :: es) (r1 :: rs) mu').
  apply Rplus_le_compat; [|exact IH]. apply Rmult_le_compat_r; [lra|]. unfold Rmin. repeat destruct (Rle_dec _ _); lra.
Qed.
(** below the grid *)
Lemma density_below e0 e1 es r0 rs mu : mu < e0 -> length rs = S (length es) ->
  density (e0 :: e1 :: es) (r0 :: rs) mu =
    Ok ((- r0 / 2 - last rs 0 / 2) * (e1 - e0) + (mu - last (e1 :: es) 0) * (last rs 0 + r0) / 2).
Proof.
  intros Hm L. unfold density. cbn [first_above]. destruct (Rlt_dec mu e0) as [_|F]; [|lra].
  assert (last_nth : forall (l : list R) x, last (x :: l) 0 = nth (length l) (x :: l) 0).
  { induction l as [|y l IH]; intros x; [reflexivity|]. change (last (x :: y :: l) 0) with (last (y :: l) 0). rewrite IH. reflexivity. }
  assert (P : forall (l : list R) x y, py_at (x :: y :: l) (Z.of_nat 0 - 1) = Ok (last (y :: l) 0)).
  { intros l x y. unfold py_at. change (Z.of_nat 0 - 1 <? 0)%Z with true. cbv iota. cbn [length]. replace (Z.of_nat 0 - 1 + Z.of_nat (S (S (length l))))%Z with (Z.of_nat (S (length l))) by lia.
    replace (Z.of_nat (S (length l)) <? 0)%Z with false by (symmetry; apply Z.ltb_ge; lia). rewrite Nat2Z.id, last_nth. cbn [nth_error]. rewrite (nth_error_nth' (y :: l) 0) by (cbn; lia). reflexivity. }
  destruct rs as [|r1 rs]; [discriminate L|]. rewrite !P.
  change 1%Z with (Z.of_nat 1). change 0%Z with (Z.of_nat 0). rewrite !py_at_nat by (cbn [length]; lia). cbn [bind].
  cbn [length Nat.ltb Nat.leb]. f_equal. cbn [nth firstn]. rewrite rsum_add. cbn [add]. lra.
Qed.

(** * grids of functions *)
Lemma uniform_map d x : forall n a, uniform d (map (fun i => x + d * INR i) (seq a n)).
Proof. induction n as [|n IH]; intros a; [exact I|]. destruct n as [|n]; [exact I|]. split; [rewrite S_INR; ring|apply (IH (S a))]. Qed.

(** * weights *)
Lemma add_scale c l : add (map (fun x => x / c) l) = add l / c.
Proof. induction l as [|x l IH]; cbn [map add]; [lra|]. rewrite IH. lra. Qed.
Lemma add_nonneg l : Forall (fun x => 0 <= x) l -> 0 <= add l.
Proof. induction 1; cbn [add]; lra. Qed.

(** * Hilbert transforms *)
Lemma fold_ht z s mu eta : forall l acc, fold_left (ht_term z s mu eta) l acc = Cplus acc (hilbert (map fst l) (map snd l) (Cminus (Cplus z (mu, eta)) s)).
Proof.
  induction l as [|[d e] l IH]; intros acc; cbn [fold_left map hilbert fst snd]; [ring|]. rewrite IH. unfold ht_term. cbn [fst snd]. unfold Cdiv. ring.
Qed.
Lemma combine_split (A B : Type) (l : list (A * B)) : combine (map fst l) (map snd l) = l.
Proof. induction l as [|[a b] l IH]; cbn; [reflexivity|]. rewrite IH. reflexivity. Qed.
Lemma map_fst_combine (A B : Type) : forall (l : list A) (m : list B), length l = length m -> map fst (combine l m) = l.
Proof. induction l as [|a l IH]; intros [|b m] H; cbn in *; try discriminate; auto. f_equal. apply IH. lia. Qed.
Lemma map_snd_combine (A B : Type) : forall (l : list A) (m : list B), length l = length m -> map snd (combine l m) = m.
Proof. induction l as [|a l IH]; intros [|b m] H; cbn in *; try discriminate; auto. f_equal. apply IH. lia. Qed.
Lemma slice_map (A B : Type) (f : A -> B) size rank l : slice_array size rank (map f l) = map f (slice_array size rank l).
Proof. unfold slice_array, py_slice. rewrite map_length. rewrite skipn_map, firstn_map. reflexivity. Qed.
Lemma hilbert_app x : forall l l', hilbert (map fst (l ++ l')) (map snd (l ++ l')) x = Cplus (hilbert (map fst l) (map snd l) x) (hilbert (map fst l') (map snd l') x).
Proof. induction l as [|[d e] l IH]; intros l'; cbn [app map hilbert fst snd]; [ring|]. rewrite IH. ring. Qed.
Lemma ht_sum size w eps z s mu eta : (1 <= size)%Z -> length w = length eps ->
  ht size w eps z s mu eta = hilbert w eps (Cminus (Cplus z (mu, eta)) s).
Proof.
  intros Hs L. set (x := Cminus (Cplus z (mu, eta)) s). set (l := combine w eps).
  assert (Ew : map fst l = w) by (apply map_fst_combine; exact L). assert (Ee : map snd l = eps) by (apply map_snd_combine; exact L).
  assert (Er : forall r, ht_rank size r w eps z s mu eta = hilbert (map fst (slice_array size r l)) (map snd (slice_array size r l)) x).
  { intros r. unfold ht_rank. rewrite <- Ew at 1. rewrite <- Ee at 1. rewrite !slice_map, combine_split, fold_ht. fold x. ring. }
  unfold ht. rewrite (map_ext _ (fun r => hilbert (map fst (slice_array size (Z.of_nat r) l)) (map snd (slice_array size (Z.of_nat r) l)) x)) by (intros r; apply Er).
  pose proof (C56_slice_array _ size l Hs) as G.
  assert (F : forall rs acc, fold_left Cplus (map (fun r => hilbert (map fst (slice_array size (Z.of_nat r) l)) (map snd (slice_array size (Z.of_nat r) l)) x) rs) acc =
    Cplus acc (hilbert (map fst (concat (map (fun r => slice_array size (Z.of_nat r) l) rs))) (map snd (concat (map (fun r => slice_array size (Z.of_nat r) l) rs))) x)).
  { induction rs as [|r rs IH]; intros acc; cbn [map fold_left concat]; [cbn; ring|]. rewrite IH, hilbert_app. ring. }
  rewrite F, G, Ew, Ee. ring.
Qed.
Lemma div_nonneg a b : 0 <= a -> 0 < b -> 0 <= a / b.
Proof. intros H H'. apply Rmult_le_pos; [exact H|]. left. apply Rinv_0_lt_compat. exact H'. Qed.
Lemma sq_pos u v : 0 < v -> 0 < u ^ 2 + v ^ 2.
Proof. intros H. pose proof (pow2_ge_0 u). assert (0 < v ^ 2) by (apply pow_lt; exact H). lra. Qed.
(** each term has a negative imaginary part *)
Lemma im_term d e x : 0 < snd x -> snd (Cdiv (RtoC d) (Cminus x (RtoC e))) = - d * snd x / ((fst x - e) ^ 2 + snd x ^ 2).
Proof.
  intros Hx. destruct x as [a b]. cbn [fst snd] in *. unfold Cdiv, Cinv, Cminus, Cplus, Copp, Cmult, RtoC. cbn [fst snd].
  assert ((a - e) ^ 2 + b ^ 2 <> 0) by (apply Rgt_not_eq, sq_pos; exact Hx). replace (b + - 0) with b by ring. replace (a + - e) with (a - e) by ring. field. exact H.
Qed.
Lemma causal x : 0 < snd x -> forall w eps, Forall (fun d => 0 <= d) w -> snd (hilbert w eps x) <= 0.
Proof.
  intros Hx. induction w as [|d w IH]; intros [|e eps] H; cbn [hilbert]; try (cbn; lra). inversion_clear H as [|? ? Hd Hw]. specialize (IH eps Hw).
  change (snd (Cplus (Cdiv (RtoC d) (Cminus x (RtoC e))) (hilbert w eps x))) with (snd (Cdiv (RtoC d) (Cminus x (RtoC e))) + snd (hilbert w eps x)).
  rewrite im_term by exact Hx. assert (Hp : 0 < (fst x - e) ^ 2 + snd x ^ 2) by (apply sq_pos; exact Hx).
  assert (0 <= d * snd x / ((fst x - e) ^ 2 + snd x ^ 2)) by (apply div_nonneg; [apply Rmult_le_pos; lra|exact Hp]). unfold Rdiv in *. lra.
Qed.
Lemma causal_strict x : 0 < snd x -> forall w eps, length w = length eps -> Forall (fun d => 0 <= d) w -> 0 < add w -> snd (hilbert w eps x) < 0.
Proof.
  intros Hx. induction w as [|d w IH]; intros [|e eps] L H Hs; cbn [hilbert add] in *; try (cbn in *; lra); try discriminate L. inversion_clear H as [|? ? Hd Hw].
  change (snd (Cplus (Cdiv (RtoC d) (Cminus x (RtoC e))) (hilbert w eps x))) with (snd (Cdiv (RtoC d) (Cminus x (RtoC e))) + snd (hilbert w eps x)).
  rewrite im_term by exact Hx. assert (Hp : 0 < (fst x - e) ^ 2 + snd x ^ 2) by (apply sq_pos; exact Hx).
  assert (Hq : 0 <= d * snd x / ((fst x - e) ^ 2 + snd x ^ 2)) by (apply div_nonneg; [apply Rmult_le_pos; lra|exact Hp]).
  destruct (Rle_lt_or_eq_dec 0 d Hd) as [Hd'|<-].
  - assert (0 < d * snd x / ((fst x - e) ^ 2 + snd x ^ 2)) by (apply Rdiv_lt_0_compat; [apply Rmult_lt_0_compat; lra|exact Hp]).
    pose proof (causal x Hx w eps Hw). unfold Rdiv in *. lra.
  - assert (snd (hilbert w eps x) < 0) by (apply IH; auto; lra). unfold Rdiv in *. lra.
Qed.
(** the modulus *)
Lemma Cmod_ge_im x e : 0 < snd x -> snd x <= Cmod (Cminus x (RtoC e)).
Proof.
  intros H. unfold Cmod. destruct x as [a b]. cbn [fst snd Cminus Cplus Copp RtoC] in *. rewrite <- (sqrt_Rsqr b) at 1 by lra. apply sqrt_le_1_alt. unfold Rsqr. pose proof (pow2_ge_0 (a + - e)). replace (b + - 0) with b by ring. lra.
Qed.
Lemma hilbert_bound x : 0 < snd x -> forall w eps, Forall (fun d => 0 <= d) w -> Cmod (hilbert w eps x) <= add w / snd x.
Proof.
  intros Hx. induction w as [|d w IH]; intros [|e eps] H; cbn [hilbert add]; try (rewrite Cmod_0); try (apply div_nonneg; [|exact Hx]); try lra.
  - apply add_nonneg in H. exact H.
  - inversion_clear H as [|? ? Hd Hw]. eapply Rle_trans; [apply Cmod_triangle|]. specialize (IH eps Hw). unfold Rdiv in *. rewrite Rmult_plus_distr_r. apply Rplus_le_compat; [|exact IH].
    pose proof (Cmod_ge_im x e Hx) as Hm. rewrite Cmod_div by (intros F; rewrite F, Cmod_0 in Hm; lra). rewrite Cmod_R, Rabs_pos_eq by exact Hd.
    unfold Rdiv. apply Rmult_le_compat_l; [exact Hd|]. apply Rinv_le_contravar; assumption.
Qed.
(** * the weights *)
Lemma uniform_nth d : forall eps i, uniform d eps -> (i + 1 < length eps)%nat -> nth (i + 1) eps 0 = nth i eps 0 + d.
Proof.
  induction eps as [|e0 es IH]; intros i U H; [cbn in H; lia|]. destruct es as [|e1 es]; [cbn in H; lia|]. destruct U as [U1 U]. destruct i as [|i]; [cbn; exact U1|].
  change (S i + 1)%nat with (S (i + 1)). change (nth (S (i + 1)) (e0 :: e1 :: es) 0) with (nth (i + 1) (e1 :: es) 0). change (nth (S i) (e0 :: e1 :: es) 0) with (nth i (e1 :: es) 0).
  apply IH; [exact U|cbn in *; lia].
Qed.
Lemma width_uniform d eps i : uniform d eps -> (2 <= length eps)%nat -> (i < length eps)%nat -> width eps i = d.
Proof.
  intros U L Hi. unfold width. destruct (i =? 0)%nat eqn:E0.
  - pose proof (uniform_nth d eps 0 U ltac:(lia)) as H. change (0 + 1)%nat with 1%nat in H. lra.
  - apply Nat.eqb_neq in E0. pose proof (uniform_nth d eps (i - 1) U ltac:(lia)) as H. replace (i - 1 + 1)%nat with i in H by lia.
    destruct (i =? length eps - 1)%nat eqn:E1; [lra|]. apply Nat.eqb_neq in E1. pose proof (uniform_nth d eps i U ltac:(lia)) as H'. lra.
Qed.
Lemma add_map_nth (f : R -> R) : forall l, add (map (fun i => f (nth i l 0)) (seq 0 (length l))) = add (map f l).
Proof.
  induction l as [|x l IH]; [reflexivity|]. cbn [length seq map add nth]. f_equal. rewrite <- seq_shift, map_map. exact IH.
Qed.
Lemma add_mult d l : add (map (fun x => x * d) l) = add l * d.
Proof. induction l as [|x l IH]; cbn [map add]; [lra|]. rewrite IH. lra. Qed.
Lemma nth_map_seq (f : nat -> R) n i : (i < n)%nat -> nth i (map f (seq 0 n)) 0 = f i.
Proof. intros H. rewrite (nth_indep _ 0 (f 0%nat)) by (rewrite map_length, seq_length; exact H). rewrite map_nth, seq_nth by exact H. reflexivity. Qed.
Lemma weights_uniform d eps rho : 0 < d -> uniform d eps -> (2 <= length eps)%nat -> length rho = length eps -> add rho <> 0 ->
  weights eps rho = Ok (map (fun r => r / add rho) rho).
Proof.
  intros Hd U L2 L Hs. unfold weights. replace (length eps <? 2)%nat with false by (symmetry; apply Nat.ltb_ge; lia). f_equal.
  assert (E : map (fun i => nth i rho 0 * width eps i) (seq 0 (length eps)) = map (fun x => x * d) rho).
  { apply nth_ext with (d := 0) (d' := 0); rewrite ?map_length, ?seq_length; [auto|]. intros i Hi. rewrite nth_map_seq by exact Hi. rewrite (width_uniform d) by auto.
    rewrite (nth_indep (map (fun x => x * d) rho) 0 (0 * d)) by (rewrite map_length; lia). rewrite (map_nth (fun x => x * d)). reflexivity. }
  rewrite E, rsum_add, add_mult, map_map. apply map_ext. intros r. field. split; lra.
Qed.
Lemma weights_general eps rho w : weights eps rho = Ok w -> length rho = length eps ->
  let S0 := add (map (fun i => nth i rho 0 * width eps i) (seq 0 (length eps))) in
  length w = length eps /\ (2 <= length eps)%nat /\ (forall i, (i < length eps)%nat -> nth i w 0 = nth i rho 0 * width eps i / S0) /\ (S0 <> 0 -> add w = 1).
Proof.
  unfold weights. destruct (length eps <? 2)%nat eqn:E; [discriminate|]. apply Nat.ltb_ge in E. intros H L. injection H as <-. cbv zeta. rewrite rsum_add.
  set (R0 := map _ (seq 0 _)). split; [unfold R0; rewrite !map_length, seq_length; reflexivity|]. split; [exact E|]. split.
  - intros i Hi. rewrite (nth_indep _ 0 (0 / add R0)) by (unfold R0; rewrite !map_length, seq_length; exact Hi). rewrite (map_nth (fun x => x / add R0)). unfold R0 at 1. rewrite nth_map_seq by exact Hi. reflexivity.
  - intros Hz. rewrite add_scale. field. exact Hz.
Qed.
