From Coq Require Import ZArith Reals List Bool Lia Lra String.
From Verif Require Import Base Matsubara Matsubara_proofs LinMesh.
Import ListNotations.
Local Open Scope R_scope.

Section Lin.
Variables (a b : R) (n : Z).
Hypothesis Hn : (2 <= n)%Z.
Hypothesis Hab : a < b.
Let m := li_make a b n.
Let N := IZR n - 1.
Let d := (b - a) / N.

Lemma HN : 1 <= N. Proof. unfold N. assert (2 <= IZR n) by (apply (IZR_le 2); exact Hn). lra. Qed.
Lemma Hd : 0 < d. Proof. pose proof HN. unfold d. apply Rdiv_lt_0_compat; lra. Qed.
Lemma dN : d * N = b - a. Proof. pose proof HN. unfold d. field. lra. Qed.
Lemma n1 : (n =? 1)%Z = false. Proof. apply Z.eqb_neq. lia. Qed.
Lemma m_delta : li_delta m = d. Proof. unfold m, li_make. cbn [li_delta]. rewrite n1. reflexivity. Qed.
Lemma m_dinv : li_dinv m = Some (1 / d).
Proof.
  unfold m, li_make. cbn [li_dinv]. rewrite n1. fold N d. pose proof Hd. destruct (Req_EM_T d 0); [lra|reflexivity].
Qed.
Lemma value_eq i : li_value m i = a + IZR i * d.
Proof.
  unfold li_value, m, li_make. cbn [li_L li_min li_max]. rewrite n1. fold N. pose proof HN. unfold d. field. lra.
Qed.
Lemma last_eq : a + IZR (n - 1) * d = b.
Proof. pose proof dN as E. unfold N in E. rewrite minus_IZR. lra. Qed.

Lemma thm_li_ends : li_value m 0 = a /\ li_value m (n - 1) = b /\
  (forall i, li_value m (i + 1) - li_value m i = li_delta m) /\ 0 < li_delta m /\
  (forall i, li_valid m i = true -> a <= li_value m i <= b).
Proof.
  rewrite m_delta, !value_eq, last_eq. split; [lra|]. split; [reflexivity|]. split; [|split; [apply Hd|]].
  - intros i. rewrite !value_eq, plus_IZR. lra.
  - intros i Hi. unfold li_valid, m in Hi. cbn [li_make li_L] in Hi. apply andb_true_iff in Hi. rewrite Z.leb_le, Z.ltb_lt in Hi.
    rewrite value_eq, <- last_eq. pose proof Hd. assert (0 <= IZR i) by (apply (IZR_le 0); lia). assert (IZR i <= IZR (n - 1)) by (apply IZR_le; lia).
    split; nra.
Qed.

Lemma trunc_spec x : 0 <= x -> IZR (trunc x) <= x < IZR (trunc x) + 1. Proof. intros H. apply trunc_nonneg. exact H. Qed.

Lemma thm_li_closest x : a <= x <= b -> exists i, li_closest m x = Ok i /\ li_valid m i = true /\
   Rabs (x - li_value m i) <= li_delta m / 2 /\ forall j, Rabs (x - li_value m i) <= Rabs (x - li_value m j).
Proof.
  intros Hx. pose proof Hd as H0. pose proof HN as H1. unfold li_closest. rewrite m_dinv. replace (li_min m) with a by reflexivity.
  set (t := (x - a) * (1 / d)). assert (Et : x = a + t * d) by (unfold t; field; lra).
  assert (Ht : 0 <= t) by (apply Rmult_le_pos; [lra|]; apply Rlt_le, Rdiv_lt_0_compat; lra).
  destruct (trunc_spec (t + 1 / 2) ltac:(lra)) as [L1 L2]. set (i := trunc (t + 1 / 2)) in *. exists i. split; [reflexivity|].
  assert (HtN : t <= N). { apply (Rmult_le_reg_r d); [exact H0|]. rewrite (Rmult_comm N), dN. lra. }
  assert (Hi0 : (0 <= i)%Z) by (apply (trunc_nonneg (t + 1 / 2)); lra).
  assert (Hi1 : (i < n)%Z). { apply lt_IZR. unfold N in HtN. lra. }
  split. { unfold li_valid, m. cbn [li_make li_L]. apply andb_true_iff. rewrite Z.leb_le, Z.ltb_lt. lia. }
  rewrite m_delta, value_eq, Et. replace (a + t * d - (a + IZR i * d)) with ((t - IZR i) * d) by ring. rewrite Rabs_mult, (Rabs_pos_eq d) by lra.
  assert (HA : Rabs (t - IZR i) <= 1 / 2) by (apply Rabs_le; lra).
  split; [assert (Rabs (t - IZR i) * d <= 1 / 2 * d) by (apply Rmult_le_compat_r; lra); lra|].
  intros j. rewrite value_eq. replace (a + t * d - (a + IZR j * d)) with ((t - IZR j) * d) by ring. rewrite Rabs_mult, (Rabs_pos_eq d) by lra.
  apply Rmult_le_compat_r; [lra|]. destruct (Z.eq_dec i j) as [->|Hij]; [lra|].
  assert (1 <= Rabs (IZR i - IZR j)). { rewrite <- minus_IZR, <- abs_IZR. apply (IZR_le 1). lia. }
  pose proof (Rabs_triang (t - IZR j) (- (t - IZR i))) as HT. rewrite Rabs_Ropp in HT. replace (t - IZR j + - (t - IZR i)) with (IZR i - IZR j) in HT by ring. lra.
Qed.
Lemma thm_li_closest_mesh i : li_valid m i = true -> li_closest m (li_value m i) = Ok i.
Proof.
  intros Hi. destruct thm_li_ends as (_ & _ & _ & _ & Hb). destruct (thm_li_closest (li_value m i) (Hb i Hi)) as (j & Ej & _ & _ & Hj).
  specialize (Hj i). rewrite (Rminus_diag_eq (li_value m i) (li_value m i)), Rabs_R0 in Hj by reflexivity.
  assert (E : li_value m i = li_value m j). { destruct (Req_dec (li_value m i - li_value m j) 0) as [E|E]; [lra|]. apply Rabs_pos_lt in E. lra. }
  rewrite !value_eq in E. pose proof Hd as H0. assert (EI : IZR i = IZR j) by (apply (Rmult_eq_reg_r d); lra). apply eq_IZR in EI. subst j. exact Ej.
Qed.

(** interpolation: the two neighbours and the weight *)
Lemma thm_li_eval f x : a <= x <= b -> exists i w, (0 <= i)%Z /\ (i + 1 < n)%Z /\ 0 <= w <= 1 /\
   x = (1 - w) * li_value m i + w * li_value m (i + 1) /\ li_eval m f x = Ok ((1 - w) * f i + w * f (i + 1)%Z).
Proof.
  intros Hx. pose proof Hd as H0. pose proof HN as H1. unfold li_eval. rewrite m_dinv. replace (li_min m) with a by reflexivity. rewrite Rmax_left by lra.
  set (t := (x - a) * (1 / d)). assert (Et : x = a + t * d) by (unfold t; field; lra).
  assert (Ht : 0 <= t) by (apply Rmult_le_pos; [lra|]; apply Rlt_le, Rdiv_lt_0_compat; lra).
  assert (HtN : t <= N). { apply (Rmult_le_reg_r d); [exact H0|]. rewrite (Rmult_comm N), dN. lra. }
  destruct (trunc_spec t Ht) as [L1 L2]. pose proof (proj2 (trunc_nonneg t Ht)) as Hi0. replace (li_L m) with n by reflexivity.
  exists (Z.min (trunc t) (n - 2)), (Rmin (t - IZR (Z.min (trunc t) (n - 2))) 1). split; [lia|]. split; [lia|].
  assert (HW : 0 <= t - IZR (Z.min (trunc t) (n - 2)) <= 1).
  { destruct (Z_le_gt_dec (trunc t) (n - 2)) as [Hc|Hc].
    - rewrite Z.min_l by exact Hc. lra.
    - rewrite Z.min_r by lia. assert (IZR (n - 2 + 1) <= IZR (trunc t)) by (apply IZR_le; lia). rewrite plus_IZR in H. rewrite minus_IZR in *. unfold N in HtN. lra. }
  rewrite Rmin_left by lra. split; [exact HW|]. split; [|reflexivity]. rewrite !value_eq, plus_IZR, Et. ring.
Qed.
Lemma thm_li_eval_mesh f i : li_valid m i = true -> li_eval m f (li_value m i) = Ok (f i).
Proof.
  intros Hi. destruct thm_li_ends as (_ & _ & _ & _ & Hb). destruct (thm_li_eval f (li_value m i) (Hb i Hi)) as (j & w & J1 & J2 & Hw & Ex & ->).
  f_equal. rewrite !value_eq, plus_IZR in Ex. pose proof Hd as H0.
  assert (E : IZR i = IZR j + w) by nra.
  destruct (Z.eq_dec i j) as [->|Hne]; [assert (w = 0) as -> by lra; ring|].
  assert (i = j + 1)%Z as ->.
  { assert (J3 : (j <= i)%Z) by (apply le_IZR; lra). assert (J4 : (i <= j + 1)%Z) by (apply le_IZR; rewrite plus_IZR; lra). lia. }
  rewrite plus_IZR in E. assert (w = 1) as -> by lra. ring.
Qed.
Lemma thm_li_eval_affine p q x : a <= x <= b -> li_eval m (fun i => p + q * li_value m i) x = Ok (p + q * x).
Proof.
  intros Hx. destruct (thm_li_eval (fun i => p + q * li_value m i) x Hx) as (j & w & J1 & J2 & Hw & Ex & ->). f_equal. rewrite Ex at 1. ring.
Qed.
Lemma thm_li_eval_outside f x : (x <= a -> li_eval m f x = Ok (f 0%Z)) /\ (b <= x -> li_eval m f x = Ok (f (n - 1)%Z)).
Proof.
  pose proof Hd as H0. pose proof HN as H1. split; intros Hx; unfold li_eval; rewrite m_dinv; replace (li_min m) with a by reflexivity; replace (li_L m) with n by reflexivity.
  - rewrite Rmax_right by lra. replace ((a - a) * (1 / d)) with 0 by (field; lra).
    assert (E : trunc 0 = 0%Z). { destruct (trunc_nonneg 0 ltac:(lra)) as [[L1 L2] L3]. apply (le_IZR _ 0) in L1. lia. }
    rewrite E, Z.min_l by lia. rewrite Rmin_left by lra. f_equal. replace (0 - 0) with 0 by ring. ring.
  - rewrite Rmax_left by lra. set (t := (x - a) * (1 / d)). assert (Et : t * d = x - a) by (unfold t; field; lra).
    assert (HtN : N <= t). { apply (Rmult_le_reg_r d); [exact H0|]. rewrite (Rmult_comm N), dN. lra. }
    destruct (trunc_nonneg t ltac:(lra)) as [[L1 L2] L3].
    assert (Hc : (n - 2 < trunc t)%Z). { apply lt_IZR. rewrite minus_IZR. unfold N in HtN. lra. }
    rewrite Z.min_r by lia. rewrite Rmin_right; [|rewrite minus_IZR; unfold N in HtN; lra]. f_equal. replace (n - 2 + 1)%Z with (n - 1)%Z by lia. ring.
Qed.
End Lin.

Lemma thm_li_h5 a b n : li_read (li_write (li_make a b n)) = li_make a b n.
Proof. reflexivity. Qed.
Lemma thm_it_h5 beta s n : it_read (it_write (it_make beta s n)) = it_make beta s n.
Proof. unfold it_read, it_write. cbn [it_make it_beta it_stat it_lin li_make li_L]. destruct s; reflexivity. Qed.
(** one point, or an interval of zero length: no step *)
Lemma cex_li_degenerate : li_closest (li_make 0 1 1) 0 = UB /\ li_closest (li_make 1 1 5) 1 = UB /\
  li_valid (li_make 0 1 1) 0 = true /\ li_value (li_make 0 1 1) 0 = 0.
Proof.
  unfold li_closest, li_make. cbn [li_dinv li_L li_min Z.eqb Pos.eqb].
  destruct (Req_EM_T 0 0) as [_|H]; [|congruence]. destruct (Req_EM_T ((1 - 1) / (5 - 1)) 0) as [_|H]; [|exfalso; apply H; field].
  repeat split; try reflexivity.
Qed.

(** ---- products ---- *)
Lemma wsum_app {I} (u v : list (R * I)) g : wsum (u ++ v) g = wsum u g + wsum v g.
Proof. unfold wsum. induction u as [|x u IH]; cbn [app fold_right]; [ring|]. rewrite IH. ring. Qed.
Lemma wsum_map_scale {I J} (c : R) (h : I -> J) (u : list (R * I)) g :
  wsum (map (fun wj => (c * fst wj, h (snd wj))) u) g = c * wsum u (fun i => g (h i)).
Proof. unfold wsum. induction u as [|x u IH]; cbn [map fold_right fst snd]; [ring|]. rewrite IH. ring. Qed.
Lemma wsum_ext {I} (u : list (R * I)) g g' : (forall i, g i = g' i) -> wsum u g = wsum u g'.
Proof. intros H. unfold wsum. induction u as [|x u IH]; cbn [fold_right]; [reflexivity|]. rewrite H, IH. reflexivity. Qed.
Lemma wsum_plus {I} (u : list (R * I)) g g' : wsum u (fun i => g i + g' i) = wsum u g + wsum u g'.
Proof. unfold wsum. induction u as [|x u IH]; cbn [fold_right]; [ring|]. rewrite IH. ring. Qed.
Lemma wsum_scal {I} (u : list (R * I)) c g : wsum u (fun i => c * g i) = c * wsum u g.
Proof. unfold wsum. induction u as [|x u IH]; cbn [fold_right]; [ring|]. rewrite IH. ring. Qed.
Lemma wsum_zero {I} (u : list (R * I)) : wsum u (fun _ => 0) = 0.
Proof. unfold wsum. induction u as [|x u IH]; cbn [fold_right]; [ring|]. rewrite IH. ring. Qed.
Lemma wsum_swap {I J} (u : list (R * I)) (v : list (R * J)) g :
  wsum u (fun i => wsum v (fun j => g i j)) = wsum v (fun j => wsum u (fun i => g i j)).
Proof.
  induction u as [|x u IH].
  - cbn. rewrite wsum_zero. reflexivity.
  - change (fst x * wsum v (fun j => g (snd x) j) + wsum u (fun i => wsum v (fun j => g i j)) = wsum v (fun j => fst x * g (snd x) j + wsum u (fun i => g i j))).
    rewrite wsum_plus, wsum_scal, IH. reflexivity.
Qed.
Lemma wsum_tensor_cons {I} (ws : list (R * I)) wss f :
  wsum (tensor (ws :: wss)) f = wsum ws (fun i => wsum (tensor wss) (fun js => f (i :: js))).
Proof.
  cbn [tensor]. induction ws as [|x ws IH]; [reflexivity|]. cbn [flat_map]. rewrite wsum_app, IH.
  rewrite (wsum_map_scale (fst x) (cons (snd x))). reflexivity.
Qed.

(** evaluation on a product of meshes is the tensor product of the component rules *)
Lemma thm_ev_tuple {I} (es : list ((I -> R) -> R)) (wss : list (list (R * I))) (f : list I -> R) :
  es <> [] -> Forall2 (fun e ws => forall g, e g = wsum ws g) es wss -> ev_tuple es f = wsum (tensor wss) f.
Proof.
  intros Hne HF. revert f. induction HF as [|e ws es wss He HF IH]; [congruence|]. intros f. rewrite wsum_tensor_cons.
  destruct es as [|e' es'].
  - inversion HF; subst. cbn [ev_tuple]. rewrite He. apply wsum_ext. intros i. cbn [tensor]. unfold wsum. cbn [fold_right fst snd]. ring.
  - change (ev_tuple (e' :: es') (fun ys => e (fun y1 => f (y1 :: ys))) = wsum ws (fun i => wsum (tensor wss) (fun js => f (i :: js)))).
    rewrite IH by discriminate. rewrite wsum_swap. apply wsum_ext. intros js. apply He.
Qed.
(** in particular: exact where every component rule is exact, and positivity / normalisation *)
Lemma tensor_weights {I} (wss : list (list (R * I))) :
  Forall (fun ws => Forall (fun wi => 0 <= fst wi) ws /\ wsum ws (fun _ => 1) = 1) wss ->
  Forall (fun wi => 0 <= fst wi) (tensor wss) /\ wsum (tensor wss) (fun _ => 1) = 1.
Proof.
  induction 1 as [|ws wss [Hp Hs] HF [IH1 IH2]].
  - cbn. split; [repeat constructor; cbn; lra|unfold wsum; cbn; ring].
  - split.
    + cbn [tensor]. apply Forall_forall. intros x Hx. apply in_flat_map in Hx. destruct Hx as (y & Hy & Hx). apply in_map_iff in Hx. destruct Hx as (z & <- & Hz).
      cbn [fst]. rewrite Forall_forall in Hp, IH1. apply Rmult_le_pos; auto.
    + rewrite wsum_tensor_cons. rewrite (wsum_ext ws _ (fun _ => 1)); [exact Hs|]. intros i. exact IH2.
Qed.
Lemma ev_tuple_exact {I} (es : list ((I -> R) -> R)) (is_ : list I) (f : list I -> R) :
  es <> [] -> Forall2 (fun e i => forall g, e g = g i) es is_ -> ev_tuple es f = f is_.
Proof.
  intros Hne HF. revert f. induction HF as [|e i es is_ He HF IH]; [congruence|]. intros f. destruct es as [|e' es'].
  - inversion HF; subst. cbn [ev_tuple]. apply He.
  - change (ev_tuple (e' :: es') (fun ys => e (fun y1 => f (y1 :: ys))) = f (i :: is_)). rewrite IH by discriminate. apply He.
Qed.

(** the imaginary-time mesh covers [0, beta] *)
Lemma thm_it_values beta s n : (2 <= n)%Z -> 0 < beta ->
  let m := it_make beta s n in
  it_beta m = beta /\ it_stat m = s /\ li_value (it_lin m) 0 = 0 /\ li_value (it_lin m) (n - 1) = beta /\
  (forall i, li_valid (it_lin m) i = true <-> (0 <= i < n)%Z) /\
  (forall i, li_value (it_lin m) i = IZR i * (beta / (IZR n - 1))).
Proof.
  intros Hn Hb m. split; [reflexivity|]. split; [reflexivity|]. unfold m, it_make. cbn [it_lin]. destruct (thm_li_ends 0 beta n Hn Hb) as (H0 & H1 & _ & _ & _).
  split; [exact H0|]. split; [exact H1|]. split.
  - intros i. unfold li_valid, li_make. cbn [li_L]. rewrite andb_true_iff, Z.leb_le, Z.ltb_lt. tauto.
  - intros i. unfold li_value, li_make. cbn [li_L li_min li_max]. destruct (Z.eqb_spec n 1); [lia|]. assert (2 <= IZR n) by (apply IZR_le; exact Hn). field. lra.
Qed.
