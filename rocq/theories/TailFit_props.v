(** Properties C80 (fit of high-frequency expansions) and C81 (values outside the mesh, tail replacement, fits on a window) *)
From Coq Require Import ZArith Reals List Bool Arith Lia Lra.
From Coquelicot Require Import Complex.
From Verif Require Import Base ThermalSpec Csum Matsubara LinMesh Fourier FourierSpec Fourier_dft Fourier_lat LegGfSpec LegGf_tail TailFit TailFitSpec TailFit_alg TailFit_hist TailFit_proofs TailFit_thms.
Import ListNotations.
Local Open Scope R_scope.

(** least-squares solvers as the theorems below assume them exist *)
Definition ex_solve (h : bool) (w : cmat) (n : nat) (B : data) (inner : option nat) : data * R :=
  (match h, inner with
   | true, Some d => hsol (m_rows w) (m_cols w) d (m_at w) B
   | _, _ => fun j c => lsq (m_rows w) (m_cols w) (m_at w) (fun i => B i c) j
   end, 0).
Definition ex_smin (h : bool) (w : cmat) : R := 1.
Example solvers_exist : solves_general ex_solve /\ solves_hermitian ex_solve.
Proof. split; [intros w n B; apply least_squares_exist|intros d w B; apply hermitian_exist]. Qed.

(** a mesh with beta = pi, so that the frequencies are i (2 n + 1), n = -5 .. 4 *)
Definition ex_mesh : imfreq := mkImfreq PI Fermion 5 false.
Lemma ex_range mx o : n_fit_range (make_fitter (2 / 10) mx o) (fm_imfreq ex_mesh) = 1%Z.
Proof.
  unfold n_fit_range, cround. cbn [make_fitter tf_fraction fm_imfreq fm_size]. replace (if_size ex_mesh) with 10%Z by reflexivity.
  destruct (Rle_dec 0 _) as [H|H]; [|lra]. apply int_part_unique. lra.
Qed.

(** C80.  The result of a fit depends on the parameters set last, not on what the fitter was used for before. *)
Theorem C80_history smin solve us m mi n d g km nk f :
  snd (fit_tail smin solve (history smin solve m us) m n g km nk) = snd (fit_tail smin solve (unused us) m n g km nk) /\
  snd (fit_hermitian_tail smin solve (history smin solve m us) m [d; d] g km nk) = snd (fit_hermitian_tail smin solve (unused us) m [d; d] g km nk) /\
  snd (eval_iw smin solve (history smin solve (fm_imfreq mi) us) mi n g f) = snd (eval_iw smin solve (unused us) mi n g f).
Proof.
  split; [rewrite fit_tail_value, fit_tail_value0; reflexivity|]. split.
  - rewrite fit_hermitian_value. unfold fit_hermitian_tail. rewrite Nat.eqb_refl, <- (snd_fit0 smin solve m us). destruct (fit _ _ _ _ _ _ _ _ _ _ _). reflexivity.
  - unfold eval_iw. destruct (if_valid mi (fr_n f)); [reflexivity|]. destruct (if_pos mi); [destruct (if_valid mi _); reflexivity|].
    pose proof (fit_raw_value smin solve (fm_imfreq mi) us n g) as E.
    assert (E0 : snd (fit_tail_no_normalize smin solve (unused us) (fm_imfreq mi) n g) = fit_value smin solve false (get_tail_fitter (unused us)) (fm_imfreq mi) n g false [] 0 None)
      by (unfold fit_tail_no_normalize; rewrite <- (snd_fit0 smin solve (fm_imfreq mi) us); destruct (fit _ _ _ _ _ _ _ _ _ _ _); reflexivity).
    destruct (fit_tail_no_normalize smin solve (history _ _ _ us) _ n g) as [a ra]. destruct (fit_tail_no_normalize smin solve (unused us) _ n g) as [b rb].
    cbn [snd] in E, E0 |- *. rewrite E, E0. reflexivity.
Qed.
Print Assumptions C80_history.
Example C80_history_ex : unused [UseFit false 1 (fun _ _ => RtoC 0) true [] 0 None; UseSet (1 / 2) 7 None; UseFit true 1 (fun _ _ => RtoC 0) true [] 0 (Some 1%nat)] = Some (make_fitter (1 / 2) 7 None).
Proof. reflexivity. Qed.

(** C80.  The frequencies of the fit on a Matsubara mesh are different frequencies of the mesh, all in
    the window: the r lowest ones, or the r ones below the highest one. *)
Theorem C80_window us m r : if_pos m = false ->
  cround (tf_fraction (get_tail_fitter (unused us)) * IZR (if_size m) / 2) = r -> (0 < r < if_last m)%Z -> (0 < tf_max (get_tail_fitter (unused us)))%Z ->
  exists idx, fit_indices (get_tail_fitter (unused us)) (fm_imfreq m) = Ok idx /\ NoDup idx /\
    length idx = (2 * Z.to_nat (Z.min r (tf_max (get_tail_fitter (unused us)))))%nat /\
    (forall i, In i idx -> if_valid m i = true /\ (i < if_first m + r \/ if_last m - r <= i < if_last m)%Z /\ (if_stat m = Boson -> i <> 0%Z)).
Proof.
  intros Hp Hr H0 Hm. destruct (window_facts _ m r Hp Hr ltac:(lia) ltac:(lia) Hm) as [idx (Hi & Hd & Hl & Hw & _)].
  exists idx. split; [exact Hi|]. split; [exact Hd|]. split; [exact Hl|]. intros i Hin. specialize (Hw i Hin).
  assert (Hf : (if_first m <= - if_last m)%Z) by (unfold if_first; rewrite Hp; destruct (stat_eqb _ _); lia).
  assert (Hf' : (if_stat m = Boson -> if_first m = - if_last m)%Z) by (intros Hs; unfold if_first; rewrite Hp, Hs; cbn; lia).
  split; [unfold if_valid; apply andb_true_intro; rewrite !Z.leb_le; lia|]. split; [lia|]. intros Hs. specialize (Hf' Hs). lia.
Qed.
Print Assumptions C80_window.
Example C80_window_ex : cround (tf_fraction (get_tail_fitter (unused [])) * IZR (if_size ex_mesh) / 2) = 1%Z /\ (0 < 1 < if_last ex_mesh)%Z /\ (0 < tf_max (get_tail_fitter (unused [])))%Z.
Proof. split; [exact (ex_range 30 None)|]. cbn. lia. Qed.

(** C80, not so: the fitted frequencies are not symmetric.  The lowest frequency is always used, the
    highest one, which is its mirror image, never. *)
Theorem C80_symmetric_window_refuted us m r : if_pos m = false ->
  cround (tf_fraction (get_tail_fitter (unused us)) * IZR (if_size m) / 2) = r -> (0 < r < if_last m)%Z -> (0 < tf_max (get_tail_fitter (unused us)))%Z ->
  exists idx, fit_indices (get_tail_fitter (unused us)) (fm_imfreq m) = Ok idx /\ In (if_first m) idx /\ ~ In (if_last m) idx /\
    fr_neg (if_freq m (if_first m)) = if_freq m (if_last m).
Proof.
  intros Hp Hr H0 Hm. destruct (window_facts _ m r Hp Hr ltac:(lia) ltac:(lia) Hm) as [idx (Hi & Hd & Hl & Hw & Hh)].
  exists idx. split; [exact Hi|]. split; [destruct idx; [discriminate|]; injection Hh as ->; left; reflexivity|].
  assert (Hf : (if_first m <= - if_last m)%Z) by (unfold if_first; rewrite Hp; destruct (stat_eqb _ _); lia).
  split; [intros Hin; specialize (Hw _ Hin); lia|]. unfold fr_neg, if_freq, if_first. cbn [fr_n fr_stat fr_beta]. rewrite Hp. f_equal. lia.
Qed.
Print Assumptions C80_symmetric_window_refuted.

(** C80.  The known moments are returned as they are, and with the fitted ones they describe the data
    at the fitted frequencies better than any other expansion with these known moments. *)
Theorem C80_best smin solve us m n g km nk t err : solves_general solve ->
  (Z.of_nat (length km) <= tf_order (get_tail_fitter (unused us)))%Z ->
  snd (fit_tail smin solve (history smin solve m us) m n g km nk) = Ok (t, err) ->
  exists idx, fit_indices (get_tail_fitter (unused us)) m = Ok idx /\ firstn (length km) t = km /\
    forall t', (forall j c, (j < length km)%nat -> t' j c = row km j c) ->
      deviation (values_at m g idx) n (length t) (row t) <= deviation (values_at m g idx) n (length t) t'.
Proof.
  intros HS Hk HF. rewrite fit_tail_value in HF.
  destruct (fit_best smin solve false _ m n g km nk None t err (fun _ => True) True_closed (fun w B => HS w n B) Hk HF) as [idx [w (Hi & _ & _ & _ & Hf & _ & Hb)]].
  exists idx. split; [exact Hi|]. split; [exact Hf|]. intros t' Ht'. apply (Hb t' I Ht').
Qed.
Print Assumptions C80_best.
Example C80_best_ex : solves_general ex_solve /\ exists t err,
  snd (fit_tail ex_smin ex_solve (history ex_smin ex_solve (fm_imfreq ex_mesh) [UseSet (2 / 10) 30 (Some 1%Z)]) (fm_imfreq ex_mesh) 1 (fun d _ => RtoC (INR d)) [] 0) = Ok (t, err).
Proof.
  split; [apply solvers_exist|]. rewrite fit_tail_value. change (get_tail_fitter (unused [UseSet (2 / 10) 30 (Some 1%Z)])) with (make_fitter (2 / 10) 30 (Some 1%Z)).
  destruct (fit_succeeds ex_smin ex_solve false ex_mesh 1 (fun d _ => RtoC (INR d)) true [] 0 None (2 / 10) 30 1 1) as [t [err [H _]]]; cbn; try lia; try apply PI_RGT_0; try reflexivity; try (apply ex_range); auto.
  exists t, err. exact H.
Qed.

(** C80.  The same for fits with hermitian moments. *)
Theorem C80_hermitian smin solve us m d g km nk t err : solves_hermitian solve ->
  (Z.of_nat (length km) <= tf_order (get_tail_fitter (unused us)))%Z ->
  snd (fit_hermitian_tail smin solve (history smin solve m us) m [d; d] g km nk) = Ok (t, err) ->
  exists idx, fit_indices (get_tail_fitter (unused us)) m = Ok idx /\ firstn (length km) t = km /\
    (forall j a b, (length km <= j < length t)%nat -> (a < d)%nat -> (b < d)%nat -> row t j (a * d + b) = Cconj (row t j (b * d + a))) /\
    forall t', hermitian_rows d t' -> (forall j c, (j < length km)%nat -> t' j c = row km j c) ->
      deviation (values_at m g idx) (d * d) (length t) (row t) <= deviation (values_at m g idx) (d * d) (length t) t'.
Proof.
  intros HS Hk HF. rewrite fit_hermitian_value in HF.
  destruct (fit_best smin solve true _ m (d * d) g km nk (Some d) t err (hermitian_rows d) (hermitian_closed d) (fun w B => HS d w B) Hk HF) as [idx [w (Hi & _ & _ & Hl & Hf & [X [PX HX]] & Hb)]].
  exists idx. split; [exact Hi|]. split; [exact Hf|]. split; [|intros t' Pt' Ht'; apply (Hb t' Pt' Ht')].
  intros j a b Hj Ha Hb'. replace j with (length km + (j - length km))%nat by lia. rewrite !HX by lia. rewrite (PX _ a b Ha Hb'). apply Ceq; cbn; ring.
Qed.
Print Assumptions C80_hermitian.
Example C80_hermitian_ex : solves_hermitian ex_solve /\ exists t err,
  snd (fit_hermitian_tail ex_smin ex_solve (history ex_smin ex_solve (fm_imfreq ex_mesh) [UseSet (2 / 10) 30 (Some 1%Z)]) (fm_imfreq ex_mesh) [2; 2]%nat (fun d _ => RtoC (INR d)) [] 0) = Ok (t, err).
Proof.
  split; [apply solvers_exist|]. rewrite fit_hermitian_value. change (get_tail_fitter (unused [UseSet (2 / 10) 30 (Some 1%Z)])) with (make_fitter (2 / 10) 30 (Some 1%Z)).
  destruct (fit_succeeds ex_smin ex_solve true ex_mesh (2 * 2) (fun d _ => RtoC (INR d)) true [] 0 (Some 2%nat) (2 / 10) 30 1 1) as [t [err [H _]]]; cbn; try lia; try apply PI_RGT_0; try reflexivity; try (apply ex_range); auto.
  - right. discriminate.
  - exists t, err. exact H.
Qed.

(** C80.  If the data in the window are those of an expansion, the fit returns its moments: always when
    the order is chosen by the fit, and otherwise if there are at least as many frequencies as unknown moments. *)
Theorem C80_recovers smin solve us m r n g km nk t err mu : solves_general solve -> 0 < if_beta m -> if_pos m = false ->
  cround (tf_fraction (get_tail_fitter (unused us)) * IZR (if_size m) / 2) = r -> (0 < r < if_last m)%Z -> (0 < tf_max (get_tail_fitter (unused us)))%Z ->
  (Z.of_nat (length km) <= tf_order (get_tail_fitter (unused us)))%Z ->
  snd (fit_tail smin solve (history smin solve (fm_imfreq m) us) (fm_imfreq m) n g km nk) = Ok (t, err) ->
  (tf_adjust (get_tail_fitter (unused us)) = true \/ (Z.of_nat (length t) <= Z.of_nat (length km) + 2 * Z.min r (tf_max (get_tail_fitter (unused us))))%Z) ->
  (forall j c, (j < length km)%nat -> mu j c = row km j c) ->
  (forall i c, (if_first m <= i < if_first m + r \/ if_last m - r <= i < if_last m)%Z -> (c < n)%nat ->
     g (Z.to_nat (if_to_data m i)) c = expansion (length t) mu (i_omega (if_beta m) (if_stat m) i) c) ->
  forall j c, (j < length t)%nat -> (c < n)%nat -> row t j c = mu j c.
Proof.
  intros HS Hb Hp Hr H0 Hm Hk HF Hc Hmu Hg. rewrite fit_tail_value in HF.
  exact (recovers smin solve false _ m n g km nk None t err r (fun _ => True) mu True_closed (fun w B => HS w n B) Hb Hp Hr H0 Hm Hk HF Hc I Hmu Hg).
Qed.
Print Assumptions C80_recovers.
Theorem C80_recovers_hermitian smin solve us m r d g km nk t err mu : solves_hermitian solve -> 0 < if_beta m -> if_pos m = false ->
  cround (tf_fraction (get_tail_fitter (unused us)) * IZR (if_size m) / 2) = r -> (0 < r < if_last m)%Z -> (0 < tf_max (get_tail_fitter (unused us)))%Z ->
  (Z.of_nat (length km) <= tf_order (get_tail_fitter (unused us)))%Z ->
  snd (fit_hermitian_tail smin solve (history smin solve (fm_imfreq m) us) (fm_imfreq m) [d; d] g km nk) = Ok (t, err) ->
  (tf_adjust (get_tail_fitter (unused us)) = true \/ (Z.of_nat (length t) <= Z.of_nat (length km) + 2 * Z.min r (tf_max (get_tail_fitter (unused us))))%Z) ->
  hermitian_rows d mu -> (forall j c, (j < length km)%nat -> mu j c = row km j c) ->
  (forall i c, (if_first m <= i < if_first m + r \/ if_last m - r <= i < if_last m)%Z -> (c < d * d)%nat ->
     g (Z.to_nat (if_to_data m i)) c = expansion (length t) mu (i_omega (if_beta m) (if_stat m) i) c) ->
  forall j c, (j < length t)%nat -> (c < d * d)%nat -> row t j c = mu j c.
Proof.
  intros HS Hb Hp Hr H0 Hm Hk HF Hc Hh Hmu Hg. rewrite fit_hermitian_value in HF.
  exact (recovers smin solve true _ m (d * d) g km nk (Some d) t err r (hermitian_rows d) mu (hermitian_closed d) (fun w B => HS d w B) Hb Hp Hr H0 Hm Hk HF Hc Hh Hmu Hg).
Qed.
Print Assumptions C80_recovers_hermitian.
(** the case 2 + 3 / (i w) *)
Definition ex_mu (j c : nat) : C := match j with O => RtoC 2 | 1%nat => RtoC 3 | _ => RtoC 0 end.
Example C80_recovers_ex : exists g t err, solves_general ex_solve /\
  snd (fit_tail ex_smin ex_solve (history ex_smin ex_solve (fm_imfreq ex_mesh) [UseSet (2 / 10) 30 (Some 1%Z)]) (fm_imfreq ex_mesh) 1 g [] 0) = Ok (t, err) /\
  (Z.of_nat (length t) <= 0 + 2 * Z.min 1 30)%Z /\
  (forall i c, (if_first ex_mesh <= i < if_first ex_mesh + 1 \/ if_last ex_mesh - 1 <= i < if_last ex_mesh)%Z -> (c < 1)%nat ->
     g (Z.to_nat (if_to_data ex_mesh i)) c = expansion (length t) ex_mu (i_omega (if_beta ex_mesh) (if_stat ex_mesh) i) c).
Proof.
  exists (fun d c => expansion 2 ex_mu (i_omega PI Fermion (Z.of_nat d - 5)) c). rewrite fit_tail_value.
  change (get_tail_fitter (unused [UseSet (2 / 10) 30 (Some 1%Z)])) with (make_fitter (2 / 10) 30 (Some 1%Z)).
  destruct (fit_succeeds ex_smin ex_solve false ex_mesh 1 (fun d c => expansion 2 ex_mu (i_omega PI Fermion (Z.of_nat d - 5)) c) true [] 0 None (2 / 10) 30 1 1) as [t [err [H L]]]; try (cbn; lia); try apply PI_RGT_0; try reflexivity; try (apply ex_range); auto.
  exists t, err. split; [apply solvers_exist|]. split; [exact H|]. split; [cbn; lia|]. intros i c Hi Hc. replace (length t) with 2%nat by lia. cbn [ex_mesh if_beta if_stat]. do 2 f_equal.
  cbn in Hi. unfold if_to_data. change (if_first ex_mesh) with (-5)%Z. lia.
Qed.

(** C80.  A fit with a given order returns that order, whenever there are enough frequencies. *)
Theorem C80_succeeds smin solve us m r n g km nk fr mx e : unused us = set_tail_fit_parameters fr mx (Some e) -> 0 < if_beta m -> if_pos m = false ->
  cround (fr * IZR (if_size m) / 2) = r -> (0 < r < if_last m)%Z ->
  (Z.of_nat (length km) <= e)%Z -> (length km < 10)%nat -> (Z.of_nat (length km) + 1 <= Z.min r mx)%Z -> (km = [] \/ n = nk) ->
  exists t err, snd (fit_tail smin solve (history smin solve (fm_imfreq m) us) (fm_imfreq m) n g km nk) = Ok (t, err) /\ Z.of_nat (length t) = (e + 1)%Z.
Proof. intros Hu. rewrite fit_tail_value, Hu. intros. apply (fit_succeeds smin solve false m n g true km nk None fr mx e r); auto. Qed.
Print Assumptions C80_succeeds.
(** C80.  With the order chosen by the fit, at least one moment is added, there are never more than ten, and there are
    at least as many frequencies at each end of the mesh as the order of the last moment. *)
Theorem C80_order smin solve us m r n g km nk t err : tf_adjust (get_tail_fitter (unused us)) = true -> if_pos m = false ->
  cround (tf_fraction (get_tail_fitter (unused us)) * IZR (if_size m) / 2) = r -> (0 < r < if_last m)%Z -> (0 < tf_max (get_tail_fitter (unused us)))%Z ->
  (length km <= 9)%nat ->
  snd (fit_tail smin solve (history smin solve (fm_imfreq m) us) (fm_imfreq m) n g km nk) = Ok (t, err) ->
  (length km < length t <= 10)%nat /\ (Z.of_nat (length t) - 1 <= Z.min r (tf_max (get_tail_fitter (unused us))))%Z.
Proof.
  intros Ha Hp Hr H0 Hm Hk HF. rewrite fit_tail_value in HF.
  assert (Ho : tf_order (get_tail_fitter (unused us)) = 9%Z) by (destruct (unused_made us) as [a [b [[c|] E]]]; rewrite E in Ha |- *; [discriminate|reflexivity]).
  destruct (window_facts _ m r Hp Hr ltac:(lia) ltac:(lia) Hm) as [idx (Hi & _ & Hl & _ & _)].
  assert (Hk' : (Z.of_nat (length km) <= tf_order (get_tail_fitter (unused us)))%Z) by (rewrite Ho; lia).
  destruct (fit_order _ _ _ _ _ _ _ _ _ _ _ _ _ _ Hk' HF Hi) as [_ H]. rewrite Ha, Hl in H. rewrite Nat.mul_comm, Nat.div_mul in H by lia. lia.
Qed.
Print Assumptions C80_order.

(** C80.  With the order chosen by the fit: whenever an order N that the number of frequencies and the
    mesh allow has a matrix (om_max / i w)^j, j = known moments .. N, with singular values above
    10^-8, the fit succeeds, and its order is at least N. *)
Theorem C80_largest_order smin solve us m r n g km nk (N : nat) : tf_adjust (get_tail_fitter (unused us)) = true -> 0 < if_beta m -> if_pos m = false ->
  cround (tf_fraction (get_tail_fitter (unused us)) * IZR (if_size m) / 2) = r -> (0 < r < if_last m)%Z ->
  (Z.of_nat (length km) + 1 <= Z.min r (tf_max (get_tail_fitter (unused us))))%Z -> (km = [] \/ n = nk) ->
  (length km <= N <= 9)%nat -> (Z.of_nat N <= Z.min r (tf_max (get_tail_fitter (unused us))))%Z ->
  INR N <= 1 + 16 / log10 (1 + Cmod (fm_wmax (fm_imfreq m))) < 2 ^ 63 ->
  (forall idx w, fit_indices (get_tail_fitter (unused us)) (fm_imfreq m) = Ok idx -> m_rows w = length idx -> m_cols w = (N + 1 - length km)%nat ->
     (forall i j, (i < length idx)%nat -> m_at w i j = power (Cdiv (RtoC (Cmod (fm_wmax (fm_imfreq m)))) (i_omega (if_beta m) (if_stat m) (nth i idx 0%Z))) (length km + j)) ->
     / 10 ^ 8 < smin false w) ->
  exists t err, snd (fit_tail smin solve (history smin solve (fm_imfreq m) us) (fm_imfreq m) n g km nk) = Ok (t, err) /\ (N + 1 <= length t)%nat.
Proof.
  intros Ha Hb Hp Hr H0 Hm Hc HN HN2 Hd Hs. rewrite fit_tail_value.
  assert (Ho : tf_order (get_tail_fitter (unused us)) = 9%Z) by (destruct (unused_made us) as [a [b [[c|] E]]]; rewrite E in Ha |- *; [discriminate|reflexivity]).
  destruct (window_facts _ m r Hp Hr ltac:(lia) ltac:(lia) ltac:(lia)) as [idx (Hi & _ & Hl & Hw & _)].
  destruct (window_good m r idx Hb Hp H0 Hw) as [Hbad Hval].
  set (f0 := get_tail_fitter (unused us)) in *.
  assert (Hl2 : (length idx / 2 = Z.to_nat (Z.min r (tf_max f0)))%nat) by (rewrite Hl, Nat.mul_comm, Nat.div_mul by lia; reflexivity).
  assert (Ht : (Z.of_nat N <= trunc (digits (fm_imfreq m)))%Z).
  { assert (0 <= digits (fm_imfreq m)) by (pose proof (pos_INR N); unfold digits; lra). pose proof (trunc_pos _ H) as Hq.
    assert (INR N < IZR (trunc (digits (fm_imfreq m))) + 1) by (unfold digits in *; lra). rewrite INR_IZR_INZ, <- plus_IZR in H1. apply lt_IZR in H1. lia. }
  set (nm := Z.min (Z.min max_order (trunc (digits (fm_imfreq m)))) (Z.of_nat (length idx / 2))).
  assert (Hnm : (Z.of_nat N <= nm)%Z) by (unfold nm, max_order; lia).
  assert (HS : exists N', (N <= N')%nat /\ search smin false (matrix (fm_imfreq m) 9 idx) (length km) nm = Some (columns (matrix (fm_imfreq m) 9 idx) (length km) (Z.of_nat N'))).
  { assert (Hin : smin false (columns (matrix (fm_imfreq m) 9 idx) (length km) (Z.of_nat N)) > / 10 ^ 8).
    { apply (Hs idx); [exact Hi|cbn [columns matrix vander m_rows]; unfold points; rewrite map_length; reflexivity|cbn [columns m_cols]; lia|].
      intros i j Hij. cbn [columns matrix vander m_at]. rewrite acc_mul_power, nth_points by exact Hij. rewrite i_omega_value. reflexivity. }
    unfold search. set (P := fun w : cmat => if Rlt_dec _ _ then true else false). set (len := Z.to_nat (nm - Z.of_nat (length km) + 1)).
    assert (G : forall q a, (q + a = len)%nat -> (a <= Z.to_nat nm - N)%nat -> exists N', (N <= N')%nat /\
       find P (map (fun i => columns (matrix (fm_imfreq m) 9 idx) (length km) (nm - Z.of_nat i)) (seq a q)) = Some (columns (matrix (fm_imfreq m) 9 idx) (length km) (Z.of_nat N'))).
    { induction q as [|q IH]; intros a Hq Haa; [unfold len in Hq; lia|]. cbn [seq map find]. destruct (P _) eqn:EP.
      - exists (Z.to_nat nm - a)%nat. split; [lia|]. f_equal. f_equal. lia.
      - apply IH; [lia|]. destruct (Nat.eq_dec a (Z.to_nat nm - N)) as [->|]; [|lia]. exfalso. unfold P in EP.
        replace (nm - Z.of_nat (Z.to_nat nm - N))%Z with (Z.of_nat N) in EP by lia. destruct (Rlt_dec _ _) as [|F]; [discriminate EP|]. apply F. exact Hin. }
    apply (G len 0%nat); lia. }
  destruct HS as (N' & HN' & HS). unfold fit_value. cbn [andb fm_imfreq fm_pos]. fold (fm_imfreq m). rewrite Hp, Ho, Ha, Hi. cbn [bind].
  replace (9 <? Z.of_nat (length km))%Z with false by (symmetry; apply Z.ltb_ge; lia). replace (10 <=? length km)%nat with false by (symmetry; apply Nat.leb_gt; lia).
  rewrite Hbad. unfold core. replace (length idx / 2 <? length km + 1)%nat with false by (symmetry; apply Nat.ltb_ge; rewrite Hl2; lia).
  replace (10 <=? length km)%nat with false by (symmetry; apply Nat.leb_gt; lia). cbn [andb negb].
  destruct (Rle_dec (2 ^ 63) (digits (fm_imfreq m))) as [F|_]; [unfold digits in F; lra|]. fold nm. rewrite HS. cbn [bind]. unfold finish. rewrite Hval.
  replace ((0 <? length km)%nat && negb (n =? nk)%nat) with false by (destruct Hc as [->| ->]; [reflexivity|rewrite Nat.eqb_refl, andb_false_r; reflexivity]).
  destruct (solve false _ n _ None) as [X err]. eexists _, _. split; [reflexivity|]. rewrite app_length, map_length, seq_length. cbn [columns m_cols]. lia.
Qed.
Print Assumptions C80_largest_order.
(** The hypotheses hold on the example mesh, where |om_max| = 9 and one point per end may be used *)
Example C80_largest_order_example : tf_adjust (get_tail_fitter (unused [])) = true /\ n_fit_range (get_tail_fitter (unused [])) (fm_imfreq ex_mesh) = 1%Z /\
  (0 < 1 < if_last ex_mesh)%Z /\ (Z.of_nat 1 <= Z.min 1 (tf_max (get_tail_fitter (unused []))))%Z /\ INR 1 <= 1 + 16 / log10 (1 + 9) < 2 ^ 63 /\
  Cmod (fm_wmax (fm_imfreq ex_mesh)) = 9.
Proof.
  split; [reflexivity|]. split; [exact (ex_range 30 None)|]. split; [cbn; lia|]. split; [cbn; lia|]. split.
  - unfold log10. replace (1 + 9) with 10 by lra. replace (ln 10 / ln 10) with 1; [cbn [INR]; lra|]. field. apply Rgt_not_eq. rewrite <- ln_1. apply ln_increasing; lra.
  - change (fm_wmax (fm_imfreq ex_mesh)) with (0, fr_value (if_freq ex_mesh (if_last ex_mesh))).
    replace (fr_value (if_freq ex_mesh (if_last ex_mesh))) with 9.
    + unfold Cmod. cbn [fst snd]. replace (0 ^ 2 + 9 ^ 2) with (9 * 9) by ring. apply sqrt_square. lra.
    + unfold fr_value, if_freq, ex_mesh. cbn. field. apply Rgt_not_eq, PI_RGT_0.
Qed.
(** C80.  No column beyond the matrix that the fitter keeps is read. *)
Theorem C80_columns_exist smin solve us m n g km nk t err v : (length km <= 9)%nat -> (Z.of_nat (length km) <= tf_order (get_tail_fitter (unused us)))%Z ->
  snd (fit_tail smin solve (history smin solve m us) m n g km nk) = Ok (t, err) ->
  tf_vander (get_tail_fitter (fst (fit_tail smin solve (history smin solve m us) m n g km nk))) = Some v -> (length t <= m_cols v)%nat.
Proof.
  intros Hk9 Hk HF Hv. rewrite fit_tail_value in HF.
  pose proof (fit_pure smin solve _ m _ false n g true km nk None (history_Inv smin solve m us)) as F. unfold fit_tail in Hv.
  destruct (fit smin solve false (get_tail_fitter (history smin solve m us)) m n g true km nk None) as [f' r]. cbn [fst get_tail_fitter] in Hv. destruct F as [FI _].
  destruct FI as (_ & _ & _ & _ & _ & _ & [(_ & Hn & _)|[idx (Hi & _ & _ & Hv' & _)]]); [congruence|].
  rewrite Hv' in Hv. injection Hv as <-. destruct (fit_order _ _ _ _ _ _ _ _ _ _ _ _ _ _ Hk HF Hi) as [_ Ho]. cbn [matrix vander m_cols].
  assert (Hx : tf_adjust (get_tail_fitter (unused us)) = true -> tf_order (get_tail_fitter (unused us)) = 9%Z) by (destruct (unused_made us) as [a [b [[c|] E]]]; rewrite E; intros X; [discriminate|reflexivity]).
  destruct (tf_adjust _); [rewrite (Hx eq_refl)|]; lia.
Qed.
Print Assumptions C80_columns_exist.

(** C80.  With more known moments than the order of the expansion, they are returned and nothing is fitted. *)
Theorem C80_all_known smin solve us m n g km nk : fm_pos m = false -> (tf_order (get_tail_fitter (unused us)) < Z.of_nat (length km))%Z ->
  snd (fit_tail smin solve (history smin solve m us) m n g km nk) = Ok (km, 0).
Proof. intros Hp Ho. rewrite fit_tail_value. apply fit_value_order; auto. Qed.
Print Assumptions C80_all_known.
(** C80.  Refused: meshes with positive frequencies only, too few frequencies, known moments of another shape, hermitian moments of a matrix that is not square. *)
Theorem C80_refused smin solve us m n g km nk :
  (forall m', fm_pos m' = true -> snd (fit_tail smin solve (history smin solve m' us) m' n g km nk) = Throw) /\
  (forall r, 0 < if_beta m -> if_pos m = false -> cround (tf_fraction (get_tail_fitter (unused us)) * IZR (if_size m) / 2) = r -> (0 < r < if_last m)%Z ->
     (0 < tf_max (get_tail_fitter (unused us)))%Z -> (Z.of_nat (length km) <= tf_order (get_tail_fitter (unused us)))%Z -> (length km < 10)%nat ->
     (Z.min r (tf_max (get_tail_fitter (unused us))) < Z.of_nat (length km) + 1)%Z ->
     snd (fit_tail smin solve (history smin solve (fm_imfreq m) us) (fm_imfreq m) n g km nk) = Throw) /\
  (forall m', km <> [] -> n <> nk -> (Z.of_nat (length km) <= tf_order (get_tail_fitter (unused us)))%Z ->
     forall x, snd (fit_tail smin solve (history smin solve m' us) m' n g km nk) <> Ok x) /\
  (forall m' a b, a <> b -> snd (fit_hermitian_tail smin solve (history smin solve m' us) m' [a; b] g km nk) = Throw).
Proof.
  split; [|split; [|split]].
  - intros m' Hp. rewrite fit_tail_value. unfold fit_value. cbn [andb]. rewrite Hp. reflexivity.
  - intros. rewrite fit_tail_value. eapply fit_few_points; eauto.
  - intros. rewrite fit_tail_value. apply fit_shape; assumption.
  - intros m' a b H. unfold fit_hermitian_tail. apply Nat.eqb_neq in H. rewrite H. reflexivity.
Qed.
Print Assumptions C80_refused.

(** two expansions that vanish at the two frequencies i w1, i w2 *)
Lemma two_points w1 w2 w : w1 <> RtoC 0 -> w2 <> RtoC 0 -> (w = w1 \/ w = w2) -> forall c,
  expansion 3 (fun j _ => match j with O => Cinv (Cmult w1 w2) | 1%nat => Copp (Cplus (Cinv w1) (Cinv w2)) | _ => RtoC 1 end) w c = RtoC 0.
Proof.
  intros N1 N2 Hw c. unfold expansion. rewrite !total_S. change (total 0 _) with (RtoC 0). change (power w 0) with (RtoC 1). change (power w 1) with (Cmult w (RtoC 1)). change (power w 2) with (Cmult w (Cmult w (RtoC 1))).
  rewrite !Cmult_1_r. assert (N0 : RtoC 1 <> RtoC 0) by (apply RtoC_nz; lra). destruct Hw; subst w; field; repeat split; auto.
Qed.
(** C80, not so with an order given by the user: with fewer frequencies than unknown moments no solver recovers every expansion, and the fit does not refuse. *)
Theorem C80_given_order_refuted : exists m us, if_pos m = false /\ 0 < if_beta m /\ forall smin solve,
  ~ (forall g t err mu, snd (fit_tail smin solve (history smin solve (fm_imfreq m) us) (fm_imfreq m) 1 g [] 0) = Ok (t, err) ->
       (forall i c, (if_first m <= i < if_first m + 1 \/ if_last m - 1 <= i < if_last m)%Z -> (c < 1)%nat ->
          g (Z.to_nat (if_to_data m i)) c = expansion (length t) mu (i_omega (if_beta m) (if_stat m) i) c) ->
       forall j c, (j < length t)%nat -> (c < 1)%nat -> row t j c = mu j c) /\
  forall g, exists t err, snd (fit_tail smin solve (history smin solve (fm_imfreq m) us) (fm_imfreq m) 1 g [] 0) = Ok (t, err) /\ length t = 3%nat.
Proof.
  exists ex_mesh, [UseSet (2 / 10) 30 (Some 2%Z)]. split; [reflexivity|]. split; [apply PI_RGT_0|]. intros smin solve.
  assert (S : forall g, exists t err, snd (fit_tail smin solve (history smin solve (fm_imfreq ex_mesh) [UseSet (2 / 10) 30 (Some 2%Z)]) (fm_imfreq ex_mesh) 1 g [] 0) = Ok (t, err) /\ length t = 3%nat).
  { intros g. rewrite fit_tail_value. change (get_tail_fitter (unused [UseSet (2 / 10) 30 (Some 2%Z)])) with (make_fitter (2 / 10) 30 (Some 2%Z)).
    destruct (fit_succeeds smin solve false ex_mesh 1 g true [] 0 None (2 / 10) 30 2 1) as [t [err [H L]]]; try (cbn; lia); try apply PI_RGT_0; try reflexivity; try (apply ex_range); auto.
    exists t, err. split; [exact H|lia]. }
  split; [|exact S]. intros H. destruct (S (fun _ _ => RtoC 0)) as [t [err [HF L]]].
  assert (Nz : forall i, i_omega PI Fermion i <> RtoC 0).
  { intros i E. change (i_omega (if_beta ex_mesh) (if_stat ex_mesh) i = RtoC 0) in E. rewrite i_omega_value in E. apply (f_equal snd) in E. cbn [snd RtoC] in E. revert E. apply fr_value_nz; [apply PI_RGT_0|discriminate]. }
  pose proof (H _ t err (fun _ _ => RtoC 0) HF) as A. pose proof (fun mu => H _ t err mu HF) as B. rewrite L in A, B.
  assert (A' : row t 2 0 = RtoC 0).
  { apply A; [|lia|lia]. intros i c Hi Hc. unfold expansion. symmetry. apply total_zero. intros. unfold Cdiv. ring. }
  assert (B' : row t 2 0 = RtoC 1).
  { apply (B (fun j _ => match j with O => Cinv (Cmult (i_omega PI Fermion (-5)) (i_omega PI Fermion 3)) | 1%nat => Copp (Cplus (Cinv (i_omega PI Fermion (-5))) (Cinv (i_omega PI Fermion 3))) | _ => RtoC 1 end)); [|lia|lia].
    intros i c Hi Hc. symmetry. apply two_points; try apply Nz. cbn in Hi. cbn [ex_mesh if_beta if_stat]. assert (D : i = (-5)%Z \/ i = 3%Z) by lia. destruct D; subst i; auto. }
  rewrite A' in B'. apply (f_equal fst) in B'. cbn in B'. lra.
Qed.
Print Assumptions C80_given_order_refuted.
(** C80, not so for ten or more known moments: the fit reads beyond the end of an array. *)
Theorem C80_many_known_refuted smin solve us m n g km nk : fm_pos m = false -> (10 <= length km)%nat -> (Z.of_nat (length km) <= tf_order (get_tail_fitter (unused us)))%Z ->
  snd (fit_tail smin solve (history smin solve m us) m n g km nk) = UB.
Proof.
  intros Hp Hk Ho. rewrite fit_tail_value. unfold fit_value. cbn [andb]. rewrite Hp. replace (tf_order _ <? _)%Z with false by (symmetry; apply Z.ltb_ge; exact Ho).
  apply Nat.leb_le in Hk. rewrite Hk. reflexivity.
Qed.
Print Assumptions C80_many_known_refuted.

(** C81.  On the mesh, the value is the one stored for this frequency. *)
Theorem C81_on_mesh smin solve hd m n g f : (if_first m <= fr_n f <= if_last m)%Z ->
  eval_iw smin solve hd m n g f = (hd, Ok (g (Z.to_nat (fr_n f - if_first m)))).
Proof. intros H. unfold eval_iw, if_valid. replace (_ && _) with true by (symmetry; apply andb_true_intro; rewrite !Z.leb_le; lia). reflexivity. Qed.
Print Assumptions C81_on_mesh.
(** C81.  With a mesh of positive frequencies, the value at a negative one is the complex conjugate of that at the mirror image; no other value exists. *)
Theorem C81_positive_mesh smin solve hd m n g f : if_pos m = true -> if_valid m (fr_n f) = false ->
  eval_iw smin solve hd m n g f =
    (hd, if if_valid m (- fr_n f - match if_stat m with Fermion => 1 | Boson => 0 end)
         then Ok (fun c => Cconj (g (Z.to_nat (- fr_n f - match if_stat m with Fermion => 1 | Boson => 0 end)) c)) else Throw).
Proof.
  intros Hp Hv. unfold eval_iw. rewrite Hv, Hp. clear Hv. unfold if_to_data, if_first. rewrite Hp. destruct (if_stat m); cbn [stat_eqb]; rewrite ?Z.sub_0_r; match goal with |- context [if_valid m ?x] => destruct (if_valid m x) end; reflexivity.
Qed.
Print Assumptions C81_positive_mesh.
Example C81_positive_mesh_ex smin solve g : eval_iw smin solve None (mkImfreq PI Fermion 5 true) 1 g (mkFreq (-2) PI Fermion) = (None, Ok (fun c => Cconj (g 1%nat c))).
Proof. reflexivity. Qed.
(** C81.  Outside a mesh with all frequencies, it is that of the expansion which fit_tail returns. *)
Theorem C81_outside smin solve us m n g f t err : if_pos m = false -> if_valid m (fr_n f) = false ->
  fr_beta f = if_beta m -> fr_stat f = if_stat m -> 0 < if_beta m -> (if_stat m = Boson -> fr_n f <> 0%Z) ->
  (0 <= tf_order (get_tail_fitter (unused us)))%Z ->
  snd (fit_tail smin solve (history smin solve (fm_imfreq m) us) (fm_imfreq m) n g [] 0) = Ok (t, err) ->
  exists v, snd (eval_iw smin solve (history smin solve (fm_imfreq m) us) m n g f) = Ok v /\
    forall c, v c = expansion (length t) (row t) (i_omega (if_beta m) (if_stat m) (fr_n f)) c.
Proof.
  intros Hp Hv Eb Es Hb Hn Ho HF. assert (Ef : f = if_freq m (fr_n f)) by (destruct f; cbn in Eb, Es |- *; subst; reflexivity).
  rewrite i_omega_value, <- Ef. apply eval_outside with (err := err); auto. rewrite Ef. apply fr_value_nz; assumption.
Qed.
Print Assumptions C81_outside.
(** C81.  If the function is an expansion in the window of the fit, the value outside the mesh is that of the same expansion. *)
Theorem C81_outside_exact smin solve us m r n g f t err mu : solves_general solve -> 0 < if_beta m -> if_pos m = false -> if_valid m (fr_n f) = false ->
  fr_beta f = if_beta m -> fr_stat f = if_stat m -> (if_stat m = Boson -> fr_n f <> 0%Z) ->
  cround (tf_fraction (get_tail_fitter (unused us)) * IZR (if_size m) / 2) = r -> (0 < r < if_last m)%Z -> (0 < tf_max (get_tail_fitter (unused us)))%Z ->
  (0 <= tf_order (get_tail_fitter (unused us)))%Z ->
  snd (fit_tail smin solve (history smin solve (fm_imfreq m) us) (fm_imfreq m) n g [] 0) = Ok (t, err) ->
  (tf_adjust (get_tail_fitter (unused us)) = true \/ (Z.of_nat (length t) <= 2 * Z.min r (tf_max (get_tail_fitter (unused us))))%Z) ->
  (forall i c, (if_first m <= i < if_first m + r \/ if_last m - r <= i < if_last m)%Z -> (c < n)%nat ->
     g (Z.to_nat (if_to_data m i)) c = expansion (length t) mu (i_omega (if_beta m) (if_stat m) i) c) ->
  exists v, snd (eval_iw smin solve (history smin solve (fm_imfreq m) us) m n g f) = Ok v /\
    forall c, (c < n)%nat -> v c = expansion (length t) mu (i_omega (if_beta m) (if_stat m) (fr_n f)) c.
Proof.
  intros HS Hb Hp Hv Eb Es Hn Hr H0 Hm Ho HF Hc Hg. destruct (C81_outside smin solve us m n g f t err Hp Hv Eb Es Hb Hn Ho HF) as [v [E Ev]].
  exists v. split; [exact E|]. intros c Hc'. rewrite Ev. apply expansion_ext. intros j Hj.
  apply (C80_recovers smin solve us m r n g [] 0 t err mu HS Hb Hp Hr H0 Hm); auto. intros j' c' Hj'. cbn in Hj'. lia.
Qed.
Print Assumptions C81_outside_exact.
Example C81_outside_exact_ex : if_valid ex_mesh (fr_n (mkFreq 7 PI Fermion)) = false /\ fr_beta (mkFreq 7 PI Fermion) = if_beta ex_mesh /\ fr_stat (mkFreq 7 PI Fermion) = if_stat ex_mesh /\ if_pos ex_mesh = false.
Proof. repeat split. Qed.

(** C81.  tail_eval is the expansion. *)
Theorem C81_tail_eval A om c : om <> RtoC 0 -> tail_eval A om c = expansion (length A) (row A) om c.
Proof. apply tail_eval_expansion. Qed.
Print Assumptions C81_tail_eval.
(** C81.  replace_by_tail writes the expansion to the frequencies n >= n_min and n < -n_min, and to no others. *)
Theorem C81_replace m g tail n_min n c : 0 < if_beta m -> (0 < n_min)%Z -> (if_first m <= n <= if_last m)%Z ->
  replace_by_tail m g tail n_min (Z.to_nat (n - if_first m)) c =
    if ((n_min <=? n) || (n <? - n_min))%Z then expansion (length tail) (row tail) (i_omega (if_beta m) (if_stat m) n) c else g (Z.to_nat (n - if_first m)) c.
Proof.
  intros Hb Hm Hn. unfold replace_by_tail, if_to_index. rewrite Z2Nat.id by lia. replace (n - if_first m + if_first m)%Z with n by lia.
  destruct ((n_min <=? n) || (n <? - n_min))%Z eqn:E; [|reflexivity]. rewrite i_omega_value. apply tail_eval_expansion. intros X. apply (f_equal snd) in X. revert X. cbn [snd RtoC].
  apply fr_value_nz; [exact Hb|]. intros _ ->. apply orb_prop in E. rewrite Z.leb_le, Z.ltb_lt in E. lia.
Qed.
Print Assumptions C81_replace.
Example C81_replace_ex : 0 < if_beta ex_mesh /\ (0 < 3)%Z /\ (if_first ex_mesh <= -4 <= if_last ex_mesh)%Z.
Proof. split; [apply PI_RGT_0|]. cbn. lia. Qed.
(** C81.  replace_by_tail_in_fit_window does so at all the frequencies which the fit may use. *)
Theorem C81_replace_window us m r g tail n c : 0 < if_beta m -> if_pos m = false ->
  cround (tf_fraction (get_tail_fitter (unused us)) * IZR (if_size m) / 2) = r -> (0 < r < if_last m)%Z ->
  (if_first m <= n < if_first m + r \/ if_last m - r <= n <= if_last m)%Z ->
  replace_by_tail_in_fit_window (unused us) m g tail (Z.to_nat (n - if_first m)) c = expansion (length tail) (row tail) (i_omega (if_beta m) (if_stat m) n) c.
Proof.
  intros Hb Hp Hr H0 Hn. unfold replace_by_tail_in_fit_window, n_fit_range. cbn [fm_imfreq fm_size]. rewrite Hr.
  assert (Hf : (- if_last m - 1 <= if_first m <= - if_last m)%Z) by (unfold if_first; rewrite Hp; destruct (stat_eqb _ _); lia).
  rewrite C81_replace by (auto; lia). replace ((if_last m - r <=? n) || _)%Z with true; [reflexivity|]. symmetry. apply orb_true_intro. rewrite Z.leb_le, Z.ltb_lt. lia.
Qed.
Print Assumptions C81_replace_window.
(** C81, not so for bosons: the replaced frequencies are not symmetric. *)
Theorem C81_replace_symmetric_refuted : exists m g tail n_min n, if_stat m = Boson /\ if_pos m = false /\ (if_first m <= - n)%Z /\ (n <= if_last m)%Z /\
  replace_by_tail m g tail n_min (Z.to_nat (n - if_first m)) 0%nat = RtoC 0 /\ replace_by_tail m g tail n_min (Z.to_nat (- n - if_first m)) 0%nat = RtoC 1.
Proof.
  exists (mkImfreq PI Boson 5 false), (fun _ _ => RtoC 1), [], 3%Z, 3%Z. repeat split; try reflexivity; cbn; lia.
Qed.
Print Assumptions C81_replace_symmetric_refuted.

(** the fit on a window is a fit on the restricted mesh *)
Lemma window_range n_min n_max mx o be : (0 < n_max)%Z -> (n_min <= n_max)%Z ->
  n_fit_range (make_fitter (IZR (n_max - n_min) / IZR n_max) mx o) (fm_imfreq (mkImfreq be Fermion n_max false)) = (n_max - n_min)%Z.
Proof.
  intros H0 H1. unfold n_fit_range, cround. cbn [make_fitter tf_fraction fm_imfreq fm_size]. replace (if_size (mkImfreq be Fermion n_max false)) with (2 * n_max)%Z by (unfold if_size, if_first, if_last; cbn [if_pos if_stat if_n stat_eqb]; lia).
  assert (N : 0 < IZR n_max) by (apply IZR_lt; exact H0). rewrite mult_IZR. replace (IZR (n_max - n_min) / IZR n_max * (2 * IZR n_max) / 2) with (IZR (n_max - n_min)) by (field; lra).
  assert (P : 0 <= IZR (n_max - n_min)) by (apply IZR_le; lia). destruct (Rle_dec 0 _) as [H|H]; [|lra]. apply int_part_unique. lra.
Qed.
Lemma on_window smin solve m n g n_min n_max km nk mx e : if_pos m = false -> (1 < n_min < n_max)%Z -> (n_max <= if_last m)%Z ->
  fit_tail_on_window smin solve m n g n_min n_max km nk mx e =
    fit_value smin solve false (make_fitter (IZR (n_max - n_min) / IZR n_max) mx (Some e)) (fm_imfreq (mkImfreq (if_beta m) Fermion n_max false)) n
      (fun d => g (Z.to_nat (- n_max - if_first m) + d)%nat) true km nk None.
Proof.
  intros Hp H0 H1. unfold fit_tail_on_window. replace (n_max =? -1)%Z with false by (symmetry; apply Z.eqb_neq; lia). unfold restricted_view.
  assert (Hf : (- if_last m - 1 <= if_first m <= - if_last m)%Z) by (unfold if_first; rewrite Hp; destruct (stat_eqb _ _); lia).
  set (rm := mkImfreq (if_beta m) Fermion n_max false). assert (F : if_first rm = (- n_max)%Z) by (unfold rm, if_first, if_last; cbn; lia). assert (L : if_last rm = (n_max - 1)%Z) by reflexivity.
  unfold if_to_data, if_size. rewrite F, L. replace ((_ <? 0) || _ || _)%Z with false.
  - cbn [bind fst snd]. replace (n_max =? 0)%Z with false by (symmetry; apply Z.eqb_neq; lia).
    exact (fit_tail_value0 smin solve (fm_imfreq rm) [UseSet (IZR (n_max - n_min) / IZR n_max) mx (Some e)] n (fun d => g (Z.to_nat (- n_max - if_first m) + d)%nat) km nk).
  - symmetry. apply orb_false_intro; [apply orb_false_intro|]; apply Z.ltb_ge; lia.
Qed.
(** C81.  For fermions, a fit on a window returns the expansion of data that are one at the frequencies -n_max, ..., -n_min-1 and n_min-1, ..., n_max-2. *)
Theorem C81_window smin solve m n g n_min n_max km nk mx e mu : solves_general solve -> 0 < if_beta m -> if_stat m = Fermion -> if_pos m = false ->
  (1 < n_min < n_max)%Z -> (n_max <= if_last m)%Z -> (Z.of_nat (length km) <= e)%Z -> (length km < 10)%nat -> (km = [] \/ n = nk) ->
  (Z.of_nat (length km) + 1 <= Z.min (n_max - n_min) mx)%Z -> (e + 1 <= Z.of_nat (length km) + 2 * Z.min (n_max - n_min) mx)%Z ->
  (forall j c, (j < length km)%nat -> mu j c = row km j c) ->
  (forall i c, (- n_max <= i < - n_min \/ n_min - 1 <= i < n_max - 1)%Z -> (c < n)%nat ->
     g (Z.to_nat (i - if_first m)) c = expansion (Z.to_nat (e + 1)) mu (i_omega (if_beta m) Fermion i) c) ->
  exists t err, fit_tail_on_window smin solve m n g n_min n_max km nk mx e = Ok (t, err) /\ Z.of_nat (length t) = (e + 1)%Z /\
    forall j c, (j < length t)%nat -> (c < n)%nat -> row t j c = mu j c.
Proof.
  intros HS Hb Hs Hp H0 H1 Hk Hk9 Hc Hmin Hcnt Hmu Hg. rewrite on_window by assumption. set (rm := mkImfreq (if_beta m) Fermion n_max false).
  assert (F : if_first rm = (- n_max)%Z) by (unfold rm, if_first, if_last; cbn; lia). assert (L : if_last rm = (n_max - 1)%Z) by reflexivity.
  assert (Fm : if_first m = (- if_last m - 1)%Z) by (unfold if_first; rewrite Hp, Hs; cbn; lia).
  pose proof (window_range n_min n_max mx (Some e) (if_beta m) ltac:(lia) ltac:(lia)) as Hr. fold rm in Hr.
  destruct (fit_succeeds smin solve false rm n (fun d => g (Z.to_nat (- n_max - if_first m) + d)%nat) true km nk None (IZR (n_max - n_min) / IZR n_max) mx e (n_max - n_min)) as [t [err [HF HL]]];
    try assumption; try reflexivity; try (rewrite L; lia); [left; reflexivity|].
  exists t, err. split; [exact HF|]. split; [exact HL|].
  apply (recovers smin solve false _ rm n _ km nk None t err (n_max - n_min) (fun _ => True) mu True_closed (fun w B => HS w n B) Hb eq_refl Hr ltac:(rewrite L; lia) ltac:(cbn [make_fitter tf_max]; lia) Hk HF); [right; rewrite HL; cbn [make_fitter tf_max]; lia|exact I|exact Hmu|].
  intros i c Hi Hc'. rewrite F, L in Hi. unfold if_to_data. rewrite F. replace (Z.to_nat (- n_max - if_first m) + Z.to_nat (i - - n_max))%nat with (Z.to_nat (i - if_first m)) by lia.
  rewrite Hg by lia. replace (Z.to_nat (e + 1)) with (length t) by lia. reflexivity.
Qed.
Print Assumptions C81_window.
Example C81_window_ex : (1 < 3 < 4)%Z /\ (4 <= if_last ex_mesh)%Z /\ (0 + 1 <= Z.min (4 - 3) 30)%Z /\ (1 + 1 <= 0 + 2 * Z.min (4 - 3) 30)%Z.
Proof. cbn. lia. Qed.
Lemma iw_pi s i : i_omega PI s i = (0, IZR (2 * i + match s with Fermion => 1 | Boson => 0 end)).
Proof. unfold i_omega. pose proof PI_RGT_0. apply Ceq; cbn [fst snd Cmult Ci RtoC]; field; lra. Qed.
(** C81, not so for bosons: the data are fitted as if they were those of fermionic frequencies.  For 1 / (i w) every solver returns the first moment 21 / 20. *)
Theorem C81_bosonic_window_refuted : exists m g mu, if_stat m = Boson /\ if_pos m = false /\ 0 < if_beta m /\
  (forall i c, (if_first m <= i <= if_last m)%Z -> i <> 0%Z -> g (Z.to_nat (i - if_first m)) c = expansion 2 mu (i_omega (if_beta m) Boson i) c) /\
  forall smin solve, solves_general solve -> exists t err, fit_tail_on_window smin solve m 1 g 4 5 [] 0 1 1 = Ok (t, err) /\ length t = 2%nat /\
    row t 1 0 = RtoC (21 / 20) /\ mu 1%nat 0%nat = RtoC 1.
Proof.
  set (m := mkImfreq PI Boson 6 false). set (mu := fun j (c : nat) => match j with 1%nat => RtoC 1 | _ => RtoC 0 end).
  exists m, (fun d c => expansion 2 mu (i_omega PI Boson (Z.of_nat d - 5)) c), mu. split; [reflexivity|]. split; [reflexivity|]. split; [apply PI_RGT_0|]. split.
  { intros i c Hi _. cbn in Hi. change (if_first m) with (-5)%Z. do 2 f_equal. lia. }
  intros smin solve HS. rewrite on_window by (cbn; (reflexivity || lia)). change (if_beta m) with PI.
  pose proof (window_range 4 5 1 (Some 1%Z) PI ltac:(lia) ltac:(lia)) as Hr. set (rm := mkImfreq PI Fermion 5 false) in *.
  destruct (fit_succeeds smin solve false rm 1 (fun d => (fun d c => expansion 2 mu (i_omega PI Boson (Z.of_nat d - 5)) c) (Z.to_nat (- 5 - if_first m) + d)%nat) true [] 0 None (IZR (5 - 4) / IZR 5) 1 1 (5 - 4)) as [t [err [HF HL]]];
    try exact Hr; try apply PI_RGT_0; try reflexivity; try (cbn; lia); auto.
  exists t, err. split; [exact HF|]. split; [lia|]. split; [|reflexivity].
  assert (HL' : length t = 2%nat) by lia.
  apply (recovers smin solve false _ rm 1 _ [] 0 None t err (5 - 4) (fun _ => True) (fun j _ => match j with O => (0, - / 60) | _ => RtoC (21 / 20) end) True_closed (fun w B => HS w 1%nat B) PI_RGT_0 eq_refl Hr ltac:(cbn; lia) ltac:(cbn; lia) ltac:(cbn; lia) HF); [right; rewrite HL'; cbn; lia|exact I|intros j c Hj; cbn in Hj; lia| |lia|lia].
  intros i c Hi Hc. rewrite HL'. cbn in Hi. cbn [rm if_beta if_stat]. assert (D : i = (-5)%Z \/ i = 3%Z) by lia. pose proof PI_RGT_0 as HPI.
  unfold if_to_data. change (if_first m) with (-5)%Z. change (if_first rm) with (-5)%Z.
  set (k := (Z.of_nat _ - 5)%Z). assert (Ek : k = i) by (unfold k; lia). rewrite Ek. clearbody k. clear Ek k.
  destruct D; subst i; unfold expansion; rewrite !total_S; change (total 0 _) with (RtoC 0); rewrite !iw_pi; cbn [mu Z.mul Z.add Pos.mul Pos.add Z.pos_sub]; unfold power; apply Ceq; cbn; field.
Qed.
Print Assumptions C81_bosonic_window_refuted.
