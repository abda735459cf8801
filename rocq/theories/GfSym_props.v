(** C53: hermitian symmetrisation and the half-mesh representation of Matsubara functions. *)
From Coq Require Import ZArith Reals List Bool Lia Ring.
From Verif Require Import Base Scalar ScalarInst Matsubara GfSym GfSymSpec GfSym_proofs.
Import ListNotations.
Local Open Scope Z_scope.

Section Aux.
  Context (S : scalar_ops) (L : scalar_laws S) (half : S) (H2 : kadd half half = k1).
  Local Open Scope K_scope.
  Add Ring Kr : (sl_ring S L).
  Lemma half_real : kconj half = half.
  Proof.
    assert (E : kconj half + kconj half = k1) by (rewrite <- (sl_conj_add S L), H2; apply (kconj_1 S L)).
    transitivity (kconj half * (half + half)); [rewrite H2; ring|]. transitivity (half * (kconj half + kconj half)); [ring|]. rewrite E. ring.
  Qed.
  Lemma half_twice (x : S) : half * (x + x) = x.
  Proof. transitivity ((half + half) * x); [ring|]. rewrite H2. ring. Qed.
  Lemma sym_invol (x y : S) : kconj (half * (x + kconj y)) = half * (y + kconj x).
  Proof. rewrite (sl_conj_mul S L), (sl_conj_add S L), (sl_conj_conj S L), half_real. ring. Qed.
  Lemma opposite_opposite s n : opposite s (opposite s n) = n.
  Proof. destruct s; cbn; lia. Qed.

  Lemma sym_made (sw : list nat -> list nat) g g' : (forall q, sw (sw q) = q) -> complete S g -> if_pos (g_mesh S g) = false ->
    (exists d, sym_loop S half sw g (g_points S g) (g_data S g) = Ok d /\ g' = mkGfiw S (g_mesh S g) (g_sh S g) d) ->
    alike S g' g /\
    (forall n q, on_mesh S g n -> value S g' n q = half * (value S g n q + kconj (value S g (opposite (if_stat (g_mesh S g)) n) (sw q)))) /\
    (forall n q, on_mesh S g n -> kconj (value S g' (opposite (if_stat (g_mesh S g)) n) (sw q)) = value S g' n q) /\
    ((forall n q, on_mesh S g n -> kconj (value S g (opposite (if_stat (g_mesh S g)) n) (sw q)) = value S g n q) ->
      forall n q, on_mesh S g n -> value S g' n q = value S g n q).
  Proof.
    intros Hsw C F (d & E & ->). destruct (sym_all S g C F half sw) as (d' & E' & L' & V). rewrite E in E'. injection E' as <-.
    assert (W : forall n q, on_mesh S g n -> value S (mkGfiw S (g_mesh S g) (g_sh S g) d) n q = half * (value S g n q + kconj (value S g (opposite (if_stat (g_mesh S g)) n) (sw q)))).
    { intros n q Hn. apply sym_value; assumption. }
    split; [repeat split; exact L'|]. split; [exact W|]. split.
    - intros n q Hn. rewrite (W n q Hn), (W _ _ (opp_on_mesh S g C F n Hn)). rewrite opposite_opposite, Hsw. apply sym_invol.
    - intros H n q Hn. rewrite (W n q Hn), (H n q Hn). apply half_twice.
  Qed.
End Aux.

(** the exchange of target subscripts in the code *)
Lemma tswap_exchange (sh q : list nat) : (length sh = 0 \/ length sh = 2 \/ length sh = 4)%nat -> length q = length sh -> tswap q = exchange q.
Proof.
  intros H E. rewrite <- E in H. clear E. destruct q as [|a [|b [|c [|d [|e q]]]]]; try reflexivity; cbn in H; exfalso; lia.
Qed.
Lemma square_tswap sh : square_target sh -> tswap sh = sh.
Proof. intros [H E]. rewrite (tswap_exchange sh sh H eq_refl). exact E. Qed.
Lemma subscript_length sh q : subscript sh q -> length q = length sh.
Proof. unfold subscript. induction 1; cbn; auto. Qed.
Lemma exchange_length q : length (exchange q) = length q.
Proof. unfold exchange. rewrite app_length, Nat.add_comm, <- app_length, firstn_skipn. reflexivity. Qed.
Lemma herm_made : forall (S : scalar_ops) (half : S) (g : gfiw S), scalar_laws S -> kadd half half = k1 ->
  complete S g -> if_pos (g_mesh S g) = false -> tswap (g_sh S g) = g_sh S g ->
  exists g', make_hermitian S half g = Ok g' /\ alike S g' g /\
    (forall n q, on_mesh S g n ->
       value S g' n q = kmul half (kadd (value S g n q) (kconj (value S g (opposite (if_stat (g_mesh S g)) n) (tswap q))))) /\
    (forall n q, on_mesh S g n -> kconj (value S g' (opposite (if_stat (g_mesh S g)) n) (tswap q)) = value S g' n q) /\
    ((forall n q, on_mesh S g n -> kconj (value S g (opposite (if_stat (g_mesh S g)) n) (tswap q)) = value S g n q) ->
       forall n q, on_mesh S g n -> value S g' n q = value S g n q).
Proof.
  intros S half g L H2 C F Sh. unfold make_hermitian. rewrite F, (proj2 (same_shape_true _) Sh). cbn [negb].
  destruct (sym_all S g C F half tswap) as (d & E & _). rewrite E. cbn [bind]. eexists. split; [reflexivity|].
  apply (sym_made S L half H2 tswap g _ tswap_invol C F). exists d. auto.
Qed.

Lemma herm_test : forall (S : scalar_ops) (exceeds : S -> bool) (g : gfiw S), complete S g -> if_pos (g_mesh S g) = false ->
  tswap (g_sh S g) = g_sh S g ->
  exists b, is_gf_hermitian S exceeds g = Ok b /\
    (b = true <-> forall n q, on_mesh S g n -> subscript (g_sh S g) q ->
       exceeds (ksub (kconj (value S g (opposite (if_stat (g_mesh S g)) n) (tswap q))) (value S g n q)) = false).
Proof.
  intros S exceeds g C F Sh. unfold is_gf_hermitian. rewrite F, (proj2 (same_shape_true _) Sh). cbn [negb]. exact (sym_test_all S g C F exceeds tswap).
Qed.

Lemma herm_after : forall (S : scalar_ops) (half : S) (exceeds : S -> bool) (g : gfiw S), scalar_laws S -> kadd half half = k1 ->
  exceeds k0 = false -> complete S g -> tswap (g_sh S g) = g_sh S g ->
  exists g', make_hermitian S half g = Ok g' /\ is_gf_hermitian S exceeds g' = Ok true /\
    exists g'', make_hermitian S half g' = Ok g'' /\ alike S g'' g' /\ forall n q, on_mesh S g' n -> value S g'' n q = value S g' n q.
Proof.
  intros S half exceeds g L H2 Hz C Sh. destruct (if_pos (g_mesh S g)) eqn:F.
  - exists g. unfold make_hermitian, is_gf_hermitian. rewrite F. split; [reflexivity|]. split; [reflexivity|]. exists g. repeat split; reflexivity.
  - destruct (herm_made S half g L H2 C F Sh) as (g' & E & (A1 & A2 & A3) & _ & Hm & _). exists g'. split; [exact E|].
    assert (C' : complete S g') by (unfold complete; rewrite A1, A3; exact C).
    assert (F' : if_pos (g_mesh S g') = false) by (rewrite A1; exact F). assert (Sh' : tswap (g_sh S g') = g_sh S g') by (rewrite A2; exact Sh).
    assert (Hm' : forall n q, on_mesh S g' n -> kconj (value S g' (opposite (if_stat (g_mesh S g')) n) (tswap q)) = value S g' n q) by (unfold on_mesh in *; rewrite A1; exact Hm).
    split.
    + destruct (herm_test S exceeds g' C' F' Sh') as (b & Eb & Hb). rewrite Eb. f_equal. apply Hb. intros n q Hn _. rewrite (Hm' n q Hn).
      destruct (sl_ring S L). rewrite Rsub_def, Ropp_def. exact Hz.
    + destruct (herm_made S half g' L H2 C' F' Sh') as (g'' & E'' & A'' & _ & _ & U). exists g''. split; [exact E''|]. split; [exact A''|]. exact (U Hm').
Qed.

(** make_hermitian of a function given on all frequencies, with a scalar, square matrix or tensor target whose shape is
    unchanged by the exchange of the index pairs: on the same mesh, G'(iw)_q = (G(iw)_q + conj G(-iw)_q~) / 2 where q~ is q with the
    pairs exchanged; the result is hermitian; a hermitian function is left unchanged. *)
Theorem C53_make_hermitian : forall (S : scalar_ops) (half : S) (g : gfiw S), scalar_laws S -> kadd half half = k1 ->
  complete S g -> if_pos (g_mesh S g) = false -> square_target (g_sh S g) ->
  exists g', make_hermitian S half g = Ok g' /\ alike S g' g /\
    (forall n q, on_mesh S g n -> length q = length (g_sh S g) ->
       value S g' n q = kmul half (kadd (value S g n q) (kconj (value S g (opposite (if_stat (g_mesh S g)) n) (exchange q))))) /\
    (forall n q, on_mesh S g n -> length q = length (g_sh S g) -> kconj (value S g' (opposite (if_stat (g_mesh S g)) n) (exchange q)) = value S g' n q) /\
    ((forall n q, on_mesh S g n -> length q = length (g_sh S g) -> kconj (value S g (opposite (if_stat (g_mesh S g)) n) (exchange q)) = value S g n q) ->
       forall n q, on_mesh S g n -> length q = length (g_sh S g) -> value S g' n q = value S g n q).
Proof.
  intros S half g L H2 C F Sq. destruct (herm_made S half g L H2 C F (square_tswap _ Sq)) as (g' & E & A & V & Hm & _). exists g'. split; [exact E|]. split; [exact A|].
  assert (V' : forall n q, on_mesh S g n -> length q = length (g_sh S g) ->
       value S g' n q = kmul half (kadd (value S g n q) (kconj (value S g (opposite (if_stat (g_mesh S g)) n) (exchange q))))).
  { intros n q Hn Hq. rewrite <- (tswap_exchange (g_sh S g) q (proj1 Sq) Hq). exact (V n q Hn). }
  split; [exact V'|]. split.
  - intros n q Hn Hq. rewrite <- (tswap_exchange (g_sh S g) q (proj1 Sq) Hq). exact (Hm n q Hn).
  - intros H n q Hn Hq. rewrite (V' n q Hn Hq), (H n q Hn Hq). apply (half_twice S L half H2).
Qed.
Print Assumptions C53_make_hermitian.

(** is_gf_hermitian is true exactly when no element of G(-iw)^dagger - G(iw) exceeds the tolerance *)
Theorem C53_is_gf_hermitian : forall (S : scalar_ops) (exceeds : S -> bool) (g : gfiw S), complete S g -> if_pos (g_mesh S g) = false ->
  square_target (g_sh S g) ->
  exists b, is_gf_hermitian S exceeds g = Ok b /\
    (b = true <-> forall n q, on_mesh S g n -> subscript (g_sh S g) q ->
       exceeds (ksub (kconj (value S g (opposite (if_stat (g_mesh S g)) n) (exchange q))) (value S g n q)) = false).
Proof.
  intros S exceeds g C F Sq. destruct (herm_test S exceeds g C F (square_tswap _ Sq)) as (b & E & H). exists b. split; [exact E|]. rewrite H. split; intros Q n q Hn Hq.
  - rewrite <- (tswap_exchange (g_sh S g) q (proj1 Sq) (subscript_length _ _ Hq)). exact (Q n q Hn Hq).
  - rewrite (tswap_exchange (g_sh S g) q (proj1 Sq) (subscript_length _ _ Hq)). exact (Q n q Hn Hq).
Qed.
Print Assumptions C53_is_gf_hermitian.

(** the symmetrised function passes the test, for any tolerance that zero does not exceed; symmetrising twice changes nothing *)
Theorem C53_hermitian_after : forall (S : scalar_ops) (half : S) (exceeds : S -> bool) (g : gfiw S), scalar_laws S -> kadd half half = k1 ->
  exceeds k0 = false -> complete S g -> square_target (g_sh S g) ->
  exists g', make_hermitian S half g = Ok g' /\ is_gf_hermitian S exceeds g' = Ok true /\
    exists g'', make_hermitian S half g' = Ok g'' /\ alike S g'' g' /\ forall n q, on_mesh S g' n -> value S g'' n q = value S g' n q.
Proof. intros S half exceeds g L H2 Hz C Sq. exact (herm_after S half exceeds g L H2 Hz C (square_tswap _ Sq)). Qed.
Print Assumptions C53_hermitian_after.

(** the same for make_real_in_tau and is_gf_real_in_tau: no exchange of target indices, any target *)
Theorem C53_real_in_tau : forall (S : scalar_ops) (half : S) (exceeds : S -> bool) (g : gfiw S), scalar_laws S -> kadd half half = k1 ->
  exceeds k0 = false -> complete S g -> if_pos (g_mesh S g) = false ->
  (exists b, is_gf_real_in_tau S exceeds g = Ok b /\
    (b = true <-> forall n q, on_mesh S g n -> subscript (g_sh S g) q ->
       exceeds (ksub (kconj (value S g (opposite (if_stat (g_mesh S g)) n) q)) (value S g n q)) = false)) /\
  exists g', make_real_in_tau S half g = Ok g' /\ alike S g' g /\ is_gf_real_in_tau S exceeds g' = Ok true /\
    (forall n q, on_mesh S g n ->
       value S g' n q = kmul half (kadd (value S g n q) (kconj (value S g (opposite (if_stat (g_mesh S g)) n) q)))) /\
    (forall n q, on_mesh S g n -> kconj (value S g' (opposite (if_stat (g_mesh S g)) n) q) = value S g' n q) /\
    ((forall n q, on_mesh S g n -> kconj (value S g (opposite (if_stat (g_mesh S g)) n) q) = value S g n q) ->
       forall n q, on_mesh S g n -> value S g' n q = value S g n q).
Proof.
  intros S half exceeds g L H2 Hz C F.
  assert (T : forall g : gfiw S, complete S g -> if_pos (g_mesh S g) = false -> exists b, is_gf_real_in_tau S exceeds g = Ok b /\
    (b = true <-> forall n q, on_mesh S g n -> subscript (g_sh S g) q ->
       exceeds (ksub (kconj (value S g (opposite (if_stat (g_mesh S g)) n) q)) (value S g n q)) = false)).
  { intros g0 C0 F0. unfold is_gf_real_in_tau. rewrite F0. exact (sym_test_all S g0 C0 F0 exceeds (fun q => q)). }
  split; [exact (T g C F)|]. unfold make_real_in_tau. rewrite F. destruct (sym_all S g C F half (fun q => q)) as (d & E & _). rewrite E. cbn [bind]. eexists. split; [reflexivity|].
  destruct (sym_made S L half H2 (fun q => q) g (mkGfiw S (g_mesh S g) (g_sh S g) d) (fun q => eq_refl) C F) as (A & V & Hm & U); [exists d; auto|].
  split; [exact A|]. split; [|split; [exact V|split; [exact Hm|exact U]]]. destruct A as (A1 & A2 & A3).
  destruct (T (mkGfiw S (g_mesh S g) (g_sh S g) d)) as (b & Eb & Hb); [unfold complete; rewrite A1, A3; exact C|exact F|]. rewrite Eb. f_equal. apply Hb. intros n q Hn _.
  pose proof (Hm n q Hn) as Q. cbn [g_mesh] in *. rewrite Q. destruct (sl_ring S L). rewrite Rsub_def, Ropp_def. exact Hz.
Qed.
Print Assumptions C53_real_in_tau.

Lemma herm_tau : forall (S : scalar_ops) (half : S) (exceeds : S -> bool) (sh : list nat) (data : list (tgt S)), scalar_laws S ->
  kadd half half = k1 -> exceeds k0 = false -> tswap sh = sh ->
  (exists b, is_gf_hermitian_tau S exceeds sh data = Ok b /\
    (b = true <-> forall a q, In a data -> subscript sh q -> exceeds (ksub (kconj (a (tswap q))) (a q)) = false)) /\
  exists data', make_hermitian_tau S half sh data = Ok data' /\ length data' = length data /\ is_gf_hermitian_tau S exceeds sh data' = Ok true /\
    forall k a a' q, nth_error data k = Some a -> nth_error data' k = Some a' ->
      a' q = kmul half (kadd (a q) (kconj (a (tswap q)))) /\ kconj (a' (tswap q)) = a' q /\
      ((forall q', kconj (a (tswap q')) = a q') -> a' q = a q).
Proof.
  intros S half exceeds sh data L H2 Hz Sh. unfold is_gf_hermitian_tau, make_hermitian_tau. rewrite (proj2 (same_shape_true _) Sh). cbn [negb].
  assert (T : forall data : list (tgt S), forallb (fun a : tgt S => negb (existsb (fun q => exceeds (ksub (kconj (a (tswap q))) (a q))) (target_indices sh))) data = true <->
    forall a q, In a data -> subscript sh q -> exceeds (ksub (kconj (a (tswap q))) (a q)) = false).
  { intros data0. rewrite forallb_forall. split.
    - intros H a q Ha Hq. specialize (H a Ha). apply negb_true_iff in H. destruct (exceeds (ksub (kconj (a (tswap q))) (a q))) eqn:E; [|reflexivity].
      assert (X : existsb (fun q => exceeds (ksub (kconj (a (tswap q))) (a q))) (target_indices sh) = true) by (apply existsb_exists; exists q; split; [apply target_indices_spec; exact Hq|exact E]). congruence.
    - intros H a Ha. apply negb_true_iff. destruct (existsb _ _) eqn:E; [|reflexivity]. apply existsb_exists in E. destruct E as (q & Hq & E). apply target_indices_spec in Hq. rewrite (H a q Ha Hq) in E. discriminate E. }
  split; [eexists; split; [reflexivity|]; apply T|]. eexists. split; [reflexivity|]. split; [apply map_length|]. split.
  - f_equal. apply T. intros a q Ha _. apply in_map_iff in Ha. destruct Ha as (a0 & <- & _). rewrite (sym_invol S L half H2), tswap_invol. destruct (sl_ring S L). rewrite Rsub_def, Ropp_def. exact Hz.
  - intros k a a' q Ha Ha'. rewrite nth_error_map, Ha in Ha'. cbn in Ha'. injection Ha' as <-. split; [reflexivity|]. split; [rewrite (sym_invol S L half H2), tswap_invol; reflexivity|].
    intros H. rewrite H. apply (half_twice S L half H2).
Qed.
(** imaginary time: each point separately *)
Theorem C53_hermitian_tau : forall (S : scalar_ops) (half : S) (exceeds : S -> bool) (sh : list nat) (data : list (tgt S)), scalar_laws S ->
  kadd half half = k1 -> exceeds k0 = false -> square_target sh ->
  (exists b, is_gf_hermitian_tau S exceeds sh data = Ok b /\
    (b = true <-> forall a q, In a data -> subscript sh q -> exceeds (ksub (kconj (a (exchange q))) (a q)) = false)) /\
  exists data', make_hermitian_tau S half sh data = Ok data' /\ length data' = length data /\ is_gf_hermitian_tau S exceeds sh data' = Ok true /\
    forall k a a' q, nth_error data k = Some a -> nth_error data' k = Some a' -> length q = length sh ->
      a' q = kmul half (kadd (a q) (kconj (a (exchange q)))) /\ kconj (a' (exchange q)) = a' q /\
      (kconj (a (exchange q)) = a q -> a' q = a q).
Proof.
  intros S half exceeds sh data L H2 Hz Sq. destruct (herm_tau S half exceeds sh data L H2 Hz (square_tswap _ Sq)) as [(b & E & H) (data' & E' & HL & T & V)]. split.
  - exists b. split; [exact E|]. rewrite H. split; intros Q a q Ha Hq.
    + rewrite <- (tswap_exchange sh q (proj1 Sq) (subscript_length _ _ Hq)). exact (Q a q Ha Hq).
    + rewrite (tswap_exchange sh q (proj1 Sq) (subscript_length _ _ Hq)). exact (Q a q Ha Hq).
  - exists data'. split; [exact E'|]. split; [exact HL|]. split; [exact T|]. intros k a a' q Ha Ha' Hq. destruct (V k a a' q Ha Ha') as (V1 & V2 & _).
    rewrite <- (tswap_exchange sh q (proj1 Sq) Hq). split; [exact V1|]. split; [exact V2|]. intros X. rewrite V1, X. apply (half_twice S L half H2).
Qed.
Print Assumptions C53_hermitian_tau.

(** make_gf_from_real_gf: every element of the new array is assigned; the result is a function on all frequencies of the same
    mesh; it agrees with the original on the non-negative ones and G(-iw) = conj G(iw) (for bosons, at w = 0, this needs G(0) real);
    taking the positive frequencies of it gives the original back.  A function given on all frequencies is rejected. *)
Theorem C53_from_real : forall (S : scalar_ops) (g : gfiw S),
  (if_pos (g_mesh S g) = false -> make_gf_from_real_gf S g = Throw) /\
  (complete S g -> if_pos (g_mesh S g) = true ->
   exists g', make_gf_from_real_gf S g = Ok (mkNew S (g_mesh S g') (g_sh S g') (map Some (g_data S g'))) /\
     complete S g' /\ g_sh S g' = g_sh S g /\
     g_mesh S g' = mkImfreq (if_beta (g_mesh S g)) (if_stat (g_mesh S g)) (if_n (g_mesh S g)) false /\
     (forall n q, 0 <= n < if_n (g_mesh S g) -> value S g' n q = value S g n q) /\
     (forall n q, 0 <= n < if_n (g_mesh S g) -> (if_stat (g_mesh S g) = Boson -> n = 0 -> kconj (value S g 0 q) = value S g 0 q) ->
        value S g' (opposite (if_stat (g_mesh S g)) n) q = kconj (value S g n q)) /\
     positive_freq_view S g' = Ok g).
Proof.
  intros S g. split; [intros F; unfold make_gf_from_real_gf; rewrite F; reflexivity|]. intros C F.
  destruct (from_real_ok S g C F) as (d' & E & C' & V1 & V2). cbv zeta in *. set (g' := mkGfiw S _ (g_sh S g) d') in *. exists g'. split; [exact E|]. split; [exact C'|]. split; [reflexivity|]. split; [reflexivity|].
  assert (W : forall n q, 0 <= n < if_n (g_mesh S g) -> value S g' n q = value S g n q).
  { intros n q Hn. unfold value at 1. change (g_data S g') with d'. rewrite (nth_error_nth _ _ (zero S) (V1 n Hn)). unfold value, if_first. rewrite F, Z.sub_0_r. reflexivity. }
  split; [exact W|]. split.
  - intros n q Hn Hz. destruct (Z.eq_dec n 0) as [->|Hn0]; [|apply V2; [exact Hn|auto]]. destruct (if_stat (g_mesh S g)) eqn:Es.
    + cbn [opposite]. rewrite (Hz eq_refl eq_refl). apply W. exact Hn.
    + apply V2; [exact Hn|discriminate].
  - destruct (positive_ok S g' C') as (g'' & E'' & [C1'' C2''] & M'' & S'' & V''). rewrite E''. f_equal.
    assert (Dt : g_data S g'' = g_data S g).
    { destruct C as [Cn Cl]. rewrite M'' in C2''. unfold if_size, if_first, if_last, if_positive in C2'', Cl. cbn [if_pos if_n g_mesh g'] in C2''. rewrite F in Cl.
      apply list_ext; [lia|]. intros d Hd. rewrite <- (Nat2Z.id d) at 1. rewrite V'' by (cbn [g_mesh g' if_n]; lia). cbn [g_data g']. rewrite V1 by lia. symmetry. rewrite Nat2Z.id. apply nth_error_nth_ok. lia. }
    destruct g'' as [m'' s'' d'']. cbn in M'', S'', Dt. subst. destruct g as [m s d0]. cbn in *. f_equal. destruct m as [be st nn po]. cbn in F. subst po. reflexivity.
Qed.
Print Assumptions C53_from_real.

(** positive_freq_view: the same values at the non-negative frequencies; for a function with G(-iw) = conj G(iw) everywhere,
    make_gf_from_real_gf of it gives all the values back. *)
Theorem C53_positive_freq_view : forall (S : scalar_ops) (g : gfiw S), complete S g ->
  exists g', positive_freq_view S g = Ok g' /\ complete S g' /\ g_mesh S g' = if_positive (g_mesh S g) /\ g_sh S g' = g_sh S g /\
    (forall n q, 0 <= n < if_n (g_mesh S g) -> value S g' n q = value S g n q) /\
    (if_pos (g_mesh S g) = false ->
     (forall n q, on_mesh S g n -> value S g (opposite (if_stat (g_mesh S g)) n) q = kconj (value S g n q)) ->
     exists g2, make_gf_from_real_gf S g' = Ok (mkNew S (g_mesh S g2) (g_sh S g2) (map Some (g_data S g2))) /\ alike S g2 g /\
       forall n q, on_mesh S g n -> value S g2 n q = value S g n q).
Proof.
  intros S g C. destruct (positive_ok S g C) as (g' & E & C' & M & Sh & V). exists g'. split; [exact E|]. split; [exact C'|]. split; [exact M|]. split; [exact Sh|].
  assert (W : forall n q, 0 <= n < if_n (g_mesh S g) -> value S g' n q = value S g n q).
  { intros n q Hn. unfold value. rewrite <- (nth_default_eq _ (g_data S g')), <- (nth_default_eq _ (g_data S g)). unfold nth_default. rewrite <- (V n Hn). rewrite M. unfold if_positive, if_first at 1. cbn [if_pos]. rewrite Z.sub_0_r. reflexivity. }
  split; [exact W|]. intros F Hr. destruct (C53_from_real S g') as [_ Q]. destruct (Q C') as (g2 & E2 & C2 & Sh2 & M2 & A1 & A2 & _); [rewrite M; reflexivity|].
  rewrite M in M2, A1, A2. cbn [if_positive if_beta if_stat if_n] in M2, A1, A2. exists g2. split; [exact E2|].
  assert (Mm : g_mesh S g2 = g_mesh S g) by (rewrite M2; destruct (g_mesh S g) as [be st nn po]; cbn in *; subst po; reflexivity).
  split; [split; [exact Mm|split; [congruence|]]|].
  - destruct C as [_ C]. destruct C2 as [_ C2]. rewrite Mm in C2. lia.
  - intros n q Hn. unfold on_mesh, if_last in Hn. destruct (Z.le_gt_cases 0 n) as [Hp|Hp]; [rewrite A1, W by lia; reflexivity|].
    assert (Hop : opposite (if_stat (g_mesh S g)) (opposite (if_stat (g_mesh S g)) n) = n) by apply opposite_opposite.
    assert (Hon : 0 <= opposite (if_stat (g_mesh S g)) n < if_n (g_mesh S g)).
    { unfold if_first, if_last in Hn. rewrite F in Hn. destruct (if_stat (g_mesh S g)); cbn [opposite stat_eqb] in *; lia. }
    rewrite <- Hop at 1. rewrite A2.
    + rewrite W by exact Hon. rewrite <- Hr; [rewrite Hop; reflexivity|]. apply opp_on_mesh; [exact C|exact F|unfold on_mesh, if_last; lia].
    + exact Hon.
    + intros Hb Hz. rewrite Hb in Hz. cbn [opposite] in Hz. lia.
Qed.
Print Assumptions C53_positive_freq_view.

(** replace_by_tail replaces the values for n >= n_min and n < -n_min, and only these *)
Theorem C53_replace_by_tail : forall (S : scalar_ops) (g : gfiw S) (tail : freq -> tgt S) (n_min : Z), complete S g ->
  exists g', replace_by_tail S g tail n_min = Ok g' /\ alike S g' g /\
    forall n q, on_mesh S g n ->
      ((n_min <= n \/ n < - n_min) -> value S g' n q = tail (if_freq (g_mesh S g) n) q) /\
      (~ (n_min <= n \/ n < - n_min) -> value S g' n q = value S g n q).
Proof.
  intros S g tail n_min C. destruct (tail_ok S g tail n_min C) as (g' & E & A & V). exists g'. split; [exact E|]. split; [exact A|]. intros n q Hn. rewrite (V n q Hn).
  destruct (Z.leb_spec n_min n), (Z.ltb_spec n (- n_min)); cbn [orb]; split; intros; try reflexivity; lia.
Qed.
Print Assumptions C53_replace_by_tail.

(** restricted_view of a fermionic function: the same values on the smaller mesh *)
Theorem C53_restricted_view : forall (S : scalar_ops) (g : gfiw S) (n_max : Z), complete S g -> if_pos (g_mesh S g) = false ->
  if_stat (g_mesh S g) = Fermion -> 0 <= n_max <= if_n (g_mesh S g) ->
  exists g', restricted_view S g n_max = Ok g' /\ g_mesh S g' = mkImfreq (if_beta (g_mesh S g)) Fermion n_max false /\ g_sh S g' = g_sh S g /\
    Z.of_nat (length (g_data S g')) = if_size (g_mesh S g') /\ forall n q, on_mesh S g' n -> value S g' n q = value S g n q.
Proof.
  intros S g n_max C F Hs Hn. destruct (restricted_ok S g n_max C F Hs Hn) as (g' & E & M & Sh & Ln & V). exists g'. split; [exact E|]. split; [exact M|]. split; [exact Sh|].
  rewrite M. split; [rewrite Ln; unfold if_size, if_first, if_last; cbn [if_pos if_stat if_n stat_eqb]; lia|]. intros n q Hq. apply V. unfold on_mesh in Hq. rewrite M in Hq. unfold if_first, if_last in Hq. cbn [if_pos if_stat if_n stat_eqb] in Hq. lia.
Qed.
Print Assumptions C53_restricted_view.

(** ---- concrete cases ---- *)
Definition mesh2 (s : statistic) (pos : bool) : imfreq := mkImfreq 1%R s 2 pos.
Definition sc (x : Z * Z) : tgt GS := fun _ => (x : GS).
Definition g_fermi : gfiw GS := mkGfiw GS (mesh2 Fermion false) [] [sc (0, 1); sc (2, 3); sc (2, -3); sc (0, -1)]%Z.
Definition g_half : gfiw GS := mkGfiw GS (mesh2 Boson true) [] [sc (5, 1); sc (2, 3)]%Z.
Example C53_ex : complete GS g_fermi /\ square_target (g_sh GS g_fermi) /\ square_target [3; 3]%nat /\ is_gf_hermitian GS (fun x => negb (kisz x)) g_fermi = Ok true /\ complete GS g_half /\
  exists g', make_gf_from_real_gf GS g_half = Ok g' /\ map (option_map (fun t : tgt GS => t [])) (n_data GS g') = [Some (2, -3); Some (5, 1); Some (2, 3)]%Z.
Proof.
  split; [split; cbn; lia|]. split; [split; [cbn; lia|reflexivity]|]. split; [split; [cbn; lia|reflexivity]|].
  split; [reflexivity|]. split; [split; cbn; lia|]. eexists. split; [reflexivity|]. reflexivity.
Qed.

(** Two limits of the code.  A bosonic function with G(0) not real, accepted on the half mesh, gives a function on the whole mesh that
    is not real in imaginary time; and restricted_view of a bosonic function is labelled fermionic. *)
Theorem C53_boson_refuted :
  (exists (g : gfiw GS) g', complete GS g /\ make_gf_from_real_gf GS g = Ok (mkNew GS (g_mesh GS g') (g_sh GS g') (map Some (g_data GS g'))) /\
     is_gf_real_in_tau GS (fun x => negb (kisz x)) g' = Ok false) /\
  (exists (g : gfiw GS) g', complete GS g /\ if_stat (g_mesh GS g) = Boson /\ restricted_view GS g 1 = Ok g' /\ if_stat (g_mesh GS g') = Fermion).
Proof.
  split.
  - exists g_half, (mkGfiw GS (mesh2 Boson false) [] [fun q => kconj (sc (2, 3) q); sc (5, 1); sc (2, 3)]%Z). split; [split; cbn; lia|]. split; reflexivity.
  - exists (mkGfiw GS (mesh2 Boson false) [] [sc (2, -3); sc (5, 0); sc (2, 3)]%Z). eexists. split; [split; cbn; lia|]. split; [reflexivity|]. split; reflexivity.
Qed.
Print Assumptions C53_boson_refuted.
