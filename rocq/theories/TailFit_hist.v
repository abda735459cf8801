(** The result of a fit does not depend on what the fitter was used for before *)
From Coq Require Import ZArith Reals List Bool Arith Lia Lra.
From Coquelicot Require Import Complex.
From Verif Require Import Base Matsubara Fourier TailFit.
Import ListNotations.
Local Open Scope R_scope.

Section Hist.
  Variable smin : bool -> cmat -> R.
  Variable solve : bool -> cmat -> nat -> data -> option nat -> data * R.

  Definition bad (m : fmesh) (idx : list Z) : bool :=
    existsb (fun n => if Req_EM_T (Cmod (fm_value m n)) 0 then true else false) idx || (if Req_EM_T (Cmod (fm_wmax m)) 0 then true else false).
  Definition points (m : fmesh) (idx : list Z) : list C := map (fun n => Cdiv (RtoC (Cmod (fm_wmax m))) (fm_value m n)) idx.
  Definition matrix (m : fmesh) (order : Z) (idx : list Z) : cmat := vander (points m idx) order.
  Definition digits (m : fmesh) : R := 1 + 16 / log10 (1 + Cmod (fm_wmax m)).
  Definition core (h adjust : bool) (order : Z) (m : fmesh) (k : nat) (idx : list Z) : res cmat :=
    let v := matrix m order idx in
    if (length idx / 2 <? k + 1)%nat then Throw else
    if (10 <=? k)%nat then UB else
    if adjust && (if Rle_dec (2 ^ 63) (digits m) then true else false) then UB else
    match (if negb adjust then Some (columns v k order)
           else search smin h v k (Z.min (Z.min max_order (trunc (digits m))) (Z.of_nat (length idx / 2)))) with
    | None => Throw | Some w => Ok w end.
  Definition finish (h : bool) (m : fmesh) (n : nat) (g : data) (normalize : bool) (km : rows) (nk : nat) (inner : option nat) (idx : list Z) (v w : cmat) : res (rows * R) :=
    if existsb (fun i => negb (fm_valid m i)) idx then UB else
    let om := Cmod (fm_wmax m) in
    let k := length km in
    let g_mat : data := fun i c => g (fm_to_data m (nth i idx 0%Z)) c in
    if (0 <? k)%nat && negb (n =? nk)%nat then Throw else
    let g_mat : data := if (0 <? k)%nat
      then fun i c => Cminus (g_mat i c)
        (fold_left (fun s o => Cplus s (Cmult (m_at v i o) (Cmult (RtoC (acc_div om o)) (row km o c)))) (seq 0 k) (RtoC 0))
      else g_mat in
    let (a, err) := solve h w n g_mat inner in
    Ok (km ++ map (fun i c => if normalize then Cmult (a i c) (RtoC (acc_pow om (k + i))) else a i c) (seq 0 (m_cols w)), err).
  Definition fit_value (h : bool) (f0 : fitter) (m : fmesh) (n : nat) (g : data) (normalize : bool) (km : rows) (nk : nat) (inner : option nat) : res (rows * R) :=
    if h && (match inner with None => true | Some _ => false end) then Throw else
    if fm_pos m then Throw else
    if (tf_order f0 <? Z.of_nat (length km))%Z then Ok (km, 0) else
    if (10 <=? length km)%nat then UB else
    do idx <- fit_indices f0 m ;
    if bad m idx then UB else
    do w <- core h (tf_adjust f0) (tf_order f0) m (length km) idx ;
    finish h m n g normalize km nk inner idx (matrix m (tf_order f0) idx) w.

  Definition Inv (f0 : fitter) (m : fmesh) (f : fitter) : Prop :=
    tf_fraction f = tf_fraction f0 /\ tf_max f = tf_max f0 /\ tf_adjust f = tf_adjust f0 /\ tf_order f = tf_order f0 /\
    length (tf_lss f) = 10%nat /\ length (tf_lssh f) = 10%nat /\
    ((tf_idx f = [] /\ tf_vander f = None /\ (forall h k, nth k (get_lss f h) None = None)) \/
     (exists idx, fit_indices f0 m = Ok idx /\ bad m idx = false /\ tf_idx f = idx /\ tf_vander f = Some (matrix m (tf_order f0) idx) /\
        forall h k w, nth k (get_lss f h) None = Some w -> core h (tf_adjust f0) (tf_order f0) m k idx = Ok w)).

  Lemma nth_none k n : nth k (repeat (@None cmat) n) None = None.
  Proof. revert k. induction n as [|n IH]; intros [|k]; cbn; auto. Qed.
  Lemma Inv_make m a b c : Inv (make_fitter a b c) m (make_fitter a b c).
  Proof. repeat split. left. repeat split. intros h k. destruct h; unfold get_lss, make_fitter, no_lss; cbn [tf_lss tf_lssh]; apply nth_none. Qed.
  Lemma length_get f0 m f h : Inv f0 m f -> length (get_lss f h) = 10%nat.
  Proof. intros (_ & _ & _ & _ & L & L' & _). destruct h; assumption. Qed.
  Lemma fit_indices_same f0 f m : tf_fraction f = tf_fraction f0 -> tf_max f = tf_max f0 -> fit_indices f m = fit_indices f0 m.
  Proof. intros H H'. unfold fit_indices, n_pts_in_tail, n_fit_range. rewrite H, H'. reflexivity. Qed.
  Lemma put_length {A} (l : list A) k w : (k < length l)%nat -> length (firstn k l ++ w :: skipn (S k) l) = length l.
  Proof. intros H. rewrite app_length. cbn [length]. rewrite firstn_length, skipn_length. lia. Qed.
  Lemma nth_put {A} (l : list A) k w d i : (k < length l)%nat -> nth i (firstn k l ++ w :: skipn (S k) l) d = if (i =? k)%nat then w else nth i l d.
  Proof.
    revert k i. induction l as [|x l IH]; intros k i H; [cbn in H; lia|]. destruct k as [|k].
    - destruct i; reflexivity.
    - destruct i as [|i]; [reflexivity|]. cbn [firstn skipn app nth Nat.eqb]. apply (IH k i). cbn in H. lia.
  Qed.

  Lemma Inv_set f0 m f h k w idx v : Inv f0 m f -> fit_indices f0 m = Ok idx -> tf_vander f = Some v -> (k < 10)%nat ->
    (forall x, w = Some x -> core h (tf_adjust f0) (tf_order f0) m k idx = Ok x) -> Inv f0 m (set_lss f h k w).
  Proof.
    intros (H1 & H2 & H3 & H4 & L & L' & Hs) Hi Hv Hk Hc.
    split; [exact H1|]. split; [exact H2|]. split; [exact H3|]. split; [exact H4|].
    split; [destruct h; unfold set_lss; cbn [tf_lss]; [exact L|rewrite put_length; rewrite L; [reflexivity|exact Hk]]|].
    split; [destruct h; unfold set_lss; cbn [tf_lssh]; [rewrite put_length; rewrite L'; [reflexivity|exact Hk]|exact L']|].
    right. destruct Hs as [(_ & E & _)|[idx' (Hi' & Hb & Hx & Hv' & Hz)]]; [rewrite E in Hv; discriminate|].
    rewrite Hi in Hi'. injection Hi' as <-. exists idx. split; [exact Hi|]. split; [exact Hb|]. split; [exact Hx|]. split; [exact Hv'|].
    intros h' k' w' Hw'. destruct (Bool.eqb h h' && (k' =? k)%nat) eqn:Ee.
    - apply andb_prop in Ee. destruct Ee as [Eh Ek]. apply Bool.eqb_prop in Eh. apply Nat.eqb_eq in Ek. subst h' k'.
      apply Hc. rewrite <- Hw'. unfold set_lss, get_lss. destruct h; cbn [tf_lss tf_lssh]; rewrite nth_put by (rewrite ?L, ?L'; exact Hk); rewrite Nat.eqb_refl; reflexivity.
    - apply Hz. rewrite <- Hw'. unfold set_lss, get_lss. destruct h, h'; cbn [tf_lss tf_lssh Bool.eqb andb] in *; try reflexivity;
        rewrite nth_put by (rewrite ?L, ?L'; exact Hk); rewrite Ee; reflexivity.
  Qed.
  Lemma setup_Inv f0 m f h k : Inv f0 m f -> nth k (get_lss f h) None = None ->
    let (f', r) := setup_lss smin h f m k in
    Inv f0 m f' /\
    match fit_indices f0 m with
    | Throw => r = Throw | UB => r = UB
    | Ok idx => if bad m idx then r = UB else
       match core h (tf_adjust f0) (tf_order f0) m k idx with
       | Throw => r = Throw | UB => r = UB
       | Ok w => r = Ok tt /\ nth k (get_lss f' h) None = Some w /\ tf_vander f' = Some (matrix m (tf_order f0) idx) /\ tf_idx f' = idx
       end
    end.
  Proof.
    intros HI Hn. assert (HI0 := HI). destruct HI as (H1 & H2 & H3 & H4 & L & L' & Hs).
    unfold setup_lss.
    assert (Ei : (match tf_idx f with [] => fit_indices f m | l => Ok l end) = fit_indices f0 m).
    { destruct Hs as [[-> _]|[idx (Hi & _ & -> & _)]]; [apply fit_indices_same; assumption|].
      destruct idx; [rewrite (fit_indices_same f0 f) by assumption; reflexivity|symmetry; exact Hi]. }
    rewrite Ei. clear Ei. destruct (fit_indices f0 m) as [idx| |] eqn:Hi; [|split; [exact HI0|reflexivity]|split; [exact HI0|reflexivity]].
    unfold bad. destruct (existsb _ idx) eqn:Hb; cbn [orb]; [split; [exact HI0|reflexivity]|].
    destruct (Req_EM_T (Cmod (fm_wmax m)) 0) as [E0|E0]; [split; [exact HI0|reflexivity]|].
    assert (Hbad : bad m idx = false) by (unfold bad; rewrite Hb; destruct (Req_EM_T _ 0); [contradiction|reflexivity]).
    assert (Ev : match tf_vander f with
               | None => vander (map (fun n => Cdiv (RtoC (Cmod (fm_wmax m))) (fm_value m n)) idx) (tf_order f)
               | Some v => if ((m_rows v =? 0) || (m_cols v =? 0))%nat
                           then vander (map (fun n => Cdiv (RtoC (Cmod (fm_wmax m))) (fm_value m n)) idx) (tf_order f) else v
               end = matrix m (tf_order f0) idx).
    { rewrite H4. destruct Hs as [(_ & -> & _)|[idx' (Hi' & _ & _ & -> & _)]]; [reflexivity|]. injection Hi' as <-. destruct (_ || _)%bool; reflexivity. }
    rewrite Ev. clear Ev. set (v := matrix m (tf_order f0) idx).
    assert (Rv : m_rows v = length idx) by (unfold v, matrix, vander, points; cbn [m_rows]; apply map_length).
    assert (HIp : Inv f0 m (set_points f idx (Some v))).
    { repeat split; try assumption. right. exists idx. split; [exact Hi|]. split; [exact Hbad|]. split; [reflexivity|]. split; [reflexivity|].
      intros h' k' w Hw. destruct Hs as [(_ & _ & Hz)|[idx' (Hi' & _ & _ & _ & Hz)]].
      - replace (get_lss (set_points f idx (Some v)) h') with (get_lss f h') in Hw by (destruct h'; reflexivity). rewrite Hz in Hw. discriminate.
      - injection Hi' as <-. apply Hz. destruct h'; exact Hw. }
    destruct (core h (tf_adjust f0) (tf_order f0) m k idx) as [w| |] eqn:Hc; assert (Hc0 := Hc); unfold core in Hc; fold v in Hc; rewrite Rv;
      (destruct (length idx / 2 <? k + 1)%nat; [first [discriminate Hc|split; [exact HIp|reflexivity]]|]);
      rewrite (length_get f0 m (set_points f idx (Some v)) h HIp);
      (destruct (10 <=? k)%nat eqn:Hk; [first [discriminate Hc|split; [exact HIp|reflexivity]]|]);
      apply Nat.leb_gt in Hk;
      change (tf_adjust (set_points f idx (Some v))) with (tf_adjust f); change (tf_order (set_points f idx (Some v))) with (tf_order f); rewrite H3, H4;
      change (1 + 16 / log10 (1 + Cmod (fm_wmax m))) with (digits m);
      (destruct (tf_adjust f0 && (if Rle_dec (2 ^ 63) (digits m) then true else false)); [first [discriminate Hc|split; [exact HIp|reflexivity]]|]);
      match type of Hc with match ?x with _ => _ end = _ => destruct x as [w'|] eqn:Hw; try discriminate Hc end.
    - injection Hc as ->. split; [|split; [reflexivity|split; [|split; reflexivity]]].
      + apply (Inv_set f0 m _ h k (Some w) idx v HIp); [exact Hi|reflexivity|exact Hk|]. intros x Hx. injection Hx as <-. exact Hc0.
      + unfold set_lss, get_lss. destruct h; cbn [tf_lss tf_lssh set_points]; rewrite nth_put by (rewrite ?L, ?L'; exact Hk); rewrite Nat.eqb_refl; reflexivity.
    - split; [|reflexivity]. apply (Inv_set f0 m _ h k None idx v HIp); [exact Hi|reflexivity|exact Hk|]. intros x Hx. discriminate.
  Qed.

  Lemma fit_pure f0 m f h n g normalize km nk inner : Inv f0 m f ->
    let (f', r) := fit smin solve h f m n g normalize km nk inner in
    Inv f0 m f' /\ r = fit_value h f0 m n g normalize km nk inner.
  Proof.
    intros HI. unfold fit, fit_value. destruct (h && _); [split; [exact HI|reflexivity]|]. destruct (fm_pos m); [split; [exact HI|reflexivity]|].
    assert (H4 : tf_order f = tf_order f0) by apply HI. rewrite H4. destruct (tf_order f0 <? _)%Z; [split; [exact HI|reflexivity]|].
    rewrite (length_get f0 m f h HI). destruct (10 <=? length km)%nat; [split; [exact HI|reflexivity]|].
    set (k := length km). destruct (nth k (get_lss f h) None) as [w|] eqn:Hw.
    - split; [exact HI|]. cbn [bind]. rewrite Hw.
      destruct HI as (_ & _ & _ & _ & _ & _ & [(_ & _ & Hz)|[idx (Hi & Hb & Hx & Hv & Hz)]]); [rewrite Hz in Hw; discriminate|].
      rewrite Hv, Hx, Hi. cbn [bind]. rewrite Hb, (Hz h k w Hw). cbn [bind]. reflexivity.
    - pose proof (setup_Inv f0 m f h k HI Hw) as HS. destruct (setup_lss smin h f m k) as [f' r]. destruct HS as [HI' HS]. split; [exact HI'|].
      destruct (fit_indices f0 m) as [idx| |]; [|rewrite HS; reflexivity|rewrite HS; reflexivity]. cbn [bind].
      destruct (bad m idx); [rewrite HS; reflexivity|]. destruct (core _ _ _ _ _ _) as [w| |]; [|rewrite HS; reflexivity|rewrite HS; reflexivity].
      destruct HS as (-> & Hn & Hv & Hx). cbn [bind]. rewrite Hn, Hv, Hx. reflexivity.
  Qed.
End Hist.
