(** atom_diag with the automatic partition represents the Hamiltonian and the operators. *)
From Coq Require Import ZArith NArith List Arith Bool Lia Sorted Permutation Relations.
From Verif Require Import Base Indices Scalar Fock FockFacts OpModel OpExpr OpNormal Op_proofs Hilbert Hilbert_proofs
  State StateSpec State_proofs ImpOp ImpOp_proofs ImpOp_run ImpOp_thms Partition PartitionSpec Partition_proofs Partition_merge
  Partition_imp Partition_thms AtomDiag AtomDiagSpec AtomDiag_lists AtomDiag_terms AtomDiag_mats AtomDiag_complete AtomDiag_auto.
Import ListNotations.
Local Open Scope nat_scope.

Section Main.
  Context (S : scalar_ops) (L : scalar_laws S) (E : energy_ops S) (EL : energy_laws S E).
  Local Open Scope K_scope.
  Add Ring Kring6 : (sl_ring S L).
  Variable l : fops.
  Variable d : Z.
  Hypothesis Hl : (length l <= 17)%nat.
  Hypothesis Hnd : NoDup l.
  Hypothesis Hd : hs_dim (length l) = Ok d.
  Notation pos := (mode l).
  Notation size := (Z.to_nat d).
  Variable choose : labels -> nat -> nat -> bool.
  Variable norm : labels -> labels.
  Hypothesis Nok : norm_ok norm.
  Variable eigen : mat S -> list E * mat S.
  Variables (e eh : expr S) (op hop : omap S).
  Hypothesis Hu : forall j, uses e j -> In j l.
  Hypothesis He : eval e = Some op.
  Hypothesis Huh : forall j, uses eh j -> In j l.
  Hypothesis Heh : eval eh = Some hop.
  Hypothesis Sv : solves S E l e eigen.
  Variables n_min n_max : Z.
  Notation keep := (fock_filter n_min n_max).

  Definition hyb_cols : option (cols S) := match hop with [] => None | _ => Some (imp_cols S l hop d) end.
  Lemma hyb_ok : match hyb_cols with Some hy => in_space S size hy | None => True end.
  Proof.
    unfold hyb_cols. destruct hop as [|x h] eqn:Eh; [exact I|]. rewrite <- Eh in *. apply (cols_spec S L l d Hl Hd eh hop Huh Heh).
  Qed.
  Definition s0 : sp S := sp_new S kisz choose norm size (imp_cols S l op d) false hyb_cols.

  Lemma terms_exist eo oo : (forall j, uses eo j -> In j l) -> eval eo = Some oo -> exists ts : list (one_term S), imp_terms l oo = Ok ts.
  Proof.
    intros H1 H2. pose proof (eval_op_ok S L l eo oo H1 H2) as Hop. destruct (full_maps_into S l oo d Hl Hop Hd) as [F1 F2].
    assert (Hl64 : (length l <= 64)%nat) by lia.
    destruct (imp_apply_terms S L l oo (Full d) (Full d) Hl64 Hop (full_ok l d Hl Hd) (full_ok l d Hl Hd) F1 F2) as (ts & Ets & _). eauto.
  Qed.

  (** the subspaces, before reordering *)
  Lemma partition_made : exists s' mes, merges_melem S choose norm s0 (pairs_of S l d l) = Some (s', mes) /\
    merges S kisz choose norm s0 (pairs_of S l d l) = Some s' /\ indexed S size s' /\ length mes = length l /\
    forall n o, nth_error l n = Some o -> nth_error mes n =
      Some (put_cols S kisz (imp_cols S l (op_c_dag S o) d) (seq 0 size) [], put_cols S kisz (imp_cols S l (op_c S o) d) (seq 0 size) []).
  Proof.
    destruct (cols_spec S L l d Hl Hd e op Hu He) as (H1 & _ & _).
    destruct (new_indexed S kisz choose norm Nok size (imp_cols S l op d) hyb_cols false H1 hyb_ok) as [I0 K0].
    pose proof (pairs_ok S L l d Hl Hd l (incl_refl l)) as Po.
    destruct (merges_indexed S kisz size choose norm Nok (pairs_of S l d l) s0 Po I0) as (s' & Es & Is & _ & _).
    pose proof (merges_melem_merges S choose norm (pairs_of S l d l) s0) as Hm.
    destruct (merges_melem S choose norm s0 (pairs_of S l d l)) as [[s1 mes]|] eqn:Em; [|congruence].
    destruct Hm as [Hm1 Hm2]. rewrite Es in Hm1. injection Hm1 as <-. exists s', mes. split; [reflexivity|]. split; [exact Es|]. split; [exact Is|].
    split; [rewrite Hm2; unfold pairs_of; apply map_length|].
    intros n o Hn. apply (merges_melem_spec S choose norm size Nok _ _ _ _ Po I0 Em).
    unfold pairs_of. rewrite nth_error_map, Hn. reflexivity.
  Qed.

  Section With.
    Variable s : sp S.
    Variable mes : list (elems S * elems S).
    Hypothesis Es : merges S kisz choose norm s0 (pairs_of S l d l) = Some s.
    Hypothesis Is : indexed S size s.
    Hypothesis Lmes : length mes = length l.
    Hypothesis Hmes : forall n o, nth_error l n = Some o -> nth_error mes n =
      Some (put_cols S kisz (imp_cols S l (op_c_dag S o) d) (seq 0 size) [], put_cols S kisz (imp_cols S l (op_c S o) d) (seq 0 size) []).
    Notation lk := (lookup_basis_state s).
    (** the filter keeps or drops whole subspaces *)
    Hypothesis Hblk : forall i j, i < size -> j < size -> lk i = lk j -> keep (N.of_nat i) = keep (N.of_nat j).

    Definition spaces : list sub_hs := filter (fun h => negb (sub_size h =? 0)%nat) (fill_spaces S s n_min n_max).
    Definition kept : list nat := map (fun h => Z.to_nat (sub_index h)) spaces.
    Definition subs : list sub_hs := map (fun ks : nat * sub_hs => set_index (fst ks) (snd ks)) (enum spaces).
    Notation Bk := (cls lk keep (seq 0 size)).

    Lemma fill_all k h : nth_error (fill_spaces S s n_min n_max) k = Some h -> h = sub_adds (sub_new (Z.of_nat k)) (Bk k).
    Proof.
      destruct Is as (Id & _). unfold fill_spaces. rewrite Id. intros H.
      refine (fill_gen lk keep (seq 0 size) [] _ _ k h H). intros k0' h0 H0. rewrite nth_error_map in H0.
      destruct (nth_error (seq 0 (n_subspaces s)) k0') as [q|] eqn:Eq; [|discriminate]. injection H0 as <-.
      apply nth_error_nth with (d := O) in Eq as Eq'. pose proof (nth_error_Some_lt _ _ _ Eq) as Hlt. rewrite seq_length in Hlt.
      rewrite seq_nth in Eq' by exact Hlt. subst q. reflexivity.
    Qed.
    Lemma fill_all_len : length (fill_spaces S s n_min n_max) = n_subspaces s.
    Proof. unfold fill_spaces. rewrite fill_len, map_length, seq_length. reflexivity. Qed.

    Lemma in_spaces h : In h spaces <-> exists k, k < n_subspaces s /\ h = sub_adds (sub_new (Z.of_nat k)) (Bk k) /\ Bk k <> [].
    Proof.
      unfold spaces. rewrite filter_In. split.
      - intros [H1 H2]. apply In_nth_error in H1. destruct H1 as [k Hk]. exists k. pose proof (nth_error_Some_lt _ _ _ Hk) as Hlt. rewrite fill_all_len in Hlt.
        split; [exact Hlt|]. apply fill_all in Hk. subst h. split; [reflexivity|]. intros H0. rewrite H0 in H2. discriminate.
      - intros (k & Hk & -> & Hne). destruct (nth_error_lt (fill_spaces S s n_min n_max) k) as [h Hh]; [rewrite fill_all_len; exact Hk|].
        pose proof (fill_all k h Hh) as Eh. split; [rewrite <- Eh; eapply nth_error_In; exact Hh|].
        unfold sub_size. rewrite (proj1 (sub_adds_fields (Z.of_nat k) (Bk k))). destruct (Bk k); [congruence|reflexivity].
    Qed.
    Lemma kept_nodup : NoDup kept.
    Proof.
      unfold kept, spaces. apply filter_sorted_map. 
      assert (Q : map (fun h => Z.to_nat (sub_index h)) (fill_spaces S s n_min n_max) = seq 0 (n_subspaces s)).
      { apply nth_ext with (d := O) (d' := O); [rewrite map_length, seq_length; apply fill_all_len|].
        intros k Hk. rewrite map_length, fill_all_len in Hk. rewrite seq_nth by exact Hk.
        destruct (nth_error_lt (fill_spaces S s n_min n_max) k) as [h Hh]; [rewrite fill_all_len; exact Hk|].
        apply nth_of_error. rewrite nth_error_map, Hh. cbn [option_map]. rewrite (fill_all k h Hh), (proj2 (sub_adds_fields _ _)). rewrite Nat2Z.id. reflexivity. }
      rewrite Q. apply seq_NoDup.
    Qed.
    Lemma subs_len : length subs = length kept.
    Proof. unfold subs, kept. rewrite !map_length, enum_length. reflexivity. Qed.
    (** the p-th subspace *)
    Lemma subs_nth p sp : nth_error subs p = Some sp -> exists k, nth_error kept p = Some k /\ sub_states sp = Bk k /\ Bk k <> [] /\ space_ok (Sub sp).
    Proof.
      unfold subs, kept. rewrite !nth_error_map. destruct (nth_error (enum spaces) p) as [[q h]|] eqn:Eq; [|discriminate]. intros H. injection H as <-.
      apply enum_nth in Eq. destruct Eq as (h' & Hh & Heq). injection Heq as -> ->.
      assert (Hin : In h' spaces) by (eapply nth_error_In; exact Hh). apply in_spaces in Hin. destruct Hin as (k & Hk & Ek & Hne).
      exists k. rewrite Hh. cbn [option_map fst snd]. rewrite Ek. rewrite (proj2 (sub_adds_fields _ _)), Nat2Z.id. split; [reflexivity|].
      rewrite set_index_states, (proj1 (sub_adds_fields _ _)). split; [reflexivity|]. split; [exact Hne|]. apply set_index_ok.
      exists (Z.of_nat k), (Bk k). split; [|reflexivity]. apply sorted_nodup, cls_sorted.
    Qed.
    Lemma Bk_In k f : In f (Bk k) <-> (f < 2 ^ N.of_nat (length l))%N /\ keep f = true /\ lk (N.to_nat f) = k.
    Proof.
      rewrite cls_In. split.
      - intros (i & Hi & -> & H1 & H2). apply in_seq in Hi. rewrite Nat2N.id. split; [|auto]. apply (size_lt l d Hl Hd). lia.
      - intros (H1 & H2 & H3). exists (N.to_nat f). rewrite N2Nat.id. split; [|auto]. apply in_seq. split; [lia|]. cbn. apply (size_lt l d Hl Hd). rewrite N2Nat.id. exact H1.
    Qed.
    Lemma pos_kept f p : (f < 2 ^ N.of_nat (length l))%N -> keep f = true ->
      (pos_of kept (lk (N.to_nat f)) = Some p <-> exists sp, nth_error subs p = Some sp /\ In f (sub_states sp)).
    Proof.
      intros Hf Hk. rewrite (pos_of_spec kept _ p kept_nodup). split.
      - intros H. destruct (nth_error_lt subs p) as [sp Hsp]; [rewrite subs_len; eapply nth_error_Some_lt; exact H|].
        exists sp. split; [exact Hsp|]. destruct (subs_nth p sp Hsp) as (k & H1 & -> & _ & _). rewrite H in H1. injection H1 as <-. apply Bk_In. auto.
      - intros (sp & Hsp & Hin). destruct (subs_nth p sp Hsp) as (k & H1 & H2 & _ & _). rewrite H2 in Hin. apply Bk_In in Hin. destruct Hin as (_ & _ & ->). exact H1.
    Qed.
    Lemma kept_all f : (f < 2 ^ N.of_nat (length l))%N -> keep f = true -> exists p, pos_of kept (lk (N.to_nat f)) = Some p.
    Proof.
      intros Hf Hk. destruct (pos_of kept (lk (N.to_nat f))) as [p|] eqn:Ep; [eauto|]. exfalso. apply pos_of_None in Ep. apply Ep.
      assert (Hlt : lk (N.to_nat f) < n_subspaces s) by (apply (lookup_lt S size s _ Is); apply (size_lt l d Hl Hd); rewrite N2Nat.id; exact Hf).
      unfold kept. apply in_map_iff. exists (sub_adds (sub_new (Z.of_nat (lk (N.to_nat f)))) (Bk (lk (N.to_nat f)))).
      split; [rewrite (proj2 (sub_adds_fields _ _)), Nat2Z.id; reflexivity|]. apply in_spaces. exists (lk (N.to_nat f)). split; [exact Hlt|]. split; [reflexivity|].
      intros H0. assert (Hin : In f (Bk (lk (N.to_nat f)))) by (apply Bk_In; auto). rewrite H0 in Hin. destruct Hin.
    Qed.

    Lemma subs_good : Forall (sub_good S l e op) subs.
    Proof.
      apply Forall_forall. intros sp Hin. apply In_nth_error in Hin. destruct Hin as [p Hp]. destruct (subs_nth p sp Hp) as (k & H1 & H2 & H3 & H4).
      assert (Hm : maps_into S l op (Sub sp) (Sub sp)).
      { intros m c f b g Hin Hf Ha. cbn [basis] in *. rewrite H2 in *. apply Bk_In in Hf. destruct Hf as (F1 & F2 & F3).
        assert (Fs : N.to_nat f < size) by (apply (size_lt l d Hl Hd); rewrite N2Nat.id; exact F1).
        destruct (terms_in_blocks S L l d Hl Hd choose norm Nok hyb_cols e op s Hnd Hu He hyb_ok Es m c (N.to_nat f) g b Hin Fs) as [G1 G2].
        { rewrite N2Nat.id. exact Ha. }
        assert (Gs : N.to_nat g < size) by (apply (size_lt l d Hl Hd); rewrite N2Nat.id; exact G1).
        apply Bk_In. split; [exact G1|]. split; [|congruence]. pose proof (Hblk _ _ Fs Gs G2) as K. rewrite !N2Nat.id in K. congruence. }
      split; [split; [exact H4|]|].
      - intros f Hf. rewrite H2 in Hf. apply Bk_In in Hf. apply Hf.
      - split; [rewrite H2; exact H3|]. split; [rewrite H2; apply cls_sorted|]. split; [exact Hm|].
        apply (closed_of_maps S L l e op Hu He); exact Hm.
    Qed.

    Lemma row_good m : row_ok (length subs) (conn_row S s kept m).
    Proof.
      destruct (conn_row_spec S s kept m) as [R1 R2]. split; [rewrite R1; symmetry; apply subs_len|].
      intros c Hc. apply In_nth_error in Hc. destruct Hc as [p Hp]. destruct (R2 p c Hp) as [[-> _]|(q & -> & i & f & a & _ & _ & Hq)]; [left; reflexivity|].
      right. apply (pos_of_spec kept _ q kept_nodup) in Hq. apply nth_error_Some_lt in Hq. rewrite subs_len. lia.
    Qed.

    Notation cd := (map (fun me : elems S * elems S => conn_row S s kept (fst me)) mes).
    Notation cc := (map (fun me : elems S * elems S => conn_row S s kept (snd me)) mes).

    (** a row of the connection matrix, in terms of states *)
    Lemma row_states (eo : expr S) oo p : (forall j, uses eo j -> In j l) -> eval eo = Some oo ->
      forall c, nth_error (conn_row S s kept (put_cols S kisz (imp_cols S l oo d) (seq 0 size) [])) p = Some c ->
      (c = (-1)%Z /\ forall q sf st f g, nth_error subs p = Some sf -> nth_error subs q = Some st -> In f (sub_states sf) -> In g (sub_states st) -> bracket S l eo g f = k0) \/
      (exists q sf st f g, c = Z.of_nat q /\ nth_error subs p = Some sf /\ nth_error subs q = Some st /\ In f (sub_states sf) /\ In g (sub_states st) /\ bracket S l eo g f <> k0).
    Proof.
      intros H1 H2 c Hc. destruct (cols_spec S L l d Hl Hd eo oo H1 H2) as (C1 & C2 & C3).
      destruct (conn_row_spec S s kept (put_cols S kisz (imp_cols S l oo d) (seq 0 size) [])) as [_ R2].
      destruct (R2 p c Hc) as [[-> Hn]|(q & -> & i & f & a & Hin & Hi & Hf)].
      - left. split; [reflexivity|]. intros q sf st f g Hsf Hst Hf Hg.
        destruct (k_dec S L (bracket S l eo g f) k0) as [|Hz]; [assumption|]. exfalso.
        destruct (subs_nth p sf Hsf) as (k & K1 & K2 & _ & _). destruct (subs_nth q st Hst) as (k' & K1' & K2' & _ & _).
        rewrite K2 in Hf. rewrite K2' in Hg. apply Bk_In in Hf. apply Bk_In in Hg. destruct Hf as (F1 & F2 & F3). destruct Hg as (G1 & G2 & G3).
        assert (Fs : N.to_nat f < size) by (apply (size_lt l d Hl Hd); rewrite N2Nat.id; exact F1).
        assert (Gs : N.to_nat g < size) by (apply (size_lt l d Hl Hd); rewrite N2Nat.id; exact G1).
        assert (Nz : nonzero S kisz (imp_cols S l oo d) (N.to_nat f) (N.to_nat g)).
        { apply (cols_nonzero S L l d Hl Hd eo oo H1 H2); [exact Fs|]. split; [exact Gs|]. unfold element. rewrite !N2Nat.id. exact Hz. }
        apply (put_cols_In S (imp_cols S l oo d) size _ _ C2 Fs) in Nz. destruct Nz as [a Ha].
        apply (Hn q). exists (N.to_nat f), (N.to_nat g), a. split; [exact Ha|]. rewrite F3, G3.
        split; [apply (pos_of_spec kept k p kept_nodup); exact K1|apply (pos_of_spec kept k' q kept_nodup); exact K1'].
      - right. destruct (put_cols_keys S _ _ _ _ _ _ Hin) as [[]|(Hi' & a' & Ha')]. apply in_seq in Hi'. assert (Hi'' : i < size) by lia.
        pose proof (C1 i f a' Hi'' Ha') as Hf''. 
        assert (Nz : nonzero S kisz (imp_cols S l oo d) i f) by (apply (put_cols_In S (imp_cols S l oo d) size i f C2 Hi''); eauto).
        apply (cols_nonzero S L l d Hl Hd eo oo H1 H2) in Nz; [|exact Hi'']. destruct Nz as [_ Nz].
        apply (pos_of_spec kept _ p kept_nodup) in Hi. apply (pos_of_spec kept _ q kept_nodup) in Hf.
        assert (Row : forall p i, i < size -> nth_error kept p = Some (lk i) -> exists sp, nth_error subs p = Some sp /\ (sub_states sp = Bk (lk i))).
        { intros p' i' Hi0 Hk. destruct (nth_error_lt subs p') as [sp Hsp]; [rewrite subs_len; eapply nth_error_Some_lt; exact Hk|].
          exists sp. split; [exact Hsp|]. destruct (subs_nth p' sp Hsp) as (k & K1 & K2 & _ & _). rewrite Hk in K1. injection K1 as <-. exact K2. }
        destruct (Row p i Hi'' Hi) as (sf & Hsf & Bf). destruct (Row q f Hf'' Hf) as (st & Hst & Bt).
        assert (Kp : forall p' i' sp, i' < size -> nth_error subs p' = Some sp -> sub_states sp = Bk (lk i') -> keep (N.of_nat i') = true).
        { intros p' i' sp Hi0 Hsp Hb. destruct (subs_nth p' sp Hsp) as (k & _ & _ & K3 & _). destruct (subs_nth p' sp Hsp) as (k2 & _ & K2 & K3' & _).
          destruct (sub_states sp) as [|x xs] eqn:Ex; [rewrite <- K2 in K3'; congruence|]. assert (Hx : In x (Bk (lk i'))) by (rewrite <- Hb; left; reflexivity).
          apply Bk_In in Hx. destruct Hx as (X1 & X2 & X3).
          assert (Xs : N.to_nat x < size) by (apply (size_lt l d Hl Hd); rewrite N2Nat.id; exact X1).
          pose proof (Hblk _ _ Xs Hi0 X3) as K. rewrite N2Nat.id in K. congruence. }
        pose proof (Kp p i sf Hi'' Hsf Bf) as Ki. pose proof (Kp q f st Hf'' Hst Bt) as Kf.
        exists q, sf, st, (N.of_nat i), (N.of_nat f). split; [reflexivity|]. split; [exact Hsf|]. split; [exact Hst|].
        split; [rewrite Bf; apply Bk_In; rewrite Nat2N.id; split; [apply (size_lt l d Hl Hd); exact Hi''|auto]|].
        split; [rewrite Bt; apply Bk_In; rewrite Nat2N.id; split; [apply (size_lt l d Hl Hd); exact Hf''|auto]|]. exact Nz.
    Qed.

    Definition good (a : atom S E) : Prop :=
      blocks_cover S E (length l) keep a /\
      (forall f f' b b' B B' ev ev' u u', block S E a b B ev u -> block S E a b' B' ev' u' -> In f B -> In f' B' ->
         (b = b' <-> lk (N.to_nat f) = lk (N.to_nat f'))) /\
      hamiltonian_represented S E l e a /\ energies_from_gs S E a /\
      operator_represented S E l a (a_cdconn S E a) (a_cdmats S E a) ECdag /\
      operator_represented S E l a (a_cconn S E a) (a_cmats S E a) EC.

    Lemma conn_good (a : atom S E) (ord : list nat) (eo : indices -> expr S) (oo : indices -> omap S) conn mats rows :
      Permutation ord (seq 0 (length subs)) ->
      (forall b B ev u, block S E a b B ev u -> exists k sp ev0, at_new S E l e subs a ord b k sp ev0 u /\ sub_states sp = B) ->
      (forall b, b < length subs -> exists k sp ev u, at_new S E l e subs a ord b k sp ev u) ->
      (forall o, In o l -> (forall j, uses (eo o) j -> In j l) /\ eval (eo o) = Some (oo o)) ->
      length rows = length l ->
      (forall n o, nth_error l n = Some o -> nth_error rows n = Some (conn_row S s kept (put_cols S kisz (imp_cols S l (oo o) d) (seq 0 size) []))) ->
      conn = map (remap_row ord) rows -> mats_ok S E l subs a conn mats eo -> operator_represented S E l a conn mats eo.
    Proof.
      intros P Hat Hall Heo Lr Hr Ec Hm n o b B ev u Hn Hb.
      destruct (Hm n o Hn) as (row & ms & R1 & R2 & R3 & R4 & R5).
      destruct (Hat b B ev u Hb) as (k & sp & ev0 & At & HB). assert (At' := At). destruct At as (A1 & A2 & A3 & _).
      assert (Bn : b < length subs). { apply nth_error_Some_lt in A1. rewrite (ord_len _ _ P) in A1. exact A1. }
      destruct (nth_error_lt row b) as [c Hc]; [lia|]. exists c. unfold connection. rewrite R1. split; [exact Hc|].
      rewrite Ec, nth_error_map, (Hr n o Hn) in R1. cbn [option_map] in R1. injection R1 as R1.
      set (row0 := conn_row S s kept (put_cols S kisz (imp_cols S l (oo o) d) (seq 0 size) [])) in *.
      destruct (row_good (put_cols S kisz (imp_cols S l (oo o) d) (seq 0 size) [])) as [G1 G2]. fold row0 in G1, G2.
      destruct (remap_row_spec _ ord P row0 G1) as [_ Q2].
      assert (Kn : k < length subs) by (eapply ord_lt; eassumption).
      destruct (nth_error_lt row0 k) as [c0 Hc0]; [lia|]. pose proof (Q2 b k c0 A1 Hc0) as Q3. rewrite R1, Hc in Q3. injection Q3 as Q3.
      destruct (Heo o (nth_error_In _ _ Hn)) as [U1 U2].
      destruct (row_states (eo o) (oo o) k U1 U2 c0 Hc0) as [[-> Z]|(q & sf & st & f & g & -> & S1 & S2 & S3 & S4 & S5)].
      - left. assert (Hcm : c = (-1)%Z) by exact Q3. split; [exact Hcm|]. split.
        + unfold op_mat. rewrite R2. destruct (R5 b c Hc) as [[_ ->]|(b' & _ & _ & _ & _ & _ & Hb' & _)]; [reflexivity|]. lia.
        + intros b' B' ev' u' f f' Hb' Hf Hf'. destruct (Hat b' B' ev' u' Hb') as (k' & sp' & ev0' & (_ & A2' & _) & HB').
          apply (Z k' sp sp' f f' A2 A2'); [rewrite HB; exact Hf|rewrite HB'; exact Hf'].
      - right. assert (Hq : q < length subs) by (eapply nth_error_Some_lt; exact S2).
        destruct (ord_pos _ _ P q Hq) as (b' & O1 & O2 & O3).
        assert (Hcb : c = Z.of_nat b'). { rewrite Q3. unfold remap_val. destruct (Z.eqb_spec (Z.of_nat q) (-1)); [lia|]. rewrite Nat2Z.id, O2. reflexivity. }
        destruct (R5 b c Hc) as [[Hx _]|(b2 & sf' & st' & ef & et & M & Hb2 & M1 & M2 & M3 & M4 & M5 & M6 & M7 & M8)]; [lia|].
        assert (b2 = b') by lia. subst b2.
        destruct (Hall b' O3) as (k' & sp' & ev' & u' & At2). assert (At2' := At2). destruct At2 as (T1 & T2 & T3 & _).
        rewrite O1 in T1. injection T1 as <-. rewrite S2 in T2. injection T2 as <-. rewrite S1 in A2. injection A2 as <-.
        rewrite A3 in M2. injection M2 as <-. rewrite T3 in M3. injection M3 as <-.
        assert (Eef : umat S E ef = u /\ evals S E ef = ev). { destruct Hb as (x1 & x2 & X1 & X2 & X3 & X4 & X5). rewrite M4 in X2. injection X2 as <-. auto. }
        exists b', (sub_states st), (evals S E et), (umat S E et), M. split; [exact Hcb|]. split.
        { exists (set_index b' st), et. rewrite set_index_states. auto. }
        split; [unfold op_mat; rewrite R2, M1; reflexivity|]. split; [exists f, g; rewrite <- HB; auto|].
        unfold sub_size in M6, M7, M8. change (sub_states (set_index b' st)) with (sub_states st) in *. change (sub_states (set_index b sf)) with (sub_states sf) in *. rewrite HB in M7, M8.
        split; [exact M6|]. split; [exact M7|]. intros j i Hj Hi. rewrite M8 by assumption. destruct Eef as [-> _]. reflexivity.
    Qed.

    Lemma auto_with : exists a ord,
      complete S E eigen l op d subs cd cc [] = Ok a /\ good a /\
      Permutation ord (seq 0 (length subs)) /\
      (forall b B ev u, block S E a b B ev u -> exists k sp ev0, at_new S E l e subs a ord b k sp ev0 u /\ sub_states sp = B) /\
      (forall b b' k k' sp sp' ev ev' u u' x x', (b < b')%nat -> at_new S E l e subs a ord b k sp ev u -> at_new S E l e subs a ord b' k' sp' ev' u' ->
         nth_error ev 0 = Some x -> nth_error ev' 0 = Some x' ->
         em_lt S E (e_add x (e_split E k), k) (e_add x' (e_split E k'), k') = true) /\
      a_h S E a = op /\ a_fops S E a = l /\ a_dim S E a = d /\ a_first S E a = fill_first S E (a_eigs S E a) /\
      (a_vac_index S E a, a_vac S E a) = compute_vacuum S E d (a_subs S E a) (a_eigs S E a) (a_first S E a).
    Proof.
      assert (Rk : forall pr : elems S * elems S -> elems S, Forall (row_ok (length subs)) (map (fun me => conn_row S s kept (pr me)) mes)).
      { intros pr. apply Forall_forall. intros r Hr. apply in_map_iff in Hr. destruct Hr as (me & <- & _). apply row_good. }
      destruct (complete_ok S L E EL l d Hl Hd eigen e op Hu He Sv subs subs_good cd cc) with (qn := @nil (list E)) as
        (a & ord & C1 & P & Ls & Le & Hall & Hord & Hgs & E1 & E2 & M1 & M2 & F1 & F2 & F3 & _ & F5 & F6).
      { split; [rewrite map_length; exact Lmes|apply Rk]. } { split; [rewrite map_length; exact Lmes|apply Rk]. }
      assert (Hat : forall b B ev u, block S E a b B ev u -> exists k sp ev0, at_new S E l e subs a ord b k sp ev0 u /\ sub_states sp = B /\
        exists g, a_gs S E a = Some g /\ ev = map (fun x => e_sub x g) ev0 /\
        decomposes S E (length B) (fun j i => bracket S l e (nth j B 0%N) (nth i B 0%N)) ev0 u k0).
      { intros b B ev u (sp' & es & X1 & X2 & X3 & X4 & X5). destruct (Hall b) as (k & sp & ev0 & u0 & At). { apply nth_error_Some_lt in X1. lia. }
        assert (At' := At). destruct At as (A1 & A2 & A3 & g & A4 & A5 & A6). rewrite A3 in X1. injection X1 as <-. rewrite A5 in X2. injection X2 as <-.
        cbn [evals umat] in X4, X5. subst ev u0. rewrite set_index_states in X3. exists k, sp, ev0. split; [exact At'|]. split; [exact X3|].
        exists g. split; [exact A4|]. split; [reflexivity|]. rewrite <- X3. exact A6. }
      assert (Hat' : forall b B ev u, block S E a b B ev u -> exists k sp ev0, at_new S E l e subs a ord b k sp ev0 u /\ sub_states sp = B).
      { intros b B ev u H. destruct (Hat b B ev u H) as (k & sp & ev0 & H1 & H2 & _). eauto. }
      assert (Hin : forall b B ev u f, block S E a b B ev u -> In f B -> exists k, nth_error ord b = Some k /\ k < length subs /\
                (f < 2 ^ N.of_nat (length l))%N /\ keep f = true /\ pos_of kept (lk (N.to_nat f)) = Some k).
      { intros b B ev u f Hb Hf. destruct (Hat' b B ev u Hb) as (k & sp & ev0 & (A1 & A2 & _) & HB). exists k. split; [exact A1|].
        split; [eapply nth_error_Some_lt; exact A2|]. destruct (subs_nth k sp A2) as (q & K1 & K2 & _). rewrite <- HB, K2 in Hf. assert (Hf' := Hf).
        apply Bk_In in Hf. destruct Hf as (X1 & X2 & X3). split; [exact X1|]. split; [exact X2|]. apply (pos_kept f k X1 X2). exists sp. rewrite K2. auto. }
      assert (Hsame : forall f f' b b' B B' ev ev' u u', block S E a b B ev u -> block S E a b' B' ev' u' -> In f B -> In f' B' ->
         (b = b' <-> lk (N.to_nat f) = lk (N.to_nat f'))).
      { intros f f' b b' B B' ev ev' u u' Hb Hb' Hf Hf'. destruct (Hin _ _ _ _ _ Hb Hf) as (k & K1 & K2 & _ & _ & K3).
        destruct (Hin _ _ _ _ _ Hb' Hf') as (k' & K1' & K2' & _ & _ & K3'). split.
        - intros <-. rewrite K1 in K1'. injection K1' as <-. apply (pos_of_spec _ _ _ kept_nodup) in K3. apply (pos_of_spec _ _ _ kept_nodup) in K3'. congruence.
        - intros Q. rewrite Q in K3. rewrite K3 in K3'. injection K3' as <-. pose proof (ord_nodup _ _ P) as ND. rewrite NoDup_nth_error in ND.
          apply ND; [eapply nth_error_Some_lt; exact K1|congruence]. }
      assert (Gs : forall b, b < length subs -> exists g, a_gs S E a = Some g).
      { intros b Hb. destruct (Hall b Hb) as (k & sp & ev & u & _ & _ & _ & g & G & _). eauto. }
      exists a, ord. split; [exact C1|]. split; [|split; [exact P|split; [exact Hat'|split; [exact Hord|auto]]]].
      split; [|split; [exact Hsame|split; [|split; [|split]]]].
      - split; [|split; [|split]].
        + intros f. split.
          * intros (b & B & ev & u & Hb & Hf). destruct (Hin _ _ _ _ _ Hb Hf) as (k & _ & _ & X1 & X2 & _). auto.
          * intros [X1 X2]. destruct (kept_all f X1 X2) as (p & Hp). assert (Hp' := Hp). apply (pos_kept f p X1 X2) in Hp'. destruct Hp' as (sp & Hsp & Hf).
            destruct (ord_pos _ _ P p) as (b & O1 & _ & O3); [eapply nth_error_Some_lt; exact Hsp|].
            destruct (Hall b O3) as (k & sp' & ev & u & (A1 & A2 & A3 & g & A4 & A5 & A6)). rewrite O1 in A1. injection A1 as <-. rewrite Hsp in A2. injection A2 as <-.
            exists b, (sub_states sp), (map (fun x => e_sub x g) ev), u. split; [|exact Hf]. eexists _, _. split; [exact A3|]. split; [exact A5|].
            rewrite set_index_states. cbn. auto.
        + intros b B ev u Hb. destruct (Hat' b B ev u Hb) as (k & sp & ev0 & (A1 & A2 & _) & HB). destruct (subs_nth k sp A2) as (q & _ & K2 & K3 & _).
          rewrite <- HB, K2. split; [apply cls_sorted|exact K3].
        + intros b b' B B' ev ev' u u' f Hb Hb' Hf Hf'. apply (Hsame f f b b' B B' ev ev' u u' Hb Hb' Hf Hf'). reflexivity.
        + congruence.
      - split.
        + intros b B ev u Hb. destruct (Hat b B ev u Hb) as (k & sp & ev0 & _ & _ & g & G1 & -> & D). exists g. split; [exact G1|].
          apply (decomposes_shift S L E EL l Hl). exact D.
        + intros b b' B B' ev ev' u u' f f' Hb Hb' Hf Hf' Hne. destruct (Hat' b B ev u Hb) as (k & sp & ev0 & (A1 & A2 & _) & HB).
          pose proof subs_good as SG. rewrite Forall_forall in SG. destruct (SG sp (nth_error_In _ _ A2)) as (_ & _ & _ & _ & Cl).
          destruct (Hin _ _ _ _ _ Hb' Hf') as (k' & _ & _ & X1 & _ & _). rewrite HB in Cl. apply Cl; [exact Hf|exact X1|].
          intros Hx. apply Hne. apply (Hsame f f' b b' B B' ev ev' u u' Hb Hb' Hf Hf'). apply (Hsame f f' b b B B ev ev u u Hb Hb Hf Hx). reflexivity.
      - intros g Hg. destruct (Hgs g Hg) as [(b & k & sp & ev & u & At & H0) G2]. split.
        + destruct At as (A1 & A2 & A3 & g' & A4 & A5 & A6). rewrite Hg in A4. injection A4 as <-.
          exists b, (sub_states sp), (map (fun x => e_sub x g) ev), u. split.
          * eexists _, _. split; [exact A3|]. split; [exact A5|]. rewrite set_index_states. cbn. auto.
          * rewrite nth_error_map, H0. reflexivity.
        + intros b' B ev' u' x Hb Hx. destruct (Hat b' B ev' u' Hb) as (k' & sp' & ev0 & At2 & _ & g' & G1 & -> & _). rewrite Hg in G1. injection G1 as <-.
          apply in_map_iff in Hx. destruct Hx as (y & <- & Hy). rewrite (el_sub_lt S E EL). eapply G2; eassumption.
      - apply (conn_good a ord ECdag (op_c_dag S) (a_cdconn S E a) (a_cdmats S E a) cd P Hat' Hall).
        + intros o Ho. split; [cbn; intros j <-; exact Ho|reflexivity].
        + rewrite map_length; exact Lmes.
        + intros n o Hn. rewrite nth_error_map, (Hmes n o Hn). reflexivity.
        + exact E1.
        + exact M1.
      - apply (conn_good a ord EC (op_c S) (a_cconn S E a) (a_cmats S E a) cc P Hat' Hall).
        + intros o Ho. split; [cbn; intros j <-; exact Ho|reflexivity].
        + rewrite map_length; exact Lmes.
        + intros n o Hn. rewrite nth_error_map, (Hmes n o Hn). reflexivity.
        + exact E2.
        + exact M2.
    Qed.
  End With.
End Main.

(** ---- particle numbers ---- *)
Lemma pop_len n f : pop n f = length (filter (fun k => N.testbit f (N.of_nat k)) (seq 0 n)).
Proof.
  induction n as [|n IH]; [reflexivity|]. cbn [pop]. rewrite seq_S, filter_app, app_length, IH. cbn [filter]. change (0 + n) with n. destruct (N.testbit f (N.of_nat n)); cbn [length]; lia.
Qed.
Lemma pop_le n f : pop n f <= n.
Proof. induction n as [|n IH]; [reflexivity|]. cbn [pop]. destruct (N.testbit f (N.of_nat n)); lia. Qed.
Lemma pop_up n f : forall m, n <= m -> (forall k, n <= k -> N.testbit f (N.of_nat k) = false) -> pop m f = pop n f.
Proof.
  intros m Hm H. induction m as [|m IH]; [replace n with O by lia; reflexivity|].
  destruct (Nat.eq_dec n (S m)) as [->|]; [reflexivity|]. cbn [pop]. rewrite H by lia. apply IH. lia.
Qed.
Lemma pop_ext n f g : (forall k, k < n -> N.testbit f (N.of_nat k) = N.testbit g (N.of_nat k)) -> pop n f = pop n g.
Proof. induction n as [|n IH]; intros H; [reflexivity|]. cbn [pop]. rewrite H by lia. rewrite IH; [reflexivity|]. intros k Hk. apply H. lia. Qed.
Lemma pop_set n f g p : p < n -> N.testbit f (N.of_nat p) = false -> (forall k, k < n -> N.testbit g (N.of_nat k) = (p =? k) || N.testbit f (N.of_nat k)) ->
  pop n g = 1 + pop n f.
Proof.
  induction n as [|n IH]; intros Hp Hf H; [lia|]. cbn [pop]. rewrite H by lia. destruct (Nat.eqb_spec p n) as [->|Hne].
  - rewrite Hf. cbn [orb]. rewrite (pop_ext n g f); [reflexivity|]. intros k Hk. rewrite H by lia. destruct (Nat.eqb_spec n k); [lia|reflexivity].
  - cbn [orb]. rewrite IH; [destruct (N.testbit f (N.of_nat n)); reflexivity|lia|exact Hf|]. intros k Hk. apply H. lia.
Qed.
Lemma count_particles n f : n <= 64 -> (f < 2 ^ N.of_nat n)%N -> count f = particles n f.
Proof.
  intros Hn Hf. unfold count, particles. rewrite <- pop_len. apply pop_up; [exact Hn|]. intros k Hk. apply (high_bits _ _ k Hf Hk).
Qed.

Section Conserve.
  Context (S : scalar_ops) (L : scalar_laws S).
  Variable l : fops.
  Variable d : Z.
  Hypothesis Hl : (length l <= 17)%nat.
  Hypothesis Hd : hs_dim (length l) = Ok d.
  Notation size := (Z.to_nat d).
  Add Ring Kring7 : (sl_ring S L).

  Lemma cd_count o i f : In o l -> i < size -> nonzero S kisz (imp_cols S l (op_c_dag S o) d) i f -> count (N.of_nat f) = 1 + count (N.of_nat i).
  Proof.
    intros Ho Hi Hz. apply (cols_nonzero S L l d Hl Hd (ECdag o) (op_c_dag S o)) in Hz; [|cbn; intros; subst; exact Ho|reflexivity|exact Hi].
    destruct Hz as [Hf Hz]. rewrite (element_mel S L l (ECdag o) (op_c_dag S o)) in Hz; [|cbn; intros; subst; exact Ho|reflexivity].
    change (op_c_dag S o) with [([mkCop true o], k1 : S)] in Hz. cbn [mel] in Hz. unfold mel_mono in Hz. cbn [act] in Hz. unfold act_cop in Hz. cbn [dag ind] in Hz. cbv zeta in Hz.
    destruct (N.testbit (N.of_nat i) (N.of_nat (mode l o))) eqn:Eb; [exfalso; apply Hz; ring|].
    destruct (N.eqb_spec (N.setbit (N.of_nat i) (N.of_nat (mode l o))) (N.of_nat f)) as [Es|]; [|exfalso; apply Hz; ring].
    unfold count. apply (pop_set 64 _ _ (mode l o)); [pose proof (mode_lt l o Ho); lia|exact Eb|]. intros k _. rewrite <- Es. apply setbit_nat.
  Qed.
  Lemma c_count o i f : In o l -> i < size -> nonzero S kisz (imp_cols S l (op_c S o) d) i f -> count (N.of_nat i) = 1 + count (N.of_nat f).
  Proof.
    intros Ho Hi Hz. destruct (pairs_ok S L l d Hl Hd l (incl_refl l) (imp_cols S l (op_c_dag S o) d) (imp_cols S l (op_c S o) d)) as (_ & P2 & P3).
    { unfold pairs_of. apply in_map_iff. exists o. auto. }
    assert (Hf : f < size) by (destruct Hz as (a & Ha & _); eapply P2; eassumption).
    apply (cd_count o f i Ho Hf). apply P3; assumption.
  Qed.

  Variable choose : labels -> nat -> nat -> bool.
  Variable norm : labels -> labels.
  Hypothesis Nok : norm_ok norm.
  (** the mergers keep the number of particles *)
  Lemma merges_count todo : incl todo l -> forall s s', indexed S size s ->
    (forall i j, i < size -> j < size -> lookup_basis_state s i = lookup_basis_state s j -> count (N.of_nat i) = count (N.of_nat j)) ->
    merges S kisz choose norm s (pairs_of S l d todo) = Some s' ->
    forall i j, i < size -> j < size -> lookup_basis_state s' i = lookup_basis_state s' j -> count (N.of_nat i) = count (N.of_nat j).
  Proof.
    induction todo as [|o todo IH]; intros Hin s s' I H Hm.
    - cbn in Hm. injection Hm as <-. exact H.
    - assert (Ho : In o l) by (apply Hin; left; reflexivity).
      assert (Hin' : incl todo l) by (intros x Hx; apply Hin; right; exact Hx).
      destruct (pairs_ok S L l d Hl Hd (o :: todo) Hin (imp_cols S l (op_c_dag S o) d) (imp_cols S l (op_c S o) d)) as (P1 & P2 & P3); [left; reflexivity|].
      cbn [pairs_of map merges] in Hm.
      destruct (merge_ok S kisz choose norm Nok size s _ _ true I P1 P2 P3) as (s1 & m & m' & E & I1 & _ & _ & _ & K1).
      rewrite E in Hm. apply (IH Hin' s1 s' I1); [|exact Hm]. intros i j Hi Hj Q. apply (K1 i j Hi Hj) in Q. clear Hi Hj.
      set (w := fun p : nat * bool => (Z.of_nat (count (N.of_nat (fst p))) - (if snd p then 1 else 0))%Z).
      assert (W1 : forall p q, zmove S kisz size (fun x y => lookup_basis_state s x = lookup_basis_state s y) (imp_cols S l (op_c_dag S o) d) (imp_cols S l (op_c S o) d) p q -> w p = w q).
      { intros p q M. destruct M as [x y b Hx Hy Hs|x y Hx Hz|x y Hx Hz]; unfold w; cbn [fst snd].
        - rewrite (H x y Hx Hy Hs). reflexivity.
        - rewrite (cd_count o x y Ho Hx Hz). lia.
        - rewrite (c_count o x y Ho Hx Hz). lia. }
      induction Q as [x y [b Z]|x|x y _ IHQ|x y z _ IH1 _ IH2]; [|reflexivity|symmetry; assumption|congruence].
      assert (Wz : w (x, b) = w (y, b)).
      { induction Z as [p q M|p|p q _ IHZ|p q r _ IZ1 _ IZ2]; [apply W1; exact M|reflexivity|symmetry; assumption|congruence]. }
      unfold w in Wz. cbn [fst snd] in Wz. lia.
  Qed.
End Conserve.

Lemma keep_any f : fock_filter 0 (2 ^ 31 - 1) f = true.
Proof.
  unfold fock_filter. apply andb_true_iff. pose proof (pop_le 64 f) as H. unfold count.
  change (wrap64 0) with 0%Z. change (wrap64 (2 ^ 31 - 1)) with 2147483647%Z. split; apply Z.leb_le; lia.
Qed.
Lemma keep_range n n_min n_max f : n <= 64 -> (f < 2 ^ N.of_nat n)%N -> (0 <= n_min < 2 ^ 31)%Z -> (0 <= n_max < 2 ^ 31)%Z ->
  fock_filter n_min n_max f = in_range n n_min n_max f.
Proof.
  intros Hn Hf H1 H2. unfold fock_filter, in_range. rewrite <- (count_particles n f Hn Hf).
  assert (W : forall z, (0 <= z < 2 ^ 31)%Z -> wrap64 z = z). { intros z Hz. unfold wrap64. apply Z.mod_small. change (2 ^ 31)%Z with 2147483648%Z in Hz. change two64 with 18446744073709551616%Z. lia. }
  rewrite !W by assumption. reflexivity.
Qed.

Section Final.
  Context (S : scalar_ops) (L : scalar_laws S) (E : energy_ops S) (EL : energy_laws S E).
  Variable l : fops.
  Variable d : Z.
  Hypothesis Hl : (length l <= 17)%nat.
  Hypothesis Hnd : NoDup l.
  Hypothesis Hd : hs_dim (length l) = Ok d.
  Variable choose : labels -> nat -> nat -> bool.
  Variable norm : labels -> labels.
  Hypothesis Nok : norm_ok norm.
  Variable eigen : mat S -> list E * mat S.
  Variables (e eh : expr S) (op hop : omap S).
  Hypothesis Hu : forall j, uses e j -> In j l.
  Hypothesis He : eval e = Some op.
  Hypothesis Huh : forall j, uses eh j -> In j l.
  Hypothesis Heh : eval eh = Some hop.
  Hypothesis Sv : solves S E l e eigen.
  Variables n_min n_max : Z.
  Notation size := (Z.to_nat d).

  Lemma auto_final :
    (forall s, merges S kisz choose norm (s0 S l d choose norm op hop) (pairs_of S l d l) = Some s -> forall i j, i < size -> j < size -> lookup_basis_state s i = lookup_basis_state s j ->
       fock_filter n_min n_max (N.of_nat i) = fock_filter n_min n_max (N.of_nat j)) ->
    exists s a ord, autopartition S E eigen choose norm l op hop n_min n_max = Ok a /\
      merges S kisz choose norm (s0 S l d choose norm op hop) (pairs_of S l d l) = Some s /\
      good S E l e n_min n_max s a /\
      let ss := subs S n_min n_max s in
      Permutation ord (seq 0 (length ss)) /\
      (forall b B ev u, block S E a b B ev u -> exists k sp ev0, at_new S E l e ss a ord b k sp ev0 u /\ sub_states sp = B) /\
      (forall b b' k k' sp sp' ev ev' u u' x x', (b < b')%nat -> at_new S E l e ss a ord b k sp ev u -> at_new S E l e ss a ord b' k' sp' ev' u' ->
         nth_error ev 0 = Some x -> nth_error ev' 0 = Some x' ->
         em_lt S E (e_add x (e_split E k), k) (e_add x' (e_split E k'), k') = true) /\
      a_h S E a = op /\ a_fops S E a = l /\ a_dim S E a = d /\ a_first S E a = fill_first S E (a_eigs S E a) /\
      (a_vac_index S E a, a_vac S E a) = compute_vacuum S E d (a_subs S E a) (a_eigs S E a) (a_first S E a).
  Proof.
    intros Hk. destruct (partition_made S L l d Hl Hd choose norm Nok e eh op hop Hu He Huh Heh) as (s & mes & M1 & M2 & Is & Lm & Hm).
    destruct (auto_with S L E EL l d Hl Hnd Hd choose norm Nok eigen e eh op hop Hu He Huh Heh Sv n_min n_max s mes M2 Is Lm Hm (Hk s M2)) as (a & ord & C & R).
    exists s, a, ord. split; [|split; [exact M2|exact R]].
    unfold autopartition. rewrite Hd. cbn [bind].
    destruct (terms_exist S L l d Hl Hd e op Hu He) as [t1 ->]. cbn [bind]. destruct (terms_exist S L l d Hl Hd eh hop Huh Heh) as [t2 ->]. cbn [bind].
    unfold s0, hyb_cols, pairs_of in M1. rewrite M1. exact C.
  Qed.
End Final.
