(** C49: the Fourier transform of accepted hoppings is hermitian and periodic. *)
From Coq Require Import ZArith Reals List Bool Lia Lra.
From Coquelicot Require Import Complex.
From Verif Require Import Base Mesh Mesh_proofs Lattice Lattice_proofs TightBinding TightBindingSpec TightBinding_proofs.
Import ListNotations.
Local Open Scope nat_scope.

(** fourier(k) is sum_R e^{2 pi i k.R} t(R) *)
Theorem C49_fourier : forall ndim norb displ mats t k, tb_make ndim norb displ mats = Ok t -> displ <> [] -> ndim <= length k ->
  exists h, fourier t k = Ok h /\ forall i j, h i j = h_k displ mats k i j.
Proof.
  intros ndim norb displ mats t k H NE Hk. destruct (make_accepted _ _ _ _ _ H) as (-> & HL & HA). apply fourier_sum; assumption.
Qed.
Print Assumptions C49_fourier.

(** hermitian, up to the tolerance of the constructor times the number of displacements, when no displacement is given twice *)
Theorem C49_hermitian : forall ndim norb displ mats t k, tb_make ndim norb displ mats = Ok t -> NoDup displ -> displ <> [] -> ndim <= length k ->
  exists h, fourier t k = Ok h /\
    forall i j, i < norb -> j < norb -> (Cmod (h i j - Cconj (h j i))%C <= INR (length displ) * (1 / 1000000000000))%R.
Proof.
  intros ndim norb displ mats t k H ND NE Hk. destruct (C49_fourier _ _ _ _ _ k H NE Hk) as (h & E & V). exists h. split; [exact E|]. intros i j Hi Hj. rewrite !V.
  destruct (make_accepted _ _ _ _ _ H) as (_ & HL & HA). apply (hermitian_tol displ mats ndim norb k i j HL ND HA Hi Hj).
Qed.
Print Assumptions C49_hermitian.

(** exactly hermitian when the given matrices are exactly conjugate *)
Theorem C49_hermitian_exact : forall ndim norb displ mats t k, tb_make ndim norb displ mats = Ok t -> NoDup displ -> displ <> [] -> ndim <= length k ->
  (forall R m m' a b, hopping displ mats R m -> hopping displ mats (map Z.opp R) m' -> a < norb -> b < norb -> h_el m a b = Cconj (h_el m' b a)) ->
  exists h, fourier t k = Ok h /\ forall i j, i < norb -> j < norb -> h i j = Cconj (h j i).
Proof.
  intros ndim norb displ mats t k H ND NE Hk HX. destruct (C49_fourier _ _ _ _ _ k H NE Hk) as (h & E & V). exists h. split; [exact E|]. intros i j Hi Hj. rewrite !V.
  destruct (make_accepted _ _ _ _ _ H) as (_ & HL & HA). apply (hermitian_exact displ mats ndim norb k i j HL ND HA HX Hi Hj).
Qed.
Print Assumptions C49_hermitian_exact.

(** periodic in the reciprocal lattice *)
Theorem C49_periodic : forall ndim norb displ mats t k G, tb_make ndim norb displ mats = Ok t -> displ <> [] -> ndim <= length k -> length G = length k ->
  exists h h', fourier t k = Ok h /\ fourier t (shift k G) = Ok h' /\ forall i j, h' i j = h i j.
Proof.
  intros ndim norb displ mats t k G H NE Hk HG. destruct (C49_fourier _ _ _ _ _ k H NE Hk) as (h & E & V). destruct (C49_fourier _ _ _ _ _ (shift k G) H NE) as (h' & E' & V').
  { unfold shift. rewrite map_length, combine_length. lia. }
  exists h, h'. split; [exact E|]. split; [exact E'|]. intros i j. rewrite V, V'. apply periodic, HG.
Qed.
Print Assumptions C49_periodic.

(** what the constructor accepts, when no displacement is given twice *)
Theorem C49_accepted : forall ndim norb displ mats, NoDup displ ->
  (exists t, tb_make ndim norb displ mats = Ok t) <->
  (length displ = length mats /\ forall R m, hopping displ mats R m -> length R = ndim /\ h_rows m = norb /\ h_cols m = norb /\
    exists m', hopping displ mats (map Z.opp R) m' /\ conjugate_hops norb m m').
Proof.
  intros ndim norb displ mats ND. split.
  - intros [t H]. destruct (make_accepted _ _ _ _ _ H) as (_ & HL & HA). split; assumption.
  - intros [HL HA]. eexists. apply accepted_make; assumption.
Qed.
Print Assumptions C49_accepted.

(** the object holds what it was given *)
Theorem C49_holds : forall ndim norb displ mats t, tb_make ndim norb displ mats = Ok t ->
  t = mkTb ndim norb displ mats.
Proof. intros ndim norb displ mats t H. exact (proj1 (make_accepted _ _ _ _ _ H)). Qed.
Print Assumptions C49_holds.

(** an array of momenta is transformed momentum by momentum *)
Theorem C49_array : forall ndim norb displ mats t ks, tb_make ndim norb displ mats = Ok t -> displ <> [] -> ks <> [] -> (forall k, In k ks -> ndim <= length k) ->
  exists hs, fourier_stack t ks = Ok hs /\ length hs = length ks /\
    forall n k, nth_error ks n = Some k -> exists h, nth_error hs n = Some h /\ fourier t k = Ok h.
Proof.
  intros ndim norb displ mats t ks H NE NK HK. destruct (each_ok t ks) as [hs E].
  { intros k Hk. destruct (C49_fourier _ _ _ _ _ k H NE (HK k Hk)) as (h & E & _). eauto. }
  exists hs. split; [rewrite stack_each by exact NK; rewrite E; reflexivity|]. apply each_nth, E.
Qed.
Print Assumptions C49_array.

(** on a Brillouin zone mesh with n0 x n1 x n2 points the data at the mesh point (a,b,c) is the transform at
    (a/n0, b/n1, c/n2) *)
Theorem C49_mesh : forall norb displ mats t m a b c, brz_built m -> 1 <= la_dim (bz_lat (br_bz m)) <= 3 ->
  tb_make (la_dim (bz_lat (br_bz m))) norb displ mats = Ok t -> displ <> [] -> cy_valid (br_dims m) [a; b; c] = true ->
  exists hs h, fourier_mesh t m = Ok hs /\ Z.of_nat (length hs) = cy_size (br_dims m) /\ nth_error hs (Z.to_nat (cy_data (br_dims m) [a; b; c])) = Some h /\
    forall i j, h i j = h_k displ mats [(IZR a / IZR (cy_d0 (br_dims m)))%R; (IZR b / IZR (cy_d1 (br_dims m)))%R; (IZR c / IZR (cy_d2 (br_dims m)))%R] i j.
Proof.
  intros norb displ mats t m a b c Hm Hd Ht NE Hv. pose proof (br_built_dims m Hm) as Hc. destruct (cyc_mesh_ok _ Hc) as (Hs & H1 & _). destruct (H1 _ Hv) as [H2 H3]. cbn [cyc_mesh ms_size ms_data ms_index] in *.
  set (ks := map (k_reduced m) (br_points m)). assert (HL : Z.of_nat (length ks) = cy_size (br_dims m)) by (unfold ks, br_points; rewrite !map_length, seq_length; lia).
  destruct (C49_array _ _ _ _ _ ks Ht NE) as (hs & E & El & En).
  { intros Q. rewrite Q in HL. cbn in HL. lia. }
  { intros k Hk. apply in_map_iff in Hk. destruct Hk as (x & <- & _). cbn. lia. }
  set (n := Z.to_nat (cy_data (br_dims m) [a; b; c])).
  assert (Ek : nth_error ks n = Some (k_reduced m [a; b; c])).
  { unfold ks, br_points. rewrite !nth_error_map. replace (nth_error (seq 0 (Z.to_nat (cy_size (br_dims m)))) n) with (Some n).
    - cbn [option_map]. unfold n. rewrite Z2Nat.id by lia. rewrite H3. reflexivity.
    - symmetry. rewrite (nth_error_nth' _ 0) by (rewrite seq_length; unfold n; lia). rewrite seq_nth by (unfold n; lia). reflexivity. }
  destruct (En n _ Ek) as (h & Eh & Fh). exists hs, h. split; [exact E|]. split; [lia|]. split; [exact Eh|].
  destruct (C49_fourier _ _ _ _ _ (k_reduced m [a; b; c]) Ht NE) as (h' & E' & V'); [cbn; lia|]. rewrite Fh in E'. injection E' as <-. intros i j. rewrite V'.
  unfold h_k. apply csum_ext. intros [R x] Hx. cbn [fst snd]. apply In_hopping in Hx. destruct (make_accepted _ _ _ _ _ Ht) as (_ & _ & HA). destruct (HA R x Hx) as (HR & _).
  rewrite (k_reduced_ok m a b c Hm). cbv zeta. rewrite (keep_inner _ _ _ _ R HR Hd). reflexivity.
Qed.
Print Assumptions C49_mesh.

(** ---- concrete cases ---- *)
Definition chop (z : C) : hop := mkHop 1 1 (fun _ _ => z).
(** a chain with the complex hopping i to the right, -i to the left *)
Example C49_ex : exists t, tb_make 1 1 [[1]; [-1]]%Z [chop (0, 1)%R; chop (0, -1)%R] = Ok t /\ NoDup [[1]; [-1]]%Z /\ [[1]; [-1]]%Z <> [] /\
  (forall R m m' a b, hopping [[1]; [-1]]%Z [chop (0, 1)%R; chop (0, -1)%R] R m -> hopping [[1]; [-1]]%Z [chop (0, 1)%R; chop (0, -1)%R] (map Z.opp R) m' ->
     a < 1 -> b < 1 -> h_el m a b = Cconj (h_el m' b a)).
Proof.
  assert (ND : NoDup [[1]; [-1]]%Z) by (constructor; [intros [C|[]]; discriminate C|constructor; [intros []|constructor]]).
  assert (HX : forall R m m' a b, hopping [[1]; [-1]]%Z [chop (0, 1)%R; chop (0, -1)%R] R m -> hopping [[1]; [-1]]%Z [chop (0, 1)%R; chop (0, -1)%R] (map Z.opp R) m' ->
     a < 1 -> b < 1 -> h_el m a b = Cconj (h_el m' b a)).
  { intros R m m' a b ([|[|[|n]]] & E1 & E2) ([|[|[|n']]] & F1 & F2) Ha Hb; cbn in *; try discriminate; injection E1 as <-; injection E2 as <-; try discriminate F1; injection F2 as <-; cbn; unfold Cconj; cbn; f_equal; ring. }
  destruct (proj2 (C49_accepted 1 1 [[1]; [-1]]%Z [chop (0, 1)%R; chop (0, -1)%R] ND)) as [t Ht].
  - split; [reflexivity|]. intros R m H. assert (Q : exists m', hopping [[1]; [-1]]%Z [chop (0, 1)%R; chop (0, -1)%R] (map Z.opp R) m' /\ length R = 1 /\ h_rows m = 1 /\ h_cols m = 1).
    { destruct H as ([|[|[|n]]] & E1 & E2); cbn in *; try discriminate; injection E1 as <-; injection E2 as <-; eexists; (split; [|repeat split]); [exists 1|exists 0]; split; reflexivity. }
    destruct Q as (m' & H' & A1 & A2 & A3). repeat split; try assumption. exists m'. split; [exact H'|]. intros i j Hi Hj. rewrite (HX R m m' i j H H' Hi Hj).
    replace (Cconj (h_el m' j i) - Cconj (h_el m' j i))%C with (RtoC 0) by ring. rewrite Cmod_0. lra.
  - exists t. split; [exact Ht|]. split; [exact ND|]. split; [discriminate|exact HX].
Qed.

(** finding: with a displacement given twice the constructor accepts a Hamiltonian that is not hermitian, since it compares each
    matrix only with the first one of the opposite displacement *)
Theorem C49_repeated_displacement_refuted : exists displ mats t h, tb_make 1 1 displ mats = Ok t /\ fourier t [(1 / 4)%R] = Ok h /\ h 0 0 <> Cconj (h 0 0).
Proof.
  set (one := chop (RtoC 1)). exists [[1]; [1]; [-1]]%Z, [one; one; one].
  assert (D : deviates 1 one one = false).
  { apply deviates_false. intros i j _ _. unfold one, chop. cbn [h_el]. replace (RtoC 1 - Cconj (RtoC 1))%C with (RtoC 0) by (unfold Cconj, RtoC, Cminus, Cplus, Copp; cbn; f_equal; ring). rewrite Cmod_0. lra. }
  set (l := combine [[1]; [1]; [-1]]%Z [one; one; one]).
  assert (K : check_all 1 1 l l = Ok tt).
  { apply check_all_ok. intros x Hx. destruct Hx as [<-|[<-|[<-|[]]]]; unfold check_hop; cbn [length Nat.eqb negb].
    - change (find_opposite [1]%Z l) with (Some one). change (h_rows one) with 1. change (h_cols one) with 1. cbn [Nat.eqb negb andb]. rewrite D. reflexivity.
    - change (find_opposite [1]%Z l) with (Some one). change (h_rows one) with 1. change (h_cols one) with 1. cbn [Nat.eqb negb andb]. rewrite D. reflexivity.
    - change (find_opposite [-1]%Z l) with (Some one). change (h_rows one) with 1. change (h_cols one) with 1. cbn [Nat.eqb negb andb]. rewrite D. reflexivity. }
  eexists. eexists. split; [|split].
  - unfold tb_make. cbn [length Nat.eqb negb]. fold l. rewrite K. reflexivity.
  - reflexivity.
  - cbn [tb_displ tb_mats tb_dim combine fold_left]. unfold cm_add, tb_val. cbn [fst snd firstn kdot h_el one chop]. unfold cexp.
    replace (2 * PI * (1 / 4 * 1 + 0))%R with (PI / 2)%R by field. replace (2 * PI * (1 / 4 * -1 + 0))%R with (- (PI / 2))%R by field. rewrite cos_neg, sin_neg, cos_PI2, sin_PI2.
    intros E. apply (f_equal snd) in E. unfold Cconj, Cplus, Cmult, RtoC in E. cbn in E. lra.
Qed.
Print Assumptions C49_repeated_displacement_refuted.
