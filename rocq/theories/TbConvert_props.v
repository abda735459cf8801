(** Property C90: tight-binding Hamiltonians of other programs, and paths in the Brillouin zone. *)
From Coq Require Import ZArith Reals List Bool Arith Lia Lra.
From Coquelicot Require Import Complex.
From Verif Require Import Base Lattice Lattice_proofs TightBinding TightBindingSpec TightBinding_proofs TbConvert TbConvert_proofs TbConvertSpec.
Import ListNotations.
Local Open Scope nat_scope.

(** C90, pythTB: a model in three dimensions is accepted, and its Fourier transform is the (hermitian) Hamiltonian of the model, also
    when hoppings are given several times, in both directions, or inside a cell. *)
Theorem C90_pythtb_partial : forall norb E hops, pyth_fits 3 norb hops ->
  exists t, tb_from_pyth 3 norb E hops = Ok t /\ tb_norb t = norb /\
    forall k, 3 <= length k -> exists h, fourier t k = Ok h /\ (forall a b, h a b = pyth_h E hops k a b) /\ forall a b, h a b = Cconj (h b a).
Proof.
  intros norb E hops F. destruct (pyth_ok norb E hops F) as (t & Et & _ & En & Hh). exists t. split; [exact Et|]. split; [exact En|]. intros k Hk. destruct (Hh k Hk) as (h & Eh & Vh).
  exists h. split; [exact Eh|]. split; [exact Vh|]. intros a b. rewrite !Vh. apply pyth_herm.
Qed.
Print Assumptions C90_pythtb_partial.

(** C90, not so: no model in one or two dimensions is accepted (the on-site energies have the displacement (0, 0, 0)). *)
Theorem C90_pythtb_dimension_refuted : forall ndim norb E hops, ndim <> 3 -> forall t, tb_from_pyth ndim norb E hops <> Ok t.
Proof. intros ndim norb E hops H t Et. apply H. exact (proj1 (pyth_dim ndim norb E hops t Et)). Qed.
Print Assumptions C90_pythtb_dimension_refuted.

(** C90, Wannier90: for a file with the numbers <0 m|H|R n> the Fourier transform is the transpose of the Hamiltonian
    sum_R e^{2 pi i k.R} <0 m|H|R n> / deg(R), without coupling between the spins, plus the local term. *)
Theorem C90_wannier : forall nw nr Rs H rows deg spin local t k, wannier_file nw nr Rs H rows -> distinct nr Rs -> length deg = nr -> 0 < nw -> 0 < nr -> 3 <= length k ->
  tb_from_wannier nw nr deg rows spin local = Ok t ->
  exists h, fourier t k = Ok h /\ forall i j, i < (if spin then 2 * nw else nw) -> j < (if spin then 2 * nw else nw) ->
    h i j = (with_spin spin nw (fun m n => wannier_h nr Rs (fun r => nth r deg 1%Z) H k n m) i j + match local with Some l => l i j | None => RtoC 0 end)%C.
Proof. intros nw nr Rs H rows deg spin local t k Hf Hd Hl Hnw Hnr Hk E. exact (wannier_ok nw nr Rs H rows deg Hf Hd Hl Hnw spin local t k E Hnr Hk). Qed.
Print Assumptions C90_wannier.

(** C90, not so: the Hamiltonian is transposed.  One cell, two orbitals, <0|H|1> = i. *)
Definition ex_H (_ m n : nat) : C := match m, n with 0, 1 => Ci | 1, 0 => (- Ci)%C | _, _ => RtoC 0 end.
Definition ex_rows : list hr_row :=
  [mkRow [0; 0; 0]%Z 1 1 (ex_H 0 0 0); mkRow [0; 0; 0]%Z 2 1 (ex_H 0 1 0); mkRow [0; 0; 0]%Z 1 2 (ex_H 0 0 1); mkRow [0; 0; 0]%Z 2 2 (ex_H 0 1 1)].
Lemma ex_file : wannier_file 2 1 (fun _ => [0; 0; 0]%Z) ex_H ex_rows.
Proof. split; [reflexivity|]. intros r m n Hr Hm Hn. destruct r; [|lia]. destruct m as [|[|m]]; [| |lia]; (destruct n as [|[|n]]; [| |lia]); reflexivity. Qed.
Lemma ex_made : exists t, tb_from_wannier 2 1 [1%Z] ex_rows false None = Ok t.
Proof.
  unfold tb_from_wannier, wannier_dict. cbn [length ex_rows Nat.eqb Nat.mul Nat.add negb andb bind seq fold_left d_set]. eexists. unfold tb_of_dict. apply accepted_make; [reflexivity|repeat constructor; intros []|].
  intros R m Hm. apply dict_hopping in Hm. destruct Hm as (e & [He|[]] & ->). injection He as <- <-. split; [reflexivity|]. split; [reflexivity|]. split; [reflexivity|].
  eexists. split; [apply dict_hopping; eexists; split; [left; reflexivity|reflexivity]|]. intros i j Hi Hj.
  assert (X : forall z : C, z = RtoC 0 -> (Cmod z <= 1 / 1000000000000)%R) by (intros z ->; rewrite Cmod_0; lra). apply X. clear X.
  destruct i as [|[|i]]; [| |lia]; (destruct j as [|[|j]]; [| |lia]); cbn [h_el w_el nth_error ex_rows Nat.mul Nat.add w_val ex_H nth];
    unfold Cdiv, Cinv, Cminus, Cmult, Copp, Cconj, Cplus, RtoC, Ci; cbn [fst snd]; f_equal; field.
Qed.
Theorem C90_wannier_transposed_refuted : exists nw nr Rs H rows t h, wannier_file nw nr Rs H rows /\ distinct nr Rs /\ tb_from_wannier nw nr [1%Z] rows false None = Ok t /\
  fourier t [0; 0; 0]%R = Ok h /\ h 0 1 <> wannier_h nr Rs (fun _ => 1%Z) H [0; 0; 0]%R 0 1.
Proof.
  destruct ex_made as [t Et]. assert (D : distinct 1 (fun _ => [0; 0; 0]%Z)) by (intros r s Hr Hs _; lia).
  destruct (C90_wannier 2 1 _ ex_H ex_rows [1%Z] false None t [0; 0; 0]%R ex_file D eq_refl ltac:(lia) ltac:(lia) ltac:(cbn; lia) Et) as (h & Eh & Vh).
  exists 2, 1, (fun _ => [0; 0; 0]%Z), ex_H, ex_rows, t, h. split; [exact ex_file|]. split; [exact D|]. split; [exact Et|]. split; [exact Eh|]. rewrite Vh by lia. cbn [with_spin]. unfold wannier_h. cbn [csum seq nth ex_H].
  rewrite inner_zero, Rmult_0_r, phase_0. unfold Cdiv, Cinv, Cmult, Copp, Cplus, RtoC, Ci. cbn [fst snd]. intros X. injection X as _ X. field_simplify in X. lra.
Qed.
Print Assumptions C90_wannier_transposed_refuted.

(** C90, paths: segment number s with num points (at least two) gives the points number s num ... s num + num - 1, equally spaced from its
    beginning to its end; the distance is the length of the path up to the point, and the ticks are the lengths up to the ends of the segments. *)
Theorem C90_path : forall cell segments num relative, 2 <= num -> segments <> [] ->
  exists ks dist ticks, k_space_path cell segments num relative = Ok (ks, dist, ticks) /\
    length ks = length segments * num /\ length dist = length segments * num /\ length ticks = length segments + 1 /\
    (forall s a b i, nth_error segments s = Some (a, b) -> i < num ->
       let x := (INR i / INR (num - 1))%R in let k := vadd a (vscal x (vsub b a)) in
       nth_error ks (s * num + i) = Some (if relative then k else times_cell cell k) /\
       nth_error dist (s * num + i) = Some (length_before cell segments s + x * segment_length cell (a, b))%R) /\
    forall s, s <= length segments -> nth s ticks 0%R = length_before cell segments s.
Proof.
  intros cell segments num relative Hn NE. destruct (fold_path cell num segments Hn [] 0%R) as [e E].
  exists (concat (if relative then map (segment_points num) segments else map (map (times_cell cell)) (map (segment_points num) segments))), (dists cell num segments 0%R), (0%R :: tick_list cell segments 0%R).
  assert (LX : forall x, In x (if relative then map (segment_points num) segments else map (map (times_cell cell)) (map (segment_points num) segments)) -> length x = num).
  { intros x Hx. destruct relative; apply in_map_iff in Hx; destruct Hx as (y & <- & Hy); [apply points_length|]. rewrite map_length. apply in_map_iff in Hy. destruct Hy as (z & <- & _). apply points_length. }
  assert (LN : length (if relative then map (segment_points num) segments else map (map (times_cell cell)) (map (segment_points num) segments)) = length segments) by (destruct relative; rewrite !map_length; reflexivity).
  split; [|split; [|split; [|split; [|split]]]].
  - unfold k_space_path. rewrite E. cbn [bind fst app]. rewrite (every_dists cell num segments Hn). destruct segments; [contradiction NE; reflexivity|reflexivity].
  - rewrite <- LN. clear -LX. revert LX. generalize (if relative then map (segment_points num) segments else map (map (times_cell cell)) (map (segment_points num) segments)) as ls.
    induction ls as [|x ls IH]; intros H; [reflexivity|]. cbn [concat length Nat.mul]. rewrite app_length, (H x (or_introl eq_refl)), IH; [reflexivity|]. intros y Hy. apply H. right. exact Hy.
  - apply dists_length.
  - cbn [length]. rewrite tick_length. lia.
  - intros s a b i Hs Hi x k. assert (X : linspace num i = x). { unfold x. destruct num as [|[|n]]; [lia|lia|reflexivity]. } split.
    + set (ls := if relative then map (segment_points num) segments else map (map (times_cell cell)) (map (segment_points num) segments)) in *.
      assert (EL : nth_error ls s = Some (if relative then segment_points num (a, b) else map (times_cell cell) (segment_points num (a, b)))).
      { unfold ls. destruct relative; rewrite !nth_error_map, Hs; reflexivity. }
      rewrite (concat_nth ls num (proj2 (Forall_forall _ _) LX) s i _ Hi EL). destruct relative; rewrite ?nth_error_map, (points_nth num (a, b) i Hi), X; reflexivity.
    + rewrite (dists_nth cell num segments 0%R s i Hi (a, b) Hs), X. f_equal. ring.
  - intros s Hs. destruct s as [|s]; cbn [nth]; [reflexivity|]. rewrite tick_nth by lia. ring.
Qed.
Print Assumptions C90_path.
(** ... where coordinates in units of [cell] are the coefficients of its rows *)
Theorem C90_path_units : forall a b c x y z, times_cell (M3 a b c) (V3 x y z) = vadd (vadd (vscal x a) (vscal y b)) (vscal z c).
Proof. intros [a1 a2 a3] [b1 b2 b3] [c1 c2 c3] x y z. unfold times_cell, mvec, dot, transpose, vadd, vscal. cbn [vx vy vz r0 r1 r2]. f_equal; ring. Qed.
Print Assumptions C90_path_units.
(** ... so the distances never decrease along the path *)
Theorem C90_path_monotone : forall cell segments num relative ks dist ticks, 2 <= num -> segments <> [] -> k_space_path cell segments num relative = Ok (ks, dist, ticks) ->
  forall n d d', nth_error dist n = Some d -> nth_error dist (n + 1) = Some d' -> (d <= d')%R.
Proof.
  intros cell segments num relative ks dist ticks Hn NE E n d d' Hd Hd'. destruct (C90_path cell segments num relative Hn NE) as (ks' & dist' & ticks' & E' & _ & L & _ & P & _). rewrite E in E'. injection E' as <- <- <-.
  assert (B : (n + 1 < length segments * num)%nat) by (rewrite <- L; apply nth_error_Some; congruence).
  pose proof (Nat.div_mod n num ltac:(lia)) as DM. pose proof (Nat.mod_upper_bound n num ltac:(lia)) as MB. set (s := n / num) in *. set (i := n mod num) in *.
  assert (Hs : s < length segments) by (apply Nat.div_lt_upper_bound; lia). destruct (nth_error segments s) as [[a b]|] eqn:ES; [|apply nth_error_None in ES; lia].
  destruct (P s a b i ES MB) as [_ P1]. replace (s * num + i) with n in P1 by lia. rewrite Hd in P1. injection P1 as P1.
  assert (SL : forall z, (0 <= segment_length cell z)%R) by (intros z; apply norm_nonneg). assert (Pos : (0 < INR (num - 1))%R) by (apply lt_0_INR; lia).
  destruct (Nat.lt_ge_cases (i + 1) num) as [C1|C1].
  - destruct (P s a b (i + 1) ES C1) as [_ P2]. replace (s * num + (i + 1)) with (n + 1) in P2 by lia. rewrite Hd' in P2. injection P2 as P2. rewrite P1, P2. apply Rplus_le_compat_l, Rmult_le_compat_r; [apply SL|].
    apply Rmult_le_compat_r; [apply Rlt_le, Rinv_0_lt_compat, Pos|]. apply le_INR. lia.
  - assert (EI : i = num - 1) by lia. assert (Hs' : s + 1 < length segments) by nia. destruct (nth_error segments (s + 1)) as [[a' b']|] eqn:ES'; [|apply nth_error_None in ES'; lia].
    destruct (P (s + 1) a' b' 0 ES' ltac:(lia)) as [_ P2]. replace ((s + 1) * num + 0) with (n + 1) in P2 by lia. rewrite Hd' in P2. injection P2 as P2. rewrite P1, P2, EI.
    assert (LB : length_before cell segments (s + 1) = (length_before cell segments s + segment_length cell (a, b))%R).
    { clear -ES. revert ES. generalize s as u. clear s. induction segments as [|z l IH]; intros s ES; [destruct s; discriminate ES|]. destruct s as [|s]; cbn [nth_error Nat.add] in *; [injection ES as ->; unfold length_before; cbn; ring|].
      rewrite !before_cons, (IH s ES). ring. }
    rewrite LB. replace (INR (num - 1) / INR (num - 1))%R with 1%R by (field; lra). cbn [INR]. unfold Rdiv. lra.
Qed.
Print Assumptions C90_path_monotone.

(** The theorems are not empty: hoppings given twice, in both directions, and inside a cell; a path of two segments. *)
Example C90_example : pyth_fits 3 2 [mkPhop Ci 0 1 [1; 0; 0]%Z; mkPhop (RtoC 2) 1 0 [-1; 0; 0]%Z; mkPhop Ci 0 1 [0; 0; 0]%Z; mkPhop Ci 0 1 [1; 0; 0]%Z] /\
  (exists t, tb_from_wannier 2 1 [1%Z] ex_rows false None = Ok t) /\
  segment_length mone (V3 0 0 0, V3 0 3 4)%R = 5%R.
Proof.
  split; [repeat (constructor; [cbn; lia|]); constructor|]. split; [exact ex_made|]. unfold segment_length, norm. replace (dot _ _) with (5 * 5)%R; [apply sqrt_square; lra|].
  unfold times_cell, mvec, dot, transpose, mone, vsub. cbn [fst snd vx vy vz r0 r1 r2]. ring.
Qed.
