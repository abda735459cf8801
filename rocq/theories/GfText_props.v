(** Property C94: Green's functions in text files. *)
From Coq Require Import Reals List Bool Arith Lia Lra.
From Coquelicot Require Import Complex.
From Verif Require Import Base GfText GfText_proofs.
Import ListNotations.
Local Open Scope nat_scope.

(** the files name_i_j.dat of an n x n Green's function, as a matrix *)
Definition file_names (name n : nat) : list (list key) := map (fun i => map (fun j => (name, i, j)) (seq 0 n)) (seq 0 n).
(** the points of a mesh that can be written: real frequencies, or the imaginary parts of Matsubara frequencies *)
Definition points_of (m : tmesh) (x : list R) : Prop := match m with MeshRe a b n => x = re_values a b n | MeshIm v => x = v | MeshElse => False end.

(** C94, writing: file name_i_j.dat has one row (x, Re G_ij, Im G_ij) per mesh point; no other file changes.  Other meshes raise. *)
Theorem C94_write : forall d g, (g_mesh g = MeshElse -> write_gf d g = Throw) /\ forall x, points_of (g_mesh g) x -> exists d', write_gf d g = Ok d' /\
  (forall i j, i < g_rows g -> j < g_cols g -> exists rows, d' (g_name g, i, j) = Some rows /\ length rows = length x /\
     forall w, w < length x -> nth_error rows w = Some (mkTxt (nth w x 0%R) (fst (g_at g w i j)) (snd (g_at g w i j)))) /\
  forall k, (forall i j, i < g_rows g -> j < g_cols g -> k <> (g_name g, i, j)) -> d' k = d k.
Proof.
  intros d g. split; [intros H; unfold write_gf; rewrite H; reflexivity|]. intros x H. assert (E : mesh_column (g_mesh g) = Ok x) by (destruct (g_mesh g); cbn in *; [subst; reflexivity|subst; reflexivity|contradiction]). unfold write_gf. rewrite E. cbn [bind]. eexists. split; [reflexivity|].
  destruct (puts (g_name g) (file_rows x g) (pairs (g_rows g) (g_cols g)) d) as [H1 H2]. split.
  - intros i j Hi Hj. exists (file_rows x g i j). split; [apply H1, pairs_in; split; assumption|]. split; [apply rows_length|]. intros w Hw. rewrite (nth_error_nth' _ (mkTxt 0 0 0)) by (rewrite rows_length; exact Hw). rewrite rows_nth by exact Hw. reflexivity.
  - intros k Hk. apply H2. intros i j Hij. apply pairs_in in Hij. apply Hk; apply Hij.
Qed.
Print Assumptions C94_write.

(** C94, round trip: a square Green's function of real frequencies, on at least two points, is read back as it was written *)
Theorem C94_round_trip : forall d g a b n N, g_mesh g = MeshRe a b n -> (a <= b)%R -> 2 <= n -> g_rows g = N -> g_cols g = N -> 1 <= N ->
  exists d' g', write_gf d g = Ok d' /\ read_gf d' (file_names (g_name g) N) (g_name g) = Ok g' /\
    g_mesh g' = g_mesh g /\ g_rows g' = N /\ g_cols g' = N /\ g_name g' = g_name g /\
    forall w i j, w < n -> i < N -> j < N -> g_at g' w i j = g_at g w i j.
Proof.
  intros d g a b n N Hm Hab Hn HR HC HN. set (x := re_values a b n). assert (LX : length x = n) by (unfold x, re_values; rewrite map_length, seq_length; reflexivity).
  unfold write_gf. rewrite Hm. cbn [mesh_column bind]. fold x. rewrite HR, HC. destruct (puts (g_name g) (file_rows x g) (pairs N N) d) as [H1 _]. set (d' := fold_left _ (pairs N N) d) in *.
  assert (FA : forall i j, i < N -> j < N -> file_at (file_names (g_name g) N) i j = (g_name g, i, j)).
  { intros i j Hi Hj. unfold file_at, file_names. rewrite (nth_indep _ [] (map (fun j => (g_name g, 0, j)) (seq 0 N))) by (rewrite map_length, seq_length; exact Hi). rewrite (map_nth (fun i => map (fun j => (g_name g, i, j)) (seq 0 N))), seq_nth by exact Hi.
    rewrite (nth_indep _ _ (g_name g, 0 + i, 0)) by (rewrite map_length, seq_length; exact Hj). rewrite (map_nth (fun j => (g_name g, 0 + i, j))), seq_nth by exact Hj. reflexivity. }
  assert (LD : forall i j, i < N -> j < N -> load d' (file_at (file_names (g_name g) N) i j) = Ok (file_rows x g i j)).
  { intros i j Hi Hj. rewrite (FA i j Hi Hj). unfold load. rewrite (H1 i j) by (apply pairs_in; split; assumption). pose proof (rows_length x g i j) as L. destruct (file_rows x g i j) as [|r [|r' l]]; cbn in L; [lia|lia|reflexivity]. }
  exists d'. unfold read_gf. assert (SH : shape (file_names (g_name g) N) = Ok (N, N)).
  { unfold shape, file_names. destruct N as [|N']; [lia|]. cbn [seq map]. cbn [length]. rewrite !map_length, !seq_length. replace (forallb _ _) with true; [reflexivity|]. symmetry. apply forallb_forall. intros f Hf. apply in_map_iff in Hf. destruct Hf as (i & <- & _). cbn [map length]. rewrite !map_length, !seq_length. apply Nat.eqb_refl. }
  rewrite SH. cbn [bind fst snd]. destruct (Nat.eqb_spec N 0) as [X|_]; [lia|]. rewrite (LD 0 0) by lia. cbn [bind]. rewrite rows_x, LX. pose proof (re_range a b n Hab Hn) as RR. cbv zeta in RR. fold x in RR. destruct RR as [-> ->].
  destruct (read_fold d' (file_names (g_name g) N) N n (file_rows x g) (pairs N N) (fun _ _ _ => RtoC 0)) as (f & -> & V).
  { intros i j Hij. apply pairs_in in Hij. split; [apply LD; apply Hij|]. split; [apply Hij|]. rewrite rows_length. exact LX. }
  cbn [bind]. eexists. split; [reflexivity|]. split; [reflexivity|]. cbn [g_mesh g_rows g_cols g_name g_at]. repeat (split; [reflexivity|]). intros w i j Hw Hi Hj. rewrite V by (apply pairs_in; split; assumption). rewrite rows_nth by (rewrite LX; exact Hw). cbn [t_re t_im]. symmetry. apply surjective_pairing.
Qed.
Print Assumptions C94_round_trip.

(** A Green's function with more columns than rows is written, and its files are never read back *)
Theorem C94_wide_refuted : forall d files name n1 n2, shape files = Ok (n1, n2) -> n1 < n2 -> forall g, read_gf d files name <> Ok g.
Proof.
  intros d files name n1 n2 SH H g E. unfold read_gf in E. rewrite SH in E. cbn [bind fst snd] in E. destruct (n2 =? 0); [discriminate E|]. destruct (load d (file_at files 0 0)) as [rows| |]; cbn [bind] in E; try discriminate E.
  destruct (fold_left _ (pairs n1 n2) _) as [f| |] eqn:F; cbn [bind] in E; try discriminate E. assert (P : 0 < n1). { unfold shape in SH. destruct files; [discriminate SH|]. destruct (forallb _ _); [|discriminate SH]. injection SH as <- _. cbn. lia. }
  pose proof (fold_bound _ _ _ _ _ _ _ F 0 n1 (proj2 (pairs_in n1 n2 0 n1) (conj P H))). lia.
Qed.
Print Assumptions C94_wide_refuted.
(** ... nor is one on a single mesh point *)
Theorem C94_single_point_refuted : forall d g a b, g_mesh g = MeshRe a b 1 -> g_rows g = 1 -> g_cols g = 1 -> exists d', write_gf d g = Ok d' /\ forall g', read_gf d' (file_names (g_name g) 1) (g_name g) <> Ok g'.
Proof.
  intros d g a b Hm HR HC. unfold write_gf. rewrite Hm, HR, HC. cbn [mesh_column bind]. eexists. split; [reflexivity|]. intros g'. unfold read_gf, file_names, shape, file_at. cbn [seq map forallb length bind fst snd Nat.eqb nth pairs flat_map app fold_left].
  unfold load, put at 1. destruct (key_dec _ _) as [_|X]; [|contradiction X; reflexivity]. unfold file_rows, re_values. cbn. discriminate.
Qed.
Print Assumptions C94_single_point_refuted.

(** The theorems are not empty: a 2 x 2 function on three points *)
Example C94_example : exists d' g', write_gf (fun _ => None) (mkTgf (MeshRe (-1) 1 3) 2 2 7 (fun w i j => (INR w, INR i))) = Ok d' /\ read_gf d' (file_names 7 2) 7 = Ok g' /\ g_at g' 2 1 0 = (2, 1)%R.
Proof.
  destruct (C94_round_trip (fun _ => None) (mkTgf (MeshRe (-1) 1 3) 2 2 7 (fun w i j => (INR w, INR i))) (-1)%R 1%R 3 2 eq_refl ltac:(lra) ltac:(lia) eq_refl eq_refl ltac:(lia)) as (d' & g' & E1 & E2 & _ & _ & _ & _ & V).
  exists d', g'. split; [exact E1|]. split; [exact E2|]. rewrite V by lia. cbn [g_at INR]. f_equal.
Qed.
