(** C87: arithmetic of Green's functions in Python and assignment of lazy expressions. *)
From Coq Require Import List Arith Bool Lia QArith Qcanon.
From Verif Require Import Base Scalar AtomDiag_ex PyGf PyGf_proofs PyGfSpec.
Import ListNotations.
Local Open Scope nat_scope.

(** what is asked of the matrix inverse: it depends on the elements only; for a 1 x 1 matrix it is 1 / x *)
Definition inverse_ok (S : scalar_ops) (kinv : S -> S) (minv : nat -> (nat -> nat -> S) -> (nat -> nat -> S)) : Prop :=
  (forall n (a b : nat -> nat -> S), (forall i j, i < n -> j < n -> a i j = b i j) -> forall i j, i < n -> j < n -> minv n a i j = minv n b i j) /\
  (forall a : nat -> nat -> S, minv 1 a 0 0 = kinv (a 0 0)).

(** C87.  G << expression stores at each point of the mesh the value of the expression: sums, differences,
    matrix products, quotients and inverses, in which a number stands for a multiple of the unit matrix. *)
Theorem C87_assign : forall (S : scalar_ops) (kinv : S -> S) minv (kind : nat -> mesh_kind) (points : nat -> list S) mesh n sh self e x,
  scalar_laws S -> inverse_ok S kinv minv -> kind mesh = MeshImFreq \/ kind mesh = MeshReFreq ->
  sh = Some (n, n) \/ (sh = None /\ n = 1) -> on_mesh S points mesh sh self -> covered S points mesh n sh e x ->
  exists g, assign S kinv minv kind points self e = (g, Ok tt) /\ on_mesh S points mesh sh g /\
    forall p i j, p < length (points mesh) -> i < n -> j < n -> g_data S g p i j = value S kinv minv points mesh n sh e p i j.
Proof.
  intros S kinv minv kind points mesh n sh self e x L [I1 I2] Hk Hsh Hg HC.
  apply (assign_ok S L kinv minv kind points mesh n sh) with (x := x); auto; destruct Hk as [-> | ->]; reflexivity.
Qed.
Print Assumptions C87_assign.

(** C87.  What a function was before does not matter: the assignment overwrites all of it. *)
Theorem C87_old_data_irrelevant : forall (S : scalar_ops) (kinv : S -> S) minv (kind : nat -> mesh_kind) (points : nat -> list S) mesh n sh self self' e x g g' p i j,
  scalar_laws S -> inverse_ok S kinv minv -> kind mesh = MeshImFreq \/ kind mesh = MeshReFreq ->
  sh = Some (n, n) \/ (sh = None /\ n = 1) -> on_mesh S points mesh sh self -> on_mesh S points mesh sh self' -> covered S points mesh n sh e x ->
  assign S kinv minv kind points self e = (g, Ok tt) -> assign S kinv minv kind points self' e = (g', Ok tt) ->
  p < length (points mesh) -> i < n -> j < n -> g_data S g p i j = g_data S g' p i j.
Proof.
  intros S kinv minv kind points mesh n sh self self' e x g g' p i j L I Hk Hsh Hg Hg' HC E E' Hp Hi Hj.
  destruct (C87_assign S kinv minv kind points mesh n sh self e x L I Hk Hsh Hg HC) as (h & Eh & _ & Hh).
  destruct (C87_assign S kinv minv kind points mesh n sh self' e x L I Hk Hsh Hg' HC) as (h' & Eh' & _ & Hh').
  rewrite E in Eh. rewrite E' in Eh'. injection Eh as ->. injection Eh' as ->. rewrite Hh, Hh' by assumption. reflexivity.
Qed.
Print Assumptions C87_old_data_irrelevant.

(** C87.  G << H of another mesh throws and changes nothing; of another shape on the same mesh as well. *)
Theorem C87_incompatible : forall (S : scalar_ops) (kinv : S -> S) minv (kind : nat -> mesh_kind) (points : nat -> list S) self h,
  g_mesh S self <> g_mesh S h \/ g_shape S self <> g_shape S h -> exists g, assign S kinv minv kind points self (UVal S (G S h)) = (g, Throw) /\ g = self.
Proof.
  intros S kinv minv kind points self h H. unfold assign. cbn [build]. unfold lshift_gf, copy_from.
  destruct (Nat.eqb_spec (g_mesh S self) (g_mesh S h)) as [E|_]; [|eauto].
  assert (Hs : shape_eqb (g_shape S self) (g_shape S h) = false).
  { destruct H as [H|H]; [contradiction|]. destruct (g_shape S self) as [[a b]|], (g_shape S h) as [[c d]|]; cbn; try reflexivity; [|contradiction H; reflexivity].
    destruct (Nat.eqb_spec a c) as [->|]; [|reflexivity]. destruct (Nat.eqb_spec b d) as [->|]; [contradiction H; reflexivity|reflexivity]. }
  rewrite Hs, andb_false_r, <- E. eexists. split; [reflexivity|]. destruct self; reflexivity.
Qed.
Print Assumptions C87_incompatible.

(** C87, not so: the product in place of two square matrix-valued functions, G *= H, always throws, although G * H is defined. *)
Theorem C87_inplace_product_refuted : forall (S : scalar_ops) (g h : gf S) n, g_mesh S g = g_mesh S h -> g_len S g = g_len S h -> g_shape S g = Some (n, n) -> g_shape S h = Some (n, n) ->
  imatmul S g (G S h) = Throw /\
  exists r, matmul S g (G S h) = Ok r /\ g_shape S r = Some (n, n) /\ forall p i j, g_data S r p i j = product S n (g_data S g p) (g_data S h p) i j.
Proof.
  intros S g h n Em El Sg Sh. unfold imatmul, matmul. rewrite Em, El, Sg, Sh, !Nat.eqb_refl. cbn [negb andb]. split; [reflexivity|].
  eexists. split; [reflexivity|]. split; [reflexivity|]. intros p i j. reflexivity.
Qed.
Print Assumptions C87_inplace_product_refuted.

(** C87, not so: a Green's function times a descriptor, self << G * iOmega_n, always throws, although self << iOmega_n * G works. *)
Theorem C87_product_with_descriptor_refuted : forall (S : scalar_ops) (kinv : S -> S) minv (kind : nat -> mesh_kind) (points : nat -> list S) mesh n sh self g,
  scalar_laws S -> inverse_ok S kinv minv -> kind mesh = MeshImFreq \/ kind mesh = MeshReFreq ->
  sh = Some (n, n) \/ (sh = None /\ n = 1) -> on_mesh S points mesh sh self -> on_mesh S points mesh sh g ->
  assign S kinv minv kind points self (UBin S OpMul (UVal S (G S g)) (UDesc S (DOmega S))) = (self, Throw) /\
  exists r, assign S kinv minv kind points self (UBin S OpMul (UDesc S (DOmega S)) (UVal S (G S g))) = (r, Ok tt).
Proof.
  intros S kinv minv kind points mesh n sh self g L I Hk Hsh Hg Hg'. split; [reflexivity|].
  destruct (C87_assign S kinv minv kind points mesh n sh self (UBin S OpMul (UDesc S (DOmega S)) (UVal S (G S g))) FLazy L I Hk Hsh Hg) as (r & E & _); [|eauto].
  eapply cov_bin; [apply cov_omega|apply cov_gf; exact Hg'|reflexivity].
Qed.
Print Assumptions C87_product_with_descriptor_refuted.

(** C87, not so: copy_from of a function with another shape and mesh throws, but has changed the mesh. *)
Theorem C87_copy_from_refuted : forall (S : scalar_ops) (g h : gf S), g_mesh S g <> g_mesh S h -> g_shape S g = None -> g_shape S h <> None ->
  exists g', copy_from S g h = (g', Throw) /\ g_mesh S g' = g_mesh S h /\ g' <> g.
Proof.
  intros S g h Hm Hg Hh. unfold copy_from. rewrite Hg. destruct (g_shape S h) as [[a b]|]; [|contradiction Hh; reflexivity]. cbn [shape_eqb]. rewrite andb_false_r.
  eexists. split; [reflexivity|]. split; [reflexivity|]. intros E. apply Hm. rewrite <- E. reflexivity.
Qed.
Print Assumptions C87_copy_from_refuted.

(** The theorems are not empty: G << inverse(iOmega_n - A - G / 4) for 2 x 2 matrices at the frequencies 1 and 3. *)
Definition q (z : Z) : QS := Q2Qc (inject_Z z).
Definition minv2 (n : nat) (a : nat -> nat -> QS) (i j : nat) : QS :=
  if n =? 2 then
    let det := Qcminus (Qcmult (a 0 0) (a 1 1)) (Qcmult (a 0 1) (a 1 0)) in
    Qcdiv (if i =? j then a (1 - i) (1 - i) else Qcopp (a i j)) det
  else if n =? 1 then Qcinv (a 0 0) else q 0.
Lemma minv2_ok : inverse_ok QS Qcinv minv2.
Proof.
  split; [|reflexivity]. intros n a b H i j Hi Hj. unfold minv2. destruct (Nat.eqb_spec n 2) as [->|]; [|destruct (Nat.eqb_spec n 1) as [->|]; [rewrite H by lia; reflexivity|reflexivity]].
  cbv zeta. rewrite !(H 0 0), !(H 0 1), !(H 1 0), !(H 1 1) by lia. destruct (i =? j); rewrite H by lia; reflexivity.
Qed.
Definition ex_points (_ : nat) : list QS := [q 1; q 3].
Definition ex_kind (_ : nat) := MeshImFreq.
Definition ex_g : gf QS := mkGf QS 0 2 (Some (2, 2)) (fun p i j => q (Z.of_nat (4 * (i + j)))).
Definition ex_a (i j : nat) : QS := if i =? j then q 0 else q 1.
Definition ex_e : uexpr QS := UInv QS (UBin QS OpSub (UBin QS OpSub (UDesc QS (DOmega QS)) (UVal QS (Arr QS 2 2 ex_a))) (UBin QS OpDiv (UVal QS (G QS ex_g)) (UVal QS (Num QS (q 4))))).
Example C87_example :
  on_mesh QS ex_points 0 (Some (2, 2)) ex_g /\ covered QS ex_points 0 2 (Some (2, 2)) ex_e FLazy /\
  map (fun p => map (fun ij => this (g_data QS (fst (assign QS Qcinv minv2 ex_kind ex_points ex_g ex_e)) p (fst ij) (snd ij))) [(0, 0); (0, 1); (1, 0); (1, 1)]) [0; 1] =
    [[(1 # 5); (-2 # 5); (-2 # 5); (-1 # 5)]; [(-1 # 1); (-2 # 1); (-2 # 1); (-3 # 1)]]%Q.
Proof.
  split; [repeat split|]. split; [|vm_compute; reflexivity].
  apply cov_inv; [|auto]. eapply cov_bin; [eapply cov_bin; [apply cov_omega|apply cov_arr; reflexivity|reflexivity]| |reflexivity].
  eapply cov_bin; [apply cov_gf; repeat split|apply cov_num|reflexivity].
Qed.
