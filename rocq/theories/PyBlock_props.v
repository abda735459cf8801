(** Property C89: block Green's functions, the Dyson equation and sums over k points. *)
From Coq Require Import ZArith QArith Qcanon List Arith Bool Lia Ring.
From Verif Require Import Base Scalar MpiSlice PyGf PyGfSpec PyGf_proofs AtomDiag_ex PyGf_props PyBlock PyBlock_proofs PyBlockSpec.
Import ListNotations.
Local Open Scope nat_scope.

(** C89, operators on blocks: the result has the blocks of the left operand, under the same names and in the
    same order.  Each is what the operator gives for that block and, for a block operand, the block of the same name;
    for a list the entry at the same place; for a number or an array this number or array. *)
Theorem C89_blockwise : forall (S : scalar_ops) (kinv : S -> S) minv (kind : nat -> mesh_kind) (b c r : block S) (v : val S) (l : list (val S)) (x : S),
  let two op := blockwise S (fun n g g' => exists h, get S c n = Ok h /\ py_binop S kinv kind op (G S g) (G S h) = Ok (G S g')) b r in
  let right op := blockwise S (fun _ g g' => py_binop S kinv kind op (G S g) v = Ok (G S g')) b r in
  let listed op := length l = length b /\ Forall2 (fun y z => fst (fst y) = fst z /\ py_binop S kinv kind op (G S (snd (fst y))) (snd y) = Ok (G S (snd z))) (List.combine b l) r in
  (bl_add S kind b (ABlock S c) = Ok r <-> two OpAdd) /\ (bl_sub S kind b (ABlock S c) = Ok r <-> two OpSub) /\ (bl_mul S b (ABlock S c) = Ok r <-> two OpMul) /\
  (bl_add S kind b (AList S l) = Ok r <-> listed OpAdd) /\ (bl_sub S kind b (AList S l) = Ok r <-> listed OpSub) /\
  ((forall h, v <> G S h) ->
    (bl_add S kind b (AVal S v) = Ok r <-> right OpAdd) /\ (bl_sub S kind b (AVal S v) = Ok r <-> right OpSub) /\ (bl_mul S b (AVal S v) = Ok r <-> right OpMul) /\
    (bl_radd S kind (AVal S v) b = Ok r <-> blockwise S (fun _ g g' => py_binop S kinv kind OpAdd v (G S g) = Ok (G S g')) b r) /\
    (bl_rsub S kind (AVal S v) b = Ok r <-> blockwise S (fun _ g g' => py_binop S kinv kind OpSub v (G S g) = Ok (G S g')) b r)) /\
  (bl_div S kinv b x = Ok r <-> blockwise S (fun _ g g' => py_binop S kinv kind OpDiv (G S g) (Num S x) = Ok (G S g')) b r) /\
  (bl_inverse S kinv minv b = Ok r <-> blockwise S (fun _ g g' => inverse S kinv minv (G S g) = Ok (G S g')) b r).
Proof. intros. apply blockwise_all. Qed.
Print Assumptions C89_blockwise.

(** ... so a block is found under the same name, and an operand without a block of the left operand is refused *)
Theorem C89_names : forall (S : scalar_ops) (kinv : S -> S) (kind : nat -> mesh_kind) (b c r : block S),
  (bl_add S kind b (ABlock S c) = Ok r -> map fst r = map fst b /\
    forall n g, get S b n = Ok g -> exists h g', get S c n = Ok h /\ get S r n = Ok g' /\ py_binop S kinv kind OpAdd (G S g) (G S h) = Ok (G S g')) /\
  (forall n, In n (map fst b) -> get S c n = Throw ->
    bl_add S kind b (ABlock S c) <> Ok r /\ bl_sub S kind b (ABlock S c) <> Ok r /\ bl_mul S b (ABlock S c) <> Ok r).
Proof. intros. apply (names_all S kinv (fun _ a => a)). Qed.
Print Assumptions C89_names.

(** C89, Dyson: if G0^-1 - G^-1 = Sigma at every point of the mesh, [dyson] of two of the three is the third; with one, three or none it throws. *)
Theorem C89_dyson : forall (S : scalar_ops) (kinv : S -> S) minv (kind : nat -> mesh_kind) (points : nat -> list S) mesh n sh (G0 Gi Sigma : gf S),
  scalar_laws S -> inverse_ok S kinv minv -> (forall a b, inverse_of S n a b -> forall i j, i < n -> j < n -> minv n a i j = b i j) ->
  kind mesh = MeshImFreq \/ kind mesh = MeshReFreq -> sh = Some (n, n) \/ (sh = None /\ n = 1) ->
  on_mesh S points mesh sh G0 -> on_mesh S points mesh sh Gi -> on_mesh S points mesh sh Sigma ->
  (forall p, p < length (points mesh) -> dyson_equation S n (g_data S G0 p) (g_data S Gi p) (g_data S Sigma p)) ->
  (exists r, dyson S kinv minv kind None (Some Gi) (Some Sigma) = Ok r /\ on_mesh S points mesh sh r /\ agree S points mesh n (g_data S r) (g_data S G0)) /\
  (exists r, dyson S kinv minv kind (Some G0) None (Some Sigma) = Ok r /\ on_mesh S points mesh sh r /\ agree S points mesh n (g_data S r) (g_data S Gi)) /\
  (exists r, dyson S kinv minv kind (Some G0) (Some Gi) None = Ok r /\ on_mesh S points mesh sh r /\ agree S points mesh n (g_data S r) (g_data S Sigma)).
Proof.
  intros S kinv minv kind points mesh n sh G0 Gi Sigma L [I1 I2] Hl Hk Hsh H0 HG HS HD.
  apply (dyson_ok S L kinv minv kind points mesh n); auto. destruct Hk as [-> | ->]; reflexivity.
Qed.
Print Assumptions C89_dyson.
Theorem C89_dyson_arguments : forall (S : scalar_ops) (kinv : S -> S) minv (kind : nat -> mesh_kind) (a b c : option (gf S)) r,
  dyson S kinv minv kind a b c = Ok r -> (a = None /\ b <> None /\ c <> None) \/ (a <> None /\ b = None /\ c <> None) \/ (a <> None /\ b <> None /\ c = None).
Proof.
  intros S kinv minv kind [a|] [b|] [c|] r H; cbn in H; try discriminate H; [right; right|right; left|left]; repeat split; discriminate.
Qed.
Print Assumptions C89_dyson_arguments.

(** C89, sum over k: on every number of ranks the result is the sum over all k points of w (omega + mu - field - Sigma(k) - eps(k))^-1. *)
Theorem C89_sumk : forall (S : scalar_ops) (kinv : S -> S) minv (kind : nat -> mesh_kind) (points : nat -> list S) mesh n (K : Type)
    size eps_hat (sg : sigma S K) mu field model (l : list (S * K * (nat -> nat -> S))),
  scalar_laws S -> inverse_ok S kinv minv -> kind mesh = MeshImFreq -> (1 <= size)%Z -> on_mesh S points mesh (Some (n, n)) model ->
  (forall k e, on_mesh S points mesh (Some (n, n)) (sigma_value S sg k e)) -> inhabited K -> field_fits S points mesh n field ->
  exists r, sumk S kinv minv kind points K size eps_hat n false sg mu field model (map (fun x => fst (fst x)) l) (map (fun x => snd (fst x)) l) (map snd l) = Ok r /\
    on_mesh S points mesh (Some (n, n)) r /\
    agree S points mesh n (g_data S r) (fun p => k_sum S minv n (nth p (points mesh) k0) mu field sg eps_hat l p).
Proof.
  intros S kinv minv kind points mesh n K size eps_hat sg mu field model l L [I1 I2] Hk Hs Hm Hsg [k] Hf.
  apply (sumk_is S L kinv minv kind points mesh n Hk (I1 n) K eps_hat sg mu field); auto.
  destruct sg as [g|f]; [exact (Hsg k (fun _ _ => k0))|exact Hsg].
Qed.
Print Assumptions C89_sumk.

(** C89, not so: with the object Sigma itself as [result], the sum is that for Sigma = 0. *)
Theorem C89_sumk_in_place_refuted : forall (S : scalar_ops) (kinv : S -> S) minv (kind : nat -> mesh_kind) (points : nat -> list S) mesh n (K : Type)
    size eps_hat (g : gf S) mu field (l : list (S * K * (nat -> nat -> S))),
  scalar_laws S -> inverse_ok S kinv minv -> kind mesh = MeshImFreq -> (1 <= size)%Z -> on_mesh S points mesh (Some (n, n)) g -> inhabited K -> field_fits S points mesh n field ->
  exists r, sumk S kinv minv kind points K size eps_hat n true (SigGf S K g) mu field g (map (fun x => fst (fst x)) l) (map (fun x => snd (fst x)) l) (map snd l) = Ok r /\
    agree S points mesh n (g_data S r) (fun p => k_sum S minv n (nth p (points mesh) k0) mu field (SigGf S K (mkGf S mesh (g_len S g) (Some (n, n)) (fun _ _ _ => k0))) eps_hat l p).
Proof.
  intros S kinv minv kind points mesh n K size eps_hat g mu field l L I Hk Hs Hm HK Hf.
  destruct (C89_sumk S kinv minv kind points mesh n K size eps_hat (SigGf S K (zero S g)) mu field g l L I Hk Hs Hm) as (r & E & _ & J); [|exact HK|exact Hf|].
  - intros k e. cbn [sigma_value]. exact Hm.
  - exists r. split; [exact E|]. exact J.
Qed.
Print Assumptions C89_sumk_in_place_refuted.

(** C89, not so: B + e, B - e and B * e with a lazy expression e (such as iOmega_n) are B. *)
Theorem C89_lazy_refuted : forall (S : scalar_ops) (kind : nat -> mesh_kind) (b : block S) (e : lazy S),
  bl_add S kind b (ALazy S e) = Ok b /\ bl_sub S kind b (ALazy S e) = Ok b /\ bl_mul S b (ALazy S e) = Ok b.
Proof. intros. repeat split; reflexivity. Qed.
Print Assumptions C89_lazy_refuted.

(** C89, not so: M * B with a matrix M on the left is B * M. *)
Theorem C89_left_product_refuted : forall (S : scalar_ops), scalar_laws S -> (k0 : S) <> k1 ->
  exists (b : block S) m g r r', b = [(0, g)] /\
    bl_rmul S (AVal S (Arr S 2 2 m)) b = Ok [(0, r)] /\ rmatmul S (Arr S 2 2 m) g = Ok r' /\ g_data S r 0 0 1 <> g_data S r' 0 0 1 /\
    (forall p i j, g_data S r p i j = product S 2 (g_data S g p) m i j) /\ (forall p i j, g_data S r' p i j = product S 2 m (g_data S g p) i j).
Proof. intros S L. exact (left_product S L). Qed.
Print Assumptions C89_left_product_refuted.

(** The theorems are not empty. *)
Lemma inv22 (a00 a01 a10 a11 b00 b01 b10 b11 : Qc) :
  (a00 * b00 + (a01 * b10 + 0) = 1 -> a00 * b01 + (a01 * b11 + 0) = 0 -> a10 * b00 + (a11 * b10 + 0) = 0 -> a10 * b01 + (a11 * b11 + 0) = 1 ->
   a11 / (a00 * a11 - a01 * a10) = b00 /\ - a01 / (a00 * a11 - a01 * a10) = b01 /\ - a10 / (a00 * a11 - a01 * a10) = b10 /\ a00 / (a00 * a11 - a01 * a10) = b11)%Qc.
Proof.
  intros E00 E01 E10 E11.
  assert (D : ((a00 * a11 - a01 * a10) * (b00 * b11 - b01 * b10) = 1)%Qc).
  { transitivity ((a00 * b00 + (a01 * b10 + 0)) * (a10 * b01 + (a11 * b11 + 0)) - (a00 * b01 + (a01 * b11 + 0)) * (a10 * b00 + (a11 * b10 + 0)))%Qc; [ring|]. rewrite E00, E01, E10, E11. ring. }
  set (d := (a00 * a11 - a01 * a10)%Qc) in *.
  assert (Hd : d <> 0%Qc). { intros E. rewrite E in D. assert (F : (0 = 1 :> Qc)%Qc) by (rewrite <- D; ring). discriminate F. }
  assert (X : forall x y : Qc, (x = d * y)%Qc -> (x / d = y)%Qc). { intros x y ->. field. exact Hd. }
  repeat split; apply X; unfold d.
  - transitivity (a11 * (a00 * b00 + (a01 * b10 + 0)) - a01 * (a10 * b00 + (a11 * b10 + 0)))%Qc; [rewrite E00, E10|]; ring.
  - transitivity (a11 * (a00 * b01 + (a01 * b11 + 0)) - a01 * (a10 * b01 + (a11 * b11 + 0)))%Qc; [rewrite E01, E11|]; ring.
  - transitivity (a00 * (a10 * b00 + (a11 * b10 + 0)) - a10 * (a00 * b00 + (a01 * b10 + 0)))%Qc; [rewrite E00, E10|]; ring.
  - transitivity (a00 * (a10 * b01 + (a11 * b11 + 0)) - a10 * (a00 * b01 + (a01 * b11 + 0)))%Qc; [rewrite E01, E11|]; ring.
Qed.
Lemma minv2_law : forall a b : nat -> nat -> QS, inverse_of QS 2 a b -> forall i j, i < 2 -> j < 2 -> minv2 2 a i j = b i j.
Proof.
  intros a b H i j Hi Hj. destruct (H 0 0) as [E00 _]; [lia|lia|]. destruct (H 0 1) as [E01 _]; [lia|lia|]. destruct (H 1 0) as [E10 _]; [lia|lia|]. destruct (H 1 1) as [E11 _]; [lia|lia|].
  destruct (inv22 _ _ _ _ _ _ _ _ E00 E01 E10 E11) as (F1 & F2 & F3 & F4).
  destruct i as [|[|i]]; [| |lia]; (destruct j as [|[|j]]; [| |lia]); assumption.
Qed.
(** G0, G and Sigma at two frequencies *)
Definition m22 (a b c d : Z) (i j : nat) : QS := q (match i, j with 0, 0 => a | 0, _ => b | _, 0 => c | _, _ => d end).
Definition ex_G0 : gf QS := mkGf QS 0 2 (Some (2, 2)) (fun _ => m22 1 (-1) (-1) 2).
Definition ex_G : gf QS := mkGf QS 0 2 (Some (2, 2)) (fun _ => m22 1 (-1) 0 1).
Definition ex_S : gf QS := mkGf QS 0 2 (Some (2, 2)) (fun _ => m22 1 0 1 0).
Lemma two_by_two (P : nat -> nat -> Prop) : P 0 0 -> P 0 1 -> P 1 0 -> P 1 1 -> forall i j, i < 2 -> j < 2 -> P i j.
Proof. intros H1 H2 H3 H4 i j Hi Hj. destruct i as [|[|i]]; [| |lia]; (destruct j as [|[|j]]; [| |lia]); assumption. Qed.
Example C89_dyson_example :
  inverse_ok QS Qcinv minv2 /\ on_mesh QS ex_points 0 (Some (2, 2)) ex_G0 /\ on_mesh QS ex_points 0 (Some (2, 2)) ex_G /\ on_mesh QS ex_points 0 (Some (2, 2)) ex_S /\
  forall p, p < length (ex_points 0) -> dyson_equation QS 2 (g_data QS ex_G0 p) (g_data QS ex_G p) (g_data QS ex_S p).
Proof.
  split; [exact minv2_ok|]. split; [repeat split|]. split; [repeat split|]. split; [repeat split|]. intros p _. exists (m22 2 1 1 1), (m22 1 1 0 1). split; [|split]; refine (two_by_two (fun i j => _) _ _ _ _).
  all: try split; apply Qc_is_canon; vm_compute; reflexivity.
Qed.
(** a sum over two k points with weight 1/2 and a Sigma, on three ranks *)
Definition ex_l : list (QS * nat * (nat -> nat -> QS)) := [(Qcinv (q 2), 0, m22 1 0 0 0); (Qcinv (q 2), 1, m22 0 1 1 0)].
Example C89_sumk_example :
  (forall k e, on_mesh QS ex_points 0 (Some (2, 2)) (sigma_value QS (SigGf QS nat ex_S) k e)) /\ field_fits QS ex_points 0 2 (Some (Num QS (q 5))) /\
  match sumk QS Qcinv minv2 ex_kind ex_points nat 3 (fun e => e) 2 false (SigGf QS nat ex_S) (q 1) (Some (Num QS (q 5))) ex_g (map (fun x => fst (fst x)) ex_l) (map (fun x => snd (fst x)) ex_l) (map snd ex_l) with
  | Ok r => map (fun p => map (fun ij => this (g_data QS r p (fst ij) (snd ij))) [(0, 0); (0, 1); (1, 0); (1, 1)]) [0; 1]
  | _ => []
  end = [[(-1 # 4); (1 # 20); (2 # 15); (-11 # 30)]; [(-1 # 6); 0; (1 # 6); (-1 # 2)]]%Q.
Proof.
  split; [intros k e; repeat split|]. split; [exact I|]. vm_compute. reflexivity.
Qed.
(** blocks 3 and 5, added to blocks listed in the other order *)
Example C89_block_example :
  match bl_add QS ex_kind [(3, ex_G0); (5, ex_G)] (ABlock QS [(5, ex_S); (3, ex_g)]) with
  | Ok r => map (fun x => (fst x, this (g_data QS (snd x) 0 0 1))) r
  | _ => []
  end = [(3, (3 # 1)%Q); (5, (-1 # 1)%Q)].
Proof. vm_compute. reflexivity. Qed.
