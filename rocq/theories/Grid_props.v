(** C50: the k-point grid of the lattice library. *)
From Coq Require Import ZArith QArith List Bool Lia Lqa.
From Verif Require Import Base Grid Grid_proofs.
Import ListNotations.
Local Open Scope Z_scope.

(** C50.  for (grid_generator g(dim, n); g; ++g) visits n^dim points and stops.  The k-th point
    has index k and its coordinate number c (c = 0, 1, 2) is the middle of cell number
    (digit c of k in base n) of [0,1] cut in n, or 1/2 for the unused axes c >= dim. *)
Theorem C50_grid_visits :
  forall dim n fuel, 1 <= dim <= 3 -> 1 <= n -> n ^ dim <= int_max -> (Z.to_nat (n ^ dim) <= fuel)%nat ->
  grid_size (grid_new dim n) = Ok (n ^ dim) /\
  exists vs, visit fuel (grid_new dim n) = Ok (vs, true) /\ length vs = Z.to_nat (n ^ dim) /\
  (forall k v, nth_error vs k = Some v ->
     fst v = Z.of_nat k /\
     let coord c := if c <? dim then ((inject_Z (Z.of_nat k / n ^ c mod n) + (1 # 2)) / inject_Z n)%Q else (1 # 2)%Q in
     (fst (fst (snd v)) == coord 0%Z)%Q /\ (snd (fst (snd v)) == coord 1%Z)%Q /\ (snd (snd v) == coord 2%Z)%Q) /\
  (forall k k' v v', nth_error vs k = Some v -> nth_error vs k' = Some v' -> k <> k' ->
     ~ ((fst (fst (snd v)) == fst (fst (snd v')))%Q /\ (snd (fst (snd v)) == snd (fst (snd v')))%Q /\ (snd (snd v) == snd (snd v'))%Q)).
Proof.
  intros dim n fuel Hd Hn Hm Hf.
  assert (D : dim = 1 \/ dim = 2 \/ dim = 3) by lia.
  set (NX := axis dim n 0). set (NY := axis dim n 1). set (NZ := axis dim n 2).
  assert (EN : NX * NY * NZ = n ^ dim) by (unfold NX, NY, NZ, axis; destruct D as [E1|[E1|E1]]; subst dim; cbn -[Z.mul]; ring).
  assert (HX : 1 <= NX) by (unfold NX, axis; destruct (0 <? dim); lia).
  assert (HY : 1 <= NY) by (unfold NY, axis; destruct (1 <? dim); lia). assert (HZ : 1 <= NZ) by (unfold NZ, axis; destruct (2 <? dim); lia).
  split.
  { unfold grid_size. assert (E : g_NX (grid_new dim n) * g_NY (grid_new dim n) * g_NZ (grid_new dim n) = n ^ dim).
    { rewrite <- EN. unfold NX, NY, NZ, axis. cbn [grid_new g_NX g_NY g_NZ]. destruct (Z.ltb_spec 0 dim); [reflexivity|lia]. }
    rewrite E. destruct (Z.leb_spec (n ^ dim) int_max); [reflexivity|lia]. }
  destruct (grid_new_shows dim n Hn) as [Sh|]; [|lia]. fold NX NY NZ in Sh.
  assert (HM : NX * NY * NZ <= int_max) by (rewrite EN; exact Hm).
  assert (Z0 : 0 + NX * (0 + NY * 0) = 0) by ring.
  destruct (visit_from NX NY NZ HX HY HZ HM fuel (grid_new dim n) 0 0 0 Sh) as (vs & Ev & Fv); [cbv zeta; rewrite Z0, Z.sub_0_r, EN; exact Hf|].
  cbv zeta in Fv. rewrite Z0, Z.sub_0_r, EN in Fv. exists vs. split; [exact Ev|].
  assert (Len : length vs = Z.to_nat (n ^ dim)) by (rewrite <- (F2_length _ _ _ Fv), seq_length; reflexivity). split; [exact Len|].
  assert (At : forall k v, nth_error vs k = Some v -> fst v = Z.of_nat k /\ pt_eq (snd v) (cell NX NY NZ (Z.of_nat k))).
  { assert (G : forall s m ws, Forall2 (fun j v => fst v = 0 + Z.of_nat j /\ pt_eq (snd v) (cell NX NY NZ (0 + Z.of_nat j))) (seq s m) ws ->
      forall k v, nth_error ws k = Some v -> fst v = Z.of_nat (s + k) /\ pt_eq (snd v) (cell NX NY NZ (Z.of_nat (s + k)))).
    { intros s m. revert s. induction m as [|m IH]; intros s ws F k v H; inversion F; subst; [destruct k; discriminate H|].
      destruct k as [|k]; cbn [nth_error] in H; [injection H as <-; rewrite Nat.add_0_r; assumption|].
      replace (s + S k)%nat with (S s + k)%nat by lia. eapply IH; eassumption. }
    intros k v H. exact (G 0%nat _ _ Fv k v H). }
  split.
  - intros k v H. destruct (At k v H) as [E1 (P1 & P2 & P3)]. split; [exact E1|].
    assert (Hk : (k < length vs)%nat) by (apply nth_error_Some; rewrite H; discriminate). rewrite Len in Hk.
    assert (Bk : 0 <= Z.of_nat k < n ^ dim) by lia. unfold cell in P1, P2, P3. cbn [fst snd] in P1, P2, P3. cbv zeta.
    unfold NX, NY, NZ, axis, mid in P1, P2, P3. rewrite P1, P2, P3. rewrite Z.pow_0_r, Z.pow_1_r, Z.div_1_r.
    assert (M1 : forall x, ((inject_Z (x mod 1) + (1 # 2)) / inject_Z 1 == 1 # 2)%Q) by (intros x; rewrite Z.mod_1_r; reflexivity).
    assert (M2 : forall x, x = 0 -> ((inject_Z x + (1 # 2)) / inject_Z 1 == 1 # 2)%Q) by (intros x ->; reflexivity).
    destruct D as [E9|[E9|E9]]; subst dim; cbn -[Z.div Z.modulo Z.pow inject_Z Qdiv Qplus Z.of_nat]; (split; [reflexivity|]).
    + split; [apply M1|]. apply M2. rewrite !Z.div_1_r. apply Z.div_small. rewrite Z.pow_1_r in Bk. exact Bk.
    + split; [reflexivity|]. apply M2. rewrite Z.div_div by lia. apply Z.div_small. rewrite Z.pow_2_r in Bk. exact Bk.
    + split; [reflexivity|]. rewrite Z.div_div by lia. rewrite (Z.pow_2_r n). rewrite (Z.mod_small (Z.of_nat k / (n * n)) n); [reflexivity|].
      split; [apply Z.div_pos; nia|]. apply Z.div_lt_upper_bound; [nia|]. replace (n * n * n) with (n ^ 3) by ring. lia.
  - intros k k' v v' H H' Hne (P1 & P2 & P3). apply Hne. destruct (At k v H) as [_ (Q1 & Q2 & Q3)]. destruct (At k' v' H') as [_ (R1 & R2 & R3)].
    assert (Hk : (k < length vs)%nat) by (apply nth_error_Some; rewrite H; discriminate).
    assert (Hk' : (k' < length vs)%nat) by (apply nth_error_Some; rewrite H'; discriminate). rewrite Len in Hk, Hk'.
    enough (Z.of_nat k = Z.of_nat k') by lia. apply (cell_inj NX NY NZ HX HY HZ); [rewrite EN; lia|rewrite EN; lia|].
    split; [|split]; [rewrite <- Q1, <- R1; exact P1|rewrite <- Q2, <- R2; exact P2|rewrite <- Q3, <- R3; exact P3].
Qed.
Print Assumptions C50_grid_visits.

(** A grid of 0 points per direction (in particular a default-constructed grid_generator, which
    is one of dimension 3) is not empty: one point is visited, although size() is 0. *)
Theorem C50_empty_grid_refuted :
  forall dim fuel, exists p, grid_size (grid_new dim 0) = Ok 0 /\ visit (S fuel) (grid_new dim 0) = Ok ([(0, p)], true).
Proof.
  intros dim fuel. eexists. split; [reflexivity|]. cbn [visit].
  assert (E : increment (grid_new dim 0) = Ok (let g := grid_new dim 0 in mkGrid dim 0 0 0 0 0 (g_NY g) (g_NZ g) 0 true (step 0 / 2) (step (g_NY g) / 2) (step (g_NZ g) / 2))).
  { unfold increment, grid_new. cbn [g_nx g_NX g_ny g_NY g_nz g_NZ]. destruct (1 <? dim), (2 <? dim); reflexivity. }
  rewrite E. cbn [valid g_at_end negb grid_new bind]. destruct fuel; reflexivity.
Qed.
Print Assumptions C50_empty_grid_refuted.

Example C50_ex : exists vs, visit 10 (grid_new 2 3) = Ok (vs, true) /\ length vs = 9%nat /\
  match nth_error vs 5 with Some (i, p) => i = 5 /\ (fst (fst p) == 5 # 6)%Q /\ (snd (fst p) == 1 # 2)%Q | None => False end.
Proof. eexists. split; [vm_compute; reflexivity|]. split; [reflexivity|]. cbn. split; [reflexivity|]. split; reflexivity. Qed.
