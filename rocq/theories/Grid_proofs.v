From Coq Require Import ZArith QArith List Bool Lia Lqa.
From Verif Require Import Base Grid.
Import ListNotations.
Local Open Scope Z_scope.

(** number of points along an axis: n for the first dim axes, 1 for the others *)
Definition axis (dim n k : Z) : Z := if k <? dim then n else 1.
(** the middle of cell i of n *)
Definition mid (n i : Z) : Q := ((inject_Z i + (1 # 2)) / inject_Z n)%Q.
Definition pt_eq (p q : Q * Q * Q) : Prop := (fst (fst p) == fst (fst q))%Q /\ (snd (fst p) == snd (fst q))%Q /\ (snd p == snd q)%Q.

Lemma injQ_pos n : 1 <= n -> (0 < inject_Z n)%Q.
Proof. intros H. change 0%Q with (inject_Z 0). rewrite <- Zlt_Qlt. lia. Qed.
Lemma mid_0 n : 1 <= n -> (step n / 2 == mid n 0)%Q.
Proof. intros H. apply injQ_pos in H. unfold step, mid. change (inject_Z 0) with 0%Q. field. lra. Qed.
Lemma mid_S n i : 1 <= n -> (mid n i + step n == mid n (i + 1))%Q.
Proof. intros H. apply injQ_pos in H. unfold step, mid. rewrite inject_Z_plus. change (inject_Z 1) with 1%Q. field. lra. Qed.
Lemma mid_inj n i j : 1 <= n -> (mid n i == mid n j)%Q -> i = j.
Proof.
  intros H E. apply injQ_pos in H. unfold mid in E. assert (E' : (inject_Z i == inject_Z j)%Q).
  { assert (G : (inject_Z i + (1 # 2) == inject_Z j + (1 # 2))%Q).
    { setoid_replace (inject_Z i + (1 # 2))%Q with ((inject_Z i + (1 # 2)) / inject_Z n * inject_Z n)%Q by (field; lra). rewrite E. field. lra. }
    lra. }
  exact (proj1 (inject_Z_injective i j) E').
Qed.

Section Grid.
  Variables (NX NY NZ d n : Z).
  Hypothesis HX : 1 <= NX. Hypothesis HY : 1 <= NY. Hypothesis HZ : 1 <= NZ.
  Hypothesis Hmax : NX * NY * NZ <= int_max.

  (** the state that shows cell (x, y, z) *)
  Definition shows (g : grid) (x y z : Z) : Prop :=
    g_NX g = NX /\ g_NY g = NY /\ g_NZ g = NZ /\ g_nx g = x /\ g_ny g = y /\ g_nz g = z /\ 0 <= x < NX /\ 0 <= y < NY /\ 0 <= z < NZ /\
    g_index g = x + NX * (y + NY * z) /\ g_at_end g = false /\ pt_eq (deref g) (mid NX x, mid NY y, mid NZ z).

  Definition point_at (k : Z) : Z * Z * Z := (k mod NX, (k / NX) mod NY, k / NX / NY).

  Lemma decomp x y z : 0 <= x < NX -> 0 <= y < NY -> point_at (x + NX * (y + NY * z)) = (x, y, z).
  Proof.
    intros H1 H2. unfold point_at.
    assert (E1 : (x + NX * (y + NY * z)) mod NX = x) by (rewrite Z.mul_comm, Z.mod_add by lia; apply Z.mod_small; lia).
    assert (E2 : (x + NX * (y + NY * z)) / NX = y + NY * z) by (rewrite Z.mul_comm, Z.div_add by lia; rewrite Z.div_small by lia; lia).
    rewrite E1, E2. f_equal; [f_equal|].
    - rewrite Z.mul_comm, Z.mod_add by lia. apply Z.mod_small. lia.
    - rewrite Z.mul_comm, Z.div_add by lia. rewrite Z.div_small by lia. lia.
  Qed.

  Lemma index_bound x y z : 0 <= x < NX -> 0 <= y < NY -> 0 <= z < NZ -> 0 <= x + NX * (y + NY * z) < NX * NY * NZ.
  Proof. intros. assert (0 <= y + NY * z < NY * NZ) by nia. nia. Qed.

  Lemma incr_spec g x y z : shows g x y z -> let k := x + NX * (y + NY * z) in
    if k <? NX * NY * NZ - 1 then exists g' x' y' z', increment g = Ok g' /\ shows g' x' y' z' /\ x' + NX * (y' + NY * z') = k + 1
    else exists g', increment g = Ok g' /\ g_at_end g' = true.
  Proof.
    intros (A1 & A2 & A3 & A4 & A5 & A6 & B1 & B2 & B3 & A7 & A8 & (P1 & P2 & P3)) k.
    pose proof (index_bound x y z B1 B2 B3) as Hk. fold k in Hk. cbn [deref fst snd] in P1, P2, P3.
    unfold increment. rewrite A1, A2, A3, A4, A5, A6, A7. fold k. unfold bump.
    destruct (Z.ltb_spec x (NX - 1)) as [X|X].
    - assert (K : k + 1 = (x + 1) + NX * (y + NY * z)) by (unfold k; lia). pose proof (index_bound (x + 1) y z ltac:(lia) B2 B3).
      destruct (Z.ltb_spec k (NX * NY * NZ - 1)); [|lia]. destruct (Z.ltb_spec k int_max); [|lia]. cbn [bind].
      eexists _, (x + 1), y, z. split; [reflexivity|]. split; [|lia].
      unfold shows, pt_eq, deref. cbn. repeat (split; [solve [assumption | reflexivity | lia]|]). repeat split; try assumption. rewrite P1. apply mid_S. exact HX.
    - destruct (Z.ltb_spec y (NY - 1)) as [Y|Y].
      + assert (K : k + 1 = 0 + NX * (y + 1 + NY * z)) by (unfold k; nia). pose proof (index_bound 0 (y + 1) z ltac:(lia) ltac:(lia) B3).
        destruct (Z.ltb_spec k (NX * NY * NZ - 1)); [|lia]. destruct (Z.ltb_spec k int_max); [|lia]. cbn [bind].
        eexists _, 0, (y + 1), z. split; [reflexivity|]. split; [|lia].
        unfold shows, pt_eq, deref. cbn. repeat (split; [solve [assumption | reflexivity | lia]|]). repeat split; try assumption; [apply mid_0; exact HX|rewrite P2; apply mid_S; exact HY].
      + destruct (Z.ltb_spec z (NZ - 1)) as [W|W].
        * assert (Ex : x = NX - 1) by lia. assert (Ey : y = NY - 1) by lia.
          assert (K : k + 1 = 0 + NX * (0 + NY * (z + 1))) by (unfold k; rewrite Ex, Ey; ring). pose proof (index_bound 0 0 (z + 1) ltac:(lia) ltac:(lia) ltac:(lia)).
          destruct (Z.ltb_spec k (NX * NY * NZ - 1)); [|lia]. destruct (Z.ltb_spec k int_max); [|lia]. cbn [bind].
          eexists _, 0, 0, (z + 1). split; [reflexivity|]. split; [|lia].
          unfold shows, pt_eq, deref. cbn. repeat (split; [solve [assumption | reflexivity | lia]|]).
          repeat split; try assumption; [apply mid_0; exact HX|apply mid_0; exact HY|rewrite P3; apply mid_S; exact HZ].
        * assert (Ex : x = NX - 1) by lia. assert (Ey : y = NY - 1) by lia. assert (Ez : z = NZ - 1) by lia.
          assert (K : k = NX * NY * NZ - 1) by (unfold k; rewrite Ex, Ey, Ez; ring).
          destruct (Z.ltb_spec k (NX * NY * NZ - 1)); [lia|]. eexists. split; [reflexivity|]. reflexivity.
  Qed.

  Definition cell (k : Z) : Q * Q * Q := (mid NX (k mod NX), mid NY ((k / NX) mod NY), mid NZ (k / NX / NY)).

  Lemma visit_from fuel g x y z : shows g x y z -> let k := x + NX * (y + NY * z) in
    (Z.to_nat (NX * NY * NZ - k) <= fuel)%nat ->
    exists vs, visit fuel g = Ok (vs, true) /\ Forall2 (fun j v => fst v = k + Z.of_nat j /\ pt_eq (snd v) (cell (k + Z.of_nat j))) (seq 0 (Z.to_nat (NX * NY * NZ - k))) vs.
  Proof.
    revert g x y z. induction fuel as [|fuel IH]; intros g x y z Hs k Hf.
    - pose proof Hs as (_ & _ & _ & _ & _ & _ & B1 & B2 & B3 & _). pose proof (index_bound x y z B1 B2 B3). fold k in H. lia.
    - pose proof Hs as (_ & _ & _ & _ & _ & _ & B1 & B2 & B3 & A7 & A8 & P). pose proof (index_bound x y z B1 B2 B3) as Hk. fold k in Hk.
      cbn [visit]. unfold valid. rewrite A8. cbn [negb]. pose proof (incr_spec g x y z Hs) as I. fold k in I. cbv zeta in I.
      assert (Pk : pt_eq (deref g) (cell k)).
      { unfold cell. pose proof (decomp x y z B1 B2) as D. fold k in D. unfold point_at in D. injection D as -> -> ->. exact P. }
      destruct (Z.ltb_spec k (NX * NY * NZ - 1)) as [L|G].
      + destruct I as (g' & x' & y' & z' & -> & Hs' & Ek). cbn [bind].
        destruct (IH g' x' y' z' Hs') as (vs & Ev & Fv); [cbv zeta; rewrite Ek; lia|]. rewrite Ev. cbn [bind fst snd].
        eexists. split; [reflexivity|]. cbv zeta in Fv. rewrite Ek in Fv.
        replace (Z.to_nat (NX * NY * NZ - k)) with (S (Z.to_nat (NX * NY * NZ - (k + 1)))) by lia. cbn [seq]. constructor.
        * cbn [fst snd]. rewrite Z.add_0_r. split; [exact A7|exact Pk].
        * rewrite <- seq_shift. clear -Fv. revert Fv. generalize (seq 0 (Z.to_nat (NX * NY * NZ - (k + 1)))). intros js. revert vs.
          induction js as [|j js IHj]; intros vs Fv; inversion_clear Fv; constructor; [|apply IHj; assumption].
          replace (k + Z.of_nat (S j)) with (k + 1 + Z.of_nat j) by lia. assumption.
      + destruct I as (g' & -> & E'). cbn [bind]. destruct fuel; cbn [visit]; unfold valid; rewrite E'; cbn [negb bind fst snd].
        all: eexists; (split; [reflexivity|]); replace (Z.to_nat (NX * NY * NZ - k)) with 1%nat by lia; cbn [seq]; constructor; [|constructor].
        all: cbn [fst snd]; rewrite Z.add_0_r; split; [exact A7|exact Pk].
  Qed.

  Lemma cell_inj k k' : 0 <= k < NX * NY * NZ -> 0 <= k' < NX * NY * NZ -> pt_eq (cell k) (cell k') -> k = k'.
  Proof.
    intros _ _ (E1 & E2 & E3). unfold cell in *. cbn [fst snd] in *. apply mid_inj in E1; [|exact HX]. apply mid_inj in E2; [|exact HY]. apply mid_inj in E3; [|exact HZ].
    rewrite (Z.div_mod k NX), (Z.div_mod k' NX) by lia. rewrite (Z.div_mod (k / NX) NY), (Z.div_mod (k' / NX) NY) by lia. rewrite E1, E2, E3. reflexivity.
  Qed.
End Grid.

Lemma grid_new_shows dim n : 1 <= n -> shows (axis dim n 0) (axis dim n 1) (axis dim n 2) (grid_new dim n) 0 0 0 \/ dim < 1.
Proof.
  intros Hn. destruct (Z.lt_ge_cases dim 1) as [|Hd]; [right; assumption|left].
  assert (E0 : axis dim n 0 = n) by (unfold axis; destruct (Z.ltb_spec 0 dim); [reflexivity|lia]).
  assert (H1 : 1 <= axis dim n 1) by (unfold axis; destruct (1 <? dim); lia). assert (H2 : 1 <= axis dim n 2) by (unfold axis; destruct (2 <? dim); lia).
  unfold shows, grid_new, pt_eq, deref. cbn [g_NX g_NY g_NZ g_nx g_ny g_nz g_index g_at_end g_px g_py g_pz fst snd]. rewrite E0.
  do 11 (split; [solve [reflexivity | lia]|]). split; [|split]; apply mid_0; unfold axis in *; assumption.
Qed.
Lemma F2_length {A B : Type} (P : A -> B -> Prop) l m : Forall2 P l m -> length l = length m.
Proof. induction 1; cbn; congruence. Qed.
