(** A problem with real energies: one orbital, H = -3 n. *)
From Coq Require Import ZArith NArith String List Arith Bool Lia Sorted Reals Lra.
From Coquelicot Require Import Coquelicot.
From Verif Require Import Base Indices Scalar Fock OpModel OpExpr Hilbert ImpOp_run Partition PartitionSpec Partition_thms AtomDiag AtomDiagSpec AtomDiag_props RealAtom.
Import ListNotations.
Local Open Scope R_scope.

Ltac rr := match goal with |- @eq _ ?x ?y => refine ((fun H : @eq R x y => H) _) end; cbn [K RS]; ring.
Definition ro : indices := [LStr "up"%string; LInt 0].
Definition orbs1 : fops := [ro].
Definition ham1 : expr RS := EMulS (EN ro) (-3 : RS).
Notation RE1 := (RE RS (fun x => x)).
Definition eigen1 (m : mat RS) : list RE1 * mat RS :=
  if (m_rows m =? 1)%nat then ([m_at m 0 0 : RE1], mkMat 1 1 (fun _ _ => (1 : RS)))
  else ([(-3 : RE1); (0 : RE1)], mkMat 2 2 (fun i j => (if (i =? j)%nat then 0 else 1) : RS)).

Lemma ham1_bracket f g : (f < 2)%N -> (g < 2)%N -> bracket RS orbs1 ham1 g f = if ((f =? g) && (f =? 1))%N then -3 else 0.
Proof.
  intros Hf Hg. assert (F : f = 0%N \/ f = 1%N) by lia. assert (G : g = 0%N \/ g = 1%N) by lia.
  destruct F as [-> | ->], G as [-> | ->]; cbv -[Rplus Rmult Ropp Rminus IZR Rdiv]; ring.
Qed.
Lemma sets1 B : B <> [] -> StronglySorted N.lt B -> (forall f, In f B -> (f < 2)%N) -> B = [0%N] \/ B = [1%N] \/ B = [0; 1]%N.
Proof.
  intros Hn Hs Hb. destruct B as [|x B]; [congruence|]. apply StronglySorted_inv in Hs. destruct Hs as [Hs Hx]. rewrite Forall_forall in Hx.
  pose proof (Hb x (or_introl eq_refl)) as Bx. destruct B as [|y B].
  - assert (Q : x = 0%N \/ x = 1%N) by lia. destruct Q as [-> | ->]; auto.
  - apply StronglySorted_inv in Hs. destruct Hs as [_ Hy]. rewrite Forall_forall in Hy. pose proof (Hx y (or_introl eq_refl)) as Hxy. pose proof (Hb y (or_intror (or_introl eq_refl))) as By.
    destruct B as [|z B]; [right; right; f_equal; [lia|f_equal; lia]|]. pose proof (Hy z (or_introl eq_refl)). pose proof (Hb z (or_intror (or_intror (or_introl eq_refl)))). lia.
Qed.
Lemma solves1 : solves RS RE1 orbs1 ham1 eigen1.
Proof.
  intros B m Hn Hs Hb Hc Hr Hcl Hm. change (2 ^ N.of_nat (length orbs1))%N with 2%N in Hb.
  assert (Hm' : forall j i fj fi, nth_error B j = Some fj -> nth_error B i = Some fi -> m_at m j i = if ((fi =? fj) && (fi =? 1))%N then -3 else 0).
  { intros j i fj fi Hj Hi. rewrite (Hm j i fj fi Hj Hi). apply ham1_bracket; apply Hb; eapply nth_error_In; eassumption. }
  destruct (sets1 B Hn Hs Hb) as [-> | [-> | ->]]; unfold eigen1; rewrite Hr; cbn [length Nat.eqb fst snd].
  1, 2: split; [reflexivity|]; split; [reflexivity|]; split; [reflexivity|]; split; [|split].
  1, 4: intros i j Hi Hj; replace i with 0%nat by lia; replace j with 0%nat by lia; cbv -[Rplus Rmult IZR]; split; rr.
  1, 3: intros x y p q Hxy Hp Hq; destruct x as [|x], y as [|y]; try lia; cbn in Hq; destruct y; discriminate Hq.
  1, 2: intros j i Hj Hi; replace i with 0%nat by lia; replace j with 0%nat by lia; unfold msum, energy; cbn; (assert (Q : forall z : R, z = 1 * (z + 0) * 1 + 0) by (intros; ring)); exact (Q _).
  split; [reflexivity|]. split; [reflexivity|]. split; [reflexivity|]. split; [|split].
  - intros i j Hi Hj. assert (I : i = 0%nat \/ i = 1%nat) by lia. assert (J : j = 0%nat \/ j = 1%nat) by lia.
    destruct I as [-> | ->], J as [-> | ->]; unfold msum, delta; cbn; split; rr.
  - intros x y p q Hxy Hp Hq. assert (x = 0%nat /\ y = 1%nat) as [-> ->]
      by (assert ((x < 2)%nat /\ (y < 2)%nat) by (split; [apply (proj1 (nth_error_Some [(-3 : RE1); (0 : RE1)] x))|apply (proj1 (nth_error_Some [(-3 : RE1); (0 : RE1)] y))]; congruence); lia).
    cbn in Hp, Hq. injection Hp as <-. injection Hq as <-. cbn. destruct (Rlt_dec 0 (-3)); [lra|reflexivity].
  - intros j i Hj Hi. assert (I : i = 0%nat \/ i = 1%nat) by lia. assert (J : j = 0%nat \/ j = 1%nat) by lia.
    destruct I as [-> | ->], J as [-> | ->]; erewrite Hm' by reflexivity; unfold msum, energy; cbn; rr.
Qed.
Lemma ham1_uses i : uses ham1 i -> In i orbs1.
Proof. intros H. left. exact H. Qed.
