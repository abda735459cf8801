From Coq Require Import Reals List Bool Arith Lia Lra.
From Coquelicot Require Import Complex.
From Verif Require Import Base GfText.
Import ListNotations.
Local Open Scope nat_scope.

Lemma pairs_in n1 n2 i j : In (i, j) (pairs n1 n2) <-> i < n1 /\ j < n2.
Proof.
  unfold pairs. rewrite in_flat_map. split.
  - intros (i' & Hi & H). apply in_map_iff in H. destruct H as (j' & E & Hj). injection E as <- <-. apply in_seq in Hi, Hj. lia.
  - intros [Hi Hj]. exists i. split; [apply in_seq; lia|]. apply in_map_iff. exists j. split; [reflexivity|apply in_seq; lia].
Qed.
Lemma puts name (rows : nat -> nat -> list txt_row) ps : forall d, let d' := fold_left (fun d p => put d (name, fst p, snd p) (rows (fst p) (snd p))) ps d in
  (forall i j, In (i, j) ps -> d' (name, i, j) = Some (rows i j)) /\ (forall k, (forall i j, In (i, j) ps -> k <> (name, i, j)) -> d' k = d k).
Proof.
  induction ps as [|[i0 j0] ps IH]; intros d; cbn zeta; cbn [fold_left fst snd]; [split; [intros i j []|reflexivity]|]. destruct (IH (put d (name, i0, j0) (rows i0 j0))) as [H1 H2]. split.
  - intros i j [E|H]; [|apply H1, H]. injection E as <- <-. destruct (in_dec (fun a b : nat * nat => ltac:(repeat decide equality) : {a = b} + {a <> b}) (i0, j0) ps) as [I|I]; [apply H1, I|].
    rewrite H2; [unfold put; destruct (key_dec _ _) as [_|X]; [reflexivity|contradiction X; reflexivity]|]. intros i j Hij E. injection E as <- <-. contradiction.
  - intros k Hk. rewrite H2 by (intros i j Hij; apply Hk; right; exact Hij). unfold put. destruct (key_dec k (name, i0, j0)) as [E|_]; [exfalso; apply (Hk i0 j0); [left; reflexivity|exact E]|reflexivity].
Qed.
Lemma rows_x x g i j : map t_x (file_rows x g i j) = x.
Proof.
  unfold file_rows. rewrite map_map. cbn [t_x]. generalize 0. induction x as [|a x IH]; intros s; [reflexivity|]. cbn [length seq combine map snd]. rewrite IH. reflexivity.
Qed.
Lemma rows_length x g i j : length (file_rows x g i j) = length x.
Proof. rewrite <- (map_length t_x), rows_x. reflexivity. Qed.
Lemma rows_nth x g i j w dft : w < length x -> nth w (file_rows x g i j) dft = mkTxt (nth w x 0%R) (fst (g_at g w i j)) (snd (g_at g w i j)).
Proof.
  intros H. unfold file_rows. set (f := fun p : nat * R => mkTxt (snd p) (fst (g_at g (fst p) i j)) (snd (g_at g (fst p) i j))). rewrite (nth_indep _ dft (f (0, 0%R))) by (rewrite map_length, combine_length, seq_length; lia).
  rewrite map_nth, combine_nth by apply seq_length. rewrite seq_nth by exact H. reflexivity.
Qed.
Lemma read_fold d files n1 n (ok : nat -> nat -> list txt_row) ps : forall f,
  (forall i j, In (i, j) ps -> load d (file_at files i j) = Ok (ok i j) /\ j < n1 /\ length (ok i j) = n) ->
  exists f', fold_left (read_step d files n1 n) ps (Ok f) = Ok f' /\
    forall w i j, In (i, j) ps -> f' w i j = (t_re (nth w (ok i j) (mkTxt 0 0 0)), t_im (nth w (ok i j) (mkTxt 0 0 0))) .
Proof.
  assert (G : forall f, (forall i j, In (i, j) ps -> load d (file_at files i j) = Ok (ok i j) /\ j < n1 /\ length (ok i j) = n) ->
    exists f', fold_left (read_step d files n1 n) ps (Ok f) = Ok f' /\ (forall w i j, In (i, j) ps -> f' w i j = (t_re (nth w (ok i j) (mkTxt 0 0 0)), t_im (nth w (ok i j) (mkTxt 0 0 0)))) /\ (forall w i j, ~ In (i, j) ps -> f' w i j = f w i j)).
  { induction ps as [|[i0 j0] ps IH]; intros f H; cbn [fold_left]; [exists f; split; [reflexivity|split; [intros w i j []|reflexivity]]|].
    destruct (H i0 j0 (or_introl eq_refl)) as (L & J & N). unfold read_step at 2. cbn [bind fst snd]. rewrite L. cbn [bind]. rewrite N, Nat.eqb_refl. destruct (Nat.leb_spec n1 j0); [lia|]. cbn [orb negb].
    match goal with |- context [fold_left _ ps (Ok ?g)] => destruct (IH g) as (f' & E & V & W) end; [intros i j Hij; apply H; right; exact Hij|]. exists f'. split; [exact E|]. split.
    - intros w i j [X|X]; [|apply V, X]. injection X as <- <-. destruct (in_dec (fun a b : nat * nat => ltac:(repeat decide equality) : {a = b} + {a <> b}) (i0, j0) ps) as [I|I]; [apply V, I|]. rewrite W by exact I. rewrite !Nat.eqb_refl. reflexivity.
    - intros w i j X. rewrite W by (intros Y; apply X; right; exact Y). destruct (Nat.eqb_spec i i0) as [->|_], (Nat.eqb_spec j j0) as [->|_]; cbn [andb]; try reflexivity. exfalso. apply X. left. reflexivity. }
  intros f H. destruct (G f H) as (f' & E & V & _). exists f'. split; assumption.
Qed.
Lemma fold_throw d files n1 n ps f : fold_left (read_step d files n1 n) ps Throw <> Ok f.
Proof. induction ps as [|p ps IH]; cbn [fold_left]; [discriminate|exact IH]. Qed.
Lemma fold_ub d files n1 n ps f : fold_left (read_step d files n1 n) ps UB <> Ok f.
Proof. induction ps as [|p ps IH]; cbn [fold_left]; [discriminate|exact IH]. Qed.
Lemma fold_bound d files n1 n ps : forall g f, fold_left (read_step d files n1 n) ps (Ok g) = Ok f -> forall i j, In (i, j) ps -> j < n1.
Proof.
  induction ps as [|[i0 j0] ps IH]; intros g f E i j X; [destruct X|]. destruct X as [X|X]; cbn [fold_left] in E; unfold read_step at 2 in E; cbn [bind fst snd] in E; (destruct (load d (file_at files i0 j0)) as [r| |]; cbn [bind] in E; [|exfalso; exact (fold_throw _ _ _ _ _ _ E)|exfalso; exact (fold_ub _ _ _ _ _ _ E)]);
    (destruct (Nat.leb_spec n1 j0) as [L|L]; cbn [orb] in E; [exfalso; exact (fold_throw _ _ _ _ _ _ E)|]); (destruct (negb (length r =? n)); [exfalso; exact (fold_throw _ _ _ _ _ _ E)|]).
  - injection X as <- <-. exact L.
  - exact (IH _ _ E i j X).
Qed.
Lemma fold_min l x m : In m (x :: l) -> (forall y, In y (x :: l) -> (m <= y)%R) -> fold_left Rmin l x = m.
Proof.
  revert x. induction l as [|y l IH]; intros x I H; cbn [fold_left].
  - destruct I as [E|[]]; [exact E]. 
  - apply IH.
    + destruct I as [E|[E|E]]; [left; rewrite E; apply Rmin_left, H; right; left; reflexivity|left; rewrite E; apply Rmin_right, H; left; reflexivity|right; exact E].
    + intros z [E|E]; [rewrite <- E; apply Rmin_glb; apply H; [left; reflexivity|right; left; reflexivity]|apply H; right; right; exact E].
Qed.
Lemma fold_max l x m : In m (x :: l) -> (forall y, In y (x :: l) -> (y <= m)%R) -> fold_left Rmax l x = m.
Proof.
  revert x. induction l as [|y l IH]; intros x I H; cbn [fold_left].
  - destruct I as [E|[]]; [exact E].
  - apply IH.
    + destruct I as [E|[E|E]]; [left; rewrite E; apply Rmax_left, H; right; left; reflexivity|left; rewrite E; apply Rmax_right, H; left; reflexivity|right; exact E].
    + intros z [E|E]; [rewrite <- E; apply Rmax_lub; apply H; [left; reflexivity|right; left; reflexivity]|apply H; right; right; exact E].
Qed.
Lemma re_range a b n : (a <= b)%R -> 2 <= n -> let x := re_values a b n in fold_left Rmin (tl x) (hd 0%R x) = a /\ fold_left Rmax (tl x) (hd 0%R x) = b.
Proof.
  intros H Hn x. assert (P : (0 < INR (n - 1))%R) by (apply lt_0_INR; lia).
  assert (B : forall y, In y x -> (a <= y <= b)%R).
  { intros y Hy. apply in_map_iff in Hy. destruct Hy as (k & <- & Hk). apply in_seq in Hk. pose proof (pos_INR k). assert (INR k <= INR (n - 1))%R by (apply le_INR; lia).
    assert (Q : (0 <= INR k / INR (n - 1) <= 1)%R). { split; [apply Rmult_le_pos; [assumption|apply Rlt_le, Rinv_0_lt_compat, P]|]. apply (Rmult_le_reg_r (INR (n - 1))); [exact P|]. unfold Rdiv. rewrite Rmult_assoc, Rinv_l, Rmult_1_r by lra. lra. }
    replace (INR k * ((b - a) / INR (n - 1)))%R with (INR k / INR (n - 1) * (b - a))%R by (field; lra). nra. }
  assert (A1 : In a x). { apply in_map_iff. exists 0. split; [cbn [INR]; ring|apply in_seq; lia]. }
  assert (B1 : In b x). { apply in_map_iff. exists (n - 1). split; [field; lra|apply in_seq; lia]. }
  destruct x as [|x0 l]; [destruct A1|]. cbn [tl hd]. split; [apply fold_min|apply fold_max]; try assumption; intros y Hy; apply (B y Hy).
Qed.
