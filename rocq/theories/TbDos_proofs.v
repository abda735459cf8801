From Coq Require Import ZArith Reals List Bool Lia Lra.
From Coquelicot Require Import Complex.
From Verif Require Import Base TightBinding TightBinding_proofs TbDos TbDosSpec.
Import ListNotations.
Local Open Scope R_scope.

(** ---- sums ---- *)
Lemma rsum_app {A} (f : A -> R) l l' : rsum f (l ++ l') = rsum f l + rsum f l'.
Proof. induction l as [|x l IH]; cbn [rsum app]; [ring|]. rewrite IH. ring. Qed.
Lemma rsum_ext {A} (f g : A -> R) l : (forall x, In x l -> f x = g x) -> rsum f l = rsum g l.
Proof. induction l as [|x l IH]; intros H; cbn [rsum]; [reflexivity|]. rewrite (H x (or_introl eq_refl)), IH; [reflexivity|]. intros y Hy. apply H. right. exact Hy. Qed.
Lemma rsum_map {A B} (f : B -> R) (g : A -> B) l : rsum f (map g l) = rsum (fun x => f (g x)) l.
Proof. induction l as [|x l IH]; cbn; [reflexivity|]. rewrite IH. reflexivity. Qed.
Lemma rsum_flat_map {A B} (f : B -> R) (g : A -> list B) l : rsum f (flat_map g l) = rsum (fun x => rsum f (g x)) l.
Proof. induction l as [|x l IH]; cbn [flat_map rsum]; [reflexivity|]. rewrite rsum_app, IH. reflexivity. Qed.
Lemma rsum_plus {A} (f g : A -> R) l : rsum (fun x => f x + g x) l = rsum f l + rsum g l.
Proof. induction l as [|x l IH]; cbn [rsum]; [ring|]. rewrite IH. ring. Qed.
Lemma rsum_scal {A} c (f : A -> R) l : rsum (fun x => c * f x) l = c * rsum f l.
Proof. induction l as [|x l IH]; cbn [rsum]; [ring|]. rewrite IH. ring. Qed.
Lemma rsum_const {A} c (l : list A) : rsum (fun _ => c) l = INR (length l) * c.
Proof. induction l as [|x l IH]; [cbn; ring|]. cbn [rsum]. change (length (x :: l)) with (S (length l)). rewrite S_INR, IH. ring. Qed.
Lemma rsum_swap {A B} (f : A -> B -> R) l l' : rsum (fun x => rsum (f x) l') l = rsum (fun y => rsum (fun x => f x y) l) l'.
Proof. induction l as [|x l IH]; cbn [rsum]; [rewrite rsum_const; ring|]. rewrite IH, <- rsum_plus. reflexivity. Qed.
Lemma rsum_nonneg {A} (f : A -> R) l : (forall x, In x l -> 0 <= f x) -> 0 <= rsum f l.
Proof. induction l as [|x l IH]; intros H; cbn [rsum]; [lra|]. assert (H1 := H x (or_introl eq_refl)). assert (H2 := IH (fun y Hy => H y (or_intror Hy))). lra. Qed.
Lemma in_upto n a : In a (upto n) <-> (0 <= a < n)%Z.
Proof.
  unfold upto. rewrite in_map_iff. split.
  - intros (k & <- & Hk). apply in_seq in Hk. lia.
  - intros H. exists (Z.to_nat a). split; [lia|]. apply in_seq. lia.
Qed.
Lemma upto_one n b (x : R) : (0 <= b < n)%Z -> rsum (fun a => if Z.eqb a b then x else 0) (upto n) = x.
Proof.
  intros H. unfold upto. rewrite rsum_map. assert (G : forall s c, rsum (fun k => if Z.eqb (Z.of_nat k) b then x else 0) (seq s c) = if ((Z.of_nat s <=? b) && (b <? Z.of_nat (s + c)))%Z then x else 0).
  { intros s c; revert s; induction c as [|c IH]; intros s; cbn [seq rsum].
    - destruct (Z.leb_spec (Z.of_nat s) b), (Z.ltb_spec b (Z.of_nat (s + 0))); cbn [andb]; try reflexivity. lia.
    - rewrite IH. destruct (Z.eqb_spec (Z.of_nat s) b), (Z.leb_spec (Z.of_nat s) b), (Z.ltb_spec b (Z.of_nat (s + S c))), (Z.leb_spec (Z.of_nat (S s)) b), (Z.ltb_spec b (Z.of_nat (S s + c))); cbn [andb]; try lia; ring. }
  rewrite G. destruct (Z.leb_spec (Z.of_nat 0) b), (Z.ltb_spec b (Z.of_nat (0 + Z.to_nat n))); cbn [andb]; [reflexivity| | |]; lia.
Qed.

(** ---- extrema ---- *)
Lemma max_list_ge x l : x <= max_list x l /\ forall y, In y l -> y <= max_list x l.
Proof.
  unfold max_list. revert x; induction l as [|z l IH]; intros x; cbn [fold_left]; [split; [lra|intros y []]|]. destruct (IH (Rmax x z)) as [A B]. split; [eapply Rle_trans; [apply Rmax_l|exact A]|].
  intros y [<-|Hy]; [eapply Rle_trans; [apply Rmax_r|exact A]|apply B, Hy].
Qed.
Lemma min_list_le x l : min_list x l <= x /\ forall y, In y l -> min_list x l <= y.
Proof.
  unfold min_list. revert x; induction l as [|z l IH]; intros x; cbn [fold_left]; [split; [lra|intros y []]|]. destruct (IH (Rmin x z)) as [A B]. split; [eapply Rle_trans; [exact A|apply Rmin_l]|].
  intros y [<-|Hy]; [eapply Rle_trans; [exact A|apply Rmin_r]|apply B, Hy].
Qed.
Lemma max_list_in x l : In (max_list x l) (x :: l).
Proof.
  unfold max_list. revert x; induction l as [|z l IH]; intros x; cbn [fold_left]; [left; reflexivity|]. destruct (IH (Rmax x z)) as [E|E]; [|right; right; exact E].
  rewrite <- E. unfold Rmax. destruct (Rle_dec x z); [right; left; reflexivity|left; reflexivity].
Qed.
Lemma min_list_in x l : In (min_list x l) (x :: l).
Proof.
  unfold min_list. revert x; induction l as [|z l IH]; intros x; cbn [fold_left]; [left; reflexivity|]. destruct (IH (Rmin x z)) as [E|E]; [|right; right; exact E].
  rewrite <- E. unfold Rmin. destruct (Rle_dec x z); [left; reflexivity|right; left; reflexivity].
Qed.

(** ---- bins ---- *)
Lemma Int_part_spec x : IZR (Int_part x) <= x < IZR (Int_part x) + 1.
Proof. destruct (base_Int_part x) as [H1 H2]. lra. Qed.
Lemma bin_ok n lo hi e : (0 < n)%Z -> lo < hi -> lo <= e <= hi -> exists a, bin n lo ((hi - lo) / IZR n) e = Ok a /\ in_bin lo hi n a e.
Proof.
  intros Hn Hd He. unfold bin, in_bin. set (d := (hi - lo) / IZR n). assert (Hn' : 0 < IZR n) by (apply IZR_lt; exact Hn).
  assert (Hp : 0 < d) by (unfold d; apply Rdiv_lt_0_compat; lra). assert (Ed : IZR n * d = hi - lo) by (unfold d; field; lra).
  destruct (Req_EM_T d 0) as [Z|_]; [lra|]. set (q := (e - lo) / d). assert (Eq : q * d = e - lo) by (unfold q; field; lra).
  assert (Q0 : 0 <= q) by (unfold q; apply Rmult_le_pos; [lra|left; apply Rinv_0_lt_compat; exact Hp]).
  unfold trunc. destruct (Rlt_dec q 0) as [X|_]; [lra|]. destruct (Int_part_spec q) as [I1 I2]. set (a := Int_part q) in *.
  assert (A0 : (0 <= a)%Z). { apply le_IZR. assert (IZR (-1) < IZR a) by lra. apply lt_IZR in H. apply IZR_le. lia. }
  assert (Qn : q <= IZR n) by (apply Rmult_le_reg_r with d; [exact Hp|rewrite Eq, Ed; lra]).
  assert (An : (a <= n)%Z) by (apply le_IZR; lra). destruct (Z.eqb_spec a n) as [En|En].
  - destruct (Z.ltb_spec (a - 1) 0), (Z.leb_spec n (a - 1)); cbn [orb]; try lia. exists (a - 1)%Z. split; [reflexivity|].
    assert (q = IZR n) by (rewrite En in I1; lra). assert (e = hi) by nra. split; [lia|]. split; [rewrite minus_IZR, En; nra|]. right. split; [lia|assumption].
  - destruct (Z.ltb_spec a 0), (Z.leb_spec n a); cbn [orb]; try lia. exists a. split; [reflexivity|]. split; [lia|]. split; [nra|]. left. nra.
Qed.
Lemma in_bin_unique lo hi n a b e : lo < hi -> (0 < n)%Z -> in_bin lo hi n a e -> in_bin lo hi n b e -> a = b.
Proof.
  intros Hd Hn (A0 & A1 & A2) (B0 & B1 & B2). set (d := (hi - lo) / IZR n) in *. assert (Hn' : 0 < IZR n) by (apply IZR_lt; exact Hn).
  assert (Hp : 0 < d) by (unfold d; apply Rdiv_lt_0_compat; lra). assert (Ed : IZR n * d = hi - lo) by (unfold d; field; lra).
  assert (L : forall x y, lo + IZR x * d < lo + (IZR y + 1) * d -> (x <= y)%Z).
  { intros x y H. assert (IZR x < IZR (y + 1)) by (rewrite plus_IZR; nra). apply lt_IZR in H0. lia. }
  destruct A2 as [A2|[A2 A3]], B2 as [B2|[B2 B3]].
  - assert (a <= b)%Z by (apply L; lra). assert (b <= a)%Z by (apply L; lra). lia.
  - assert (b <= a)%Z by (apply L; lra). lia.
  - assert (a <= b)%Z by (apply L; lra). lia.
  - lia.
Qed.
Lemma fill_ok n lo hi sts rho : (0 < n)%Z -> lo < hi -> (forall s, In s sts -> lo <= fst s <= hi) ->
  exists rho', fill n lo ((hi - lo) / IZR n) sts rho = Ok rho' /\
    forall bn, (forall s, In s sts -> in_bin lo hi n (bn (fst s)) (fst s)) -> forall a k, rho' a k = rho a k + rsum (fun s => if Z.eqb a (bn (fst s)) then snd s k else 0) sts.
Proof.
  intros Hn Hd. revert rho. induction sts as [|[e w] sts IH]; intros rho H; cbn [fill].
  - exists rho. split; [reflexivity|]. intros bn _ a k. cbn. ring.
  - destruct (bin_ok n lo hi e Hn Hd (H (e, w) (or_introl eq_refl))) as (a & Ea & Ha). rewrite Ea. cbn [bind].
    destruct (IH (add_at rho a w)) as (rho' & E & V); [intros s Hs; apply H; right; exact Hs|]. exists rho'. split; [exact E|]. intros bn Hb b k. rewrite (V bn) by (intros s Hs; apply Hb; right; exact Hs).
    cbn [rsum fst snd]. assert (bn e = a) by (apply (in_bin_unique lo hi n _ _ e Hd Hn); [exact (Hb (e, w) (or_introl eq_refl))|exact Ha]). rewrite H0. unfold add_at. destruct (Z.eqb b a); ring.
Qed.
Lemma fill_flat n lo s sts rho : fill n lo 0 (s :: sts) rho = UB.
Proof. destruct s as [e w]. cbn [fill]. unfold bin. destruct (Req_EM_T 0 0); [reflexivity|congruence]. Qed.
(** the assignment of energies to bins *)
Lemma bins_exist lo hi n : (0 < n)%Z -> lo < hi -> exists bn : R -> Z, forall e, lo <= e <= hi -> in_bin lo hi n (bn e) e.
Proof.
  intros Hn Hd. exists (fun e => match bin n lo ((hi - lo) / IZR n) e with Ok a => a | _ => 0%Z end). intros e He. destruct (bin_ok n lo hi e Hn Hd He) as (a & -> & Ha). exact Ha.
Qed.
Lemma bins_total lo hi n bn sts k : (forall s : R * (nat -> R), In s sts -> in_bin lo hi n (bn (fst s)) (fst s)) ->
  rsum (fun a => rsum (fun s => if Z.eqb a (bn (fst s)) then snd s k else 0) sts) (upto n) = rsum (fun s => snd s k) sts.
Proof. intros H. rewrite rsum_swap. apply rsum_ext. intros s Hs. apply upto_one. apply (H s Hs). Qed.

(** ---- bands ---- *)
Lemma bands_nth eig t ks bs : bands eig t ks = Ok bs -> length bs = length ks /\
  forall n k, nth_error ks n = Some k -> exists h b, fourier t k = Ok h /\ nth_error bs n = Some b /\ b = if Nat.eqb (tb_norb t) 1 then (fun _ => fst (h 0%nat 0%nat), fun _ _ => RtoC 1) else eig h.
Proof.
  revert bs; induction ks as [|k ks IH]; intros bs; cbn [bands].
  - intros E. injection E as <-. split; [reflexivity|]. intros [|n] k E; discriminate E.
  - destruct (fourier t k) as [h| |] eqn:Ef; cbn [bind]; try discriminate. destruct (bands eig t ks) as [bs'| |]; cbn [bind]; try discriminate. intros E. injection E as <-.
    destruct (IH _ eq_refl) as [HL HN]. split; [cbn; lia|]. intros [|n] k' E; cbn [nth_error] in *; [injection E as <-; eauto|apply HN, E].
Qed.
Lemma sqmod_Cmod z : sqmod z = Cmod z ^ 2.
Proof. unfold sqmod, Cmod, Cconj, Cmult. cbn [fst snd]. rewrite pow2_sqrt; [ring|]. pose proof (pow2_ge_0 (fst z)). pose proof (pow2_ge_0 (snd z)). lra. Qed.
Lemma in_states norb bs s : In s (states norb bs) <-> exists l b, (l < norb)%nat /\ In b bs /\ s = (fst b l, fun k => sqmod (snd b k l)).
Proof.
  unfold states. rewrite in_flat_map. split.
  - intros (l & Hl & Hs). apply in_map_iff in Hs. destruct Hs as (b & <- & Hb). apply in_seq in Hl. exists l, b. split; [lia|]. split; [exact Hb|reflexivity].
  - intros (l & b & Hl & Hb & ->). exists l. split; [apply in_seq; lia|]. apply in_map_iff. exists b. split; [reflexivity|exact Hb].
Qed.
Lemma rsum_states (f : R * (nat -> R) -> R) norb (bs : list ((nat -> R) * (nat -> nat -> C))) :
  rsum f (states norb bs) = rsum (fun l => rsum (fun b => f (fst b l, fun k => sqmod (snd b k l))) bs) (seq 0 norb).
Proof. unfold states. rewrite rsum_flat_map. apply rsum_ext. intros l _. rewrite rsum_map. reflexivity. Qed.

(** ---- triangles ---- *)
Lemma patch_row_length (m : nat) (f : nat -> nat -> list pt) : (forall j k, length (f j k) = if (Nat.eqb k 0 || Nat.ltb (S j) m)%bool then 1%nat else 0%nat) ->
  (1 <= m)%nat -> length (flat_map (fun j => flat_map (f j) [0%nat; 1%nat]) (seq 0 m)) = (2 * m - 1)%nat.
Proof.
  intros Hf Hm. assert (G : forall c s, (s + c = m)%nat -> (1 <= c)%nat -> length (flat_map (fun j => flat_map (f j) [0%nat; 1%nat]) (seq s c)) = (2 * c - 1)%nat).
  { induction c as [|c IH]; intros s Hs Hc; [lia|]. cbn [seq flat_map]. rewrite !app_length, !Hf. cbn [Nat.eqb orb length]. destruct c as [|c].
    - replace (Nat.ltb (S s) m) with false by (symmetry; apply Nat.ltb_ge; lia). cbn. lia.
    - replace (Nat.ltb (S s) m) with true by (symmetry; apply Nat.ltb_lt; lia). rewrite IH by lia. cbn. lia. }
  apply G; lia.
Qed.
Lemma patch_count ndiv a b c : length (patch_points ndiv a b c) = (ndiv * ndiv)%nat.
Proof.
  unfold patch_points. cbv zeta.
  assert (G : forall n s (F : nat -> list pt), (forall i, (s <= i < s + n)%nat -> length (F i) = (2 * (s + n - i) - 1)%nat) -> length (flat_map F (seq s n)) = (n * n)%nat).
  { induction n as [|n IH]; intros s F HF; [reflexivity|]. cbn [seq flat_map]. rewrite app_length, HF by lia. rewrite (IH (S s)).
    - nia.
    - intros i Hi. rewrite HF by lia. f_equal. f_equal. lia. }
  apply G. intros i Hi. rewrite patch_row_length; [lia| |lia]. intros j k. destruct (_ || _)%bool; reflexivity.
Qed.
Lemma patch_in ndiv a b c p : In p (patch_points ndiv a b c) -> in_triangle a b c p.
Proof.
  unfold patch_points. cbv zeta. rewrite in_flat_map. intros (i & Hi & H). apply in_flat_map in H. destruct H as (j & Hj & H). apply in_flat_map in H. destruct H as (k & Hk & H).
  apply in_seq in Hi, Hj. destruct (_ || _)%bool eqn:Ek; [|destruct H]. destruct H as [<-|[]].
  assert (Hn : 1 <= INR ndiv) by (replace 1 with (INR 1) by reflexivity; apply le_INR; lia). set (n := INR ndiv) in *.
  assert (B : INR i + INR j + (INR k + 1) * 2 / 3 <= n).
  { destruct Hk as [<-|[<-|[]]].
    - assert (INR (i + j + 1) <= n) by (apply le_INR; lia). rewrite !plus_INR in H. cbn [INR] in *. lra.
    - cbn [Nat.eqb orb] in Ek. apply Nat.ltb_lt in Ek. assert (INR (i + j + 2) <= n) by (apply le_INR; lia). rewrite !plus_INR in H. cbn [INR] in *. lra. }
  assert (Pi : 0 <= INR i) by apply pos_INR. assert (Pj : 0 <= INR j) by apply pos_INR. assert (Pk : 0 <= INR k) by apply pos_INR.
  exists (1 - (INR i + INR j + (INR k + 1) * 2 / 3) / n), ((INR i + (INR k + 1) / 3) / n), ((INR j + (INR k + 1) / 3) / n).
  assert (In : 0 < / n) by (apply Rinv_0_lt_compat; lra).
  split; [|split; [|split; [|split]]].
  - assert ((INR i + INR j + (INR k + 1) * 2 / 3) / n <= 1); [|lra]. apply Rmult_le_reg_r with n; [lra|]. unfold Rdiv at 1. rewrite Rmult_assoc, Rinv_l by lra. lra.
  - apply Rmult_le_pos; lra.
  - apply Rmult_le_pos; lra.
  - field. lra.
  - destruct a as [a1 a2], b as [b1 b2], c as [c1 c2]. unfold padd, pmul, psub. cbn [fst snd]. f_equal; field; lra.
Qed.
Lemma patch_states_count energy ndiv tris : length (patch_states energy ndiv tris) = (length tris * ndiv * ndiv)%nat.
Proof. unfold patch_states. induction tris as [|[[a b] c] tris IH]; [reflexivity|]. cbn [flat_map]. rewrite app_length, map_length, patch_count, IH. cbn [length]. lia. Qed.
Lemma patch_weight energy ndiv tris k : (1 <= ndiv)%nat -> rsum (fun s => snd s k) (patch_states energy ndiv tris) = rsum triangle_area tris.
Proof.
  intros Hn. unfold patch_states. rewrite rsum_flat_map. apply rsum_ext. intros [[a b] c] _. rewrite rsum_map. cbn [snd]. rewrite rsum_const, patch_count, mult_INR.
  assert (Hp : 1 <= INR ndiv) by (replace 1 with (INR 1) by reflexivity; apply le_INR; lia). set (n := INR ndiv) in *. unfold patch_area, triangle_area. fold n.
  set (D := (fst b - fst a) * (snd c - snd a) - (snd b - snd a) * (fst c - fst a)). unfold Rdiv. rewrite !Rabs_mult, !Rabs_inv, (Rabs_right (n * n)) by nra. rewrite !Rabs_right by lra. field. lra.
Qed.
Lemma area_share ndiv a b c : (1 <= ndiv)%nat -> patch_area ndiv a b c = triangle_area (a, b, c) / (INR ndiv * INR ndiv).
Proof.
  intros Hn. assert (Hp : 1 <= INR ndiv) by (replace 1 with (INR 1) by reflexivity; apply le_INR; lia). set (n := INR ndiv) in *. unfold patch_area, triangle_area. fold n.
  set (D := (fst b - fst a) * (snd c - snd a) - (snd b - snd a) * (fst c - fst a)). unfold Rdiv. rewrite !Rabs_mult, !Rabs_inv, (Rabs_right (n * n)) by nra. rewrite !Rabs_right by lra. field. lra.
Qed.
