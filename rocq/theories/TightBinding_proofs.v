From Coq Require Import ZArith Reals List Bool Lia Lra Permutation.
From Coquelicot Require Import Complex.
From Verif Require Import Base Mesh Lattice Lattice_proofs TightBinding TightBindingSpec.
Import ListNotations.
Local Open Scope nat_scope.

(** ---- sums ---- *)
Lemma csum_app {A} (f : A -> C) l l' : csum f (l ++ l') = (csum f l + csum f l')%C.
Proof. induction l as [|x l IH]; cbn [csum app]; [ring|]. rewrite IH. ring. Qed.
Lemma csum_ext {A} (f g : A -> C) l : (forall x, In x l -> f x = g x) -> csum f l = csum g l.
Proof. induction l as [|x l IH]; intros H; cbn [csum]; [reflexivity|]. rewrite (H x (or_introl eq_refl)), IH; [reflexivity|]. intros y Hy. apply H. right. exact Hy. Qed.
Lemma csum_map {A B} (f : B -> C) (g : A -> B) l : csum f (map g l) = csum (fun x => f (g x)) l.
Proof. induction l as [|x l IH]; cbn; [reflexivity|]. rewrite IH. reflexivity. Qed.
Lemma csum_perm {A} (f : A -> C) l l' : Permutation l l' -> csum f l = csum f l'.
Proof. induction 1; cbn [csum]; [reflexivity| rewrite IHPermutation; reflexivity | ring | congruence]. Qed.
Lemma csum_conj {A} (f : A -> C) l : Cconj (csum f l) = csum (fun x => Cconj (f x)) l.
Proof.
  induction l as [|x l IH]; cbn [csum]; [unfold Cconj, RtoC; cbn; f_equal; ring|]. rewrite <- IH. unfold Cconj, Cplus. cbn [fst snd]. f_equal. ring.
Qed.
Lemma csum_sub {A} (f g : A -> C) l : (csum f l - csum g l)%C = csum (fun x => (f x - g x)%C) l.
Proof. induction l as [|x l IH]; cbn [csum]; [ring|]. rewrite <- IH. ring. Qed.
Lemma csum_bound {A} (f : A -> C) l (b : R) : (forall x, In x l -> (Cmod (f x) <= b)%R) -> (Cmod (csum f l) <= INR (length l) * b)%R.
Proof.
  induction l as [|x l IH]; intros H.
  - cbn. rewrite Cmod_0. lra.
  - cbn [csum length]. rewrite S_INR. eapply Rle_trans; [apply Cmod_triangle|]. assert (H1 := H x (or_introl eq_refl)). assert (H2 := IH (fun y Hy => H y (or_intror Hy))). lra.
Qed.

(** ---- phases ---- *)
Lemma conj_mult (a b : C) : Cconj (a * b)%C = (Cconj a * Cconj b)%C.
Proof. unfold Cconj, Cmult. cbn [fst snd]. f_equal; ring. Qed.
Lemma cexp_phase x : cexp x = phase (2 * PI * x). Proof. reflexivity. Qed.
Lemma phase_mod x : Cmod (phase x) = 1%R.
Proof. unfold Cmod, phase. cbn [fst snd]. replace (cos x ^ 2 + sin x ^ 2)%R with 1%R; [apply sqrt_1|]. generalize (sin2_cos2 x). unfold Rsqr. intros H. cbn. lra. Qed.
Lemma phase_conj x : Cconj (phase x) = phase (- x).
Proof. unfold Cconj, phase. cbn [fst snd]. rewrite cos_neg, sin_neg. reflexivity. Qed.
Lemma phase_period x n : phase (x + 2 * PI * IZR n) = phase x.
Proof.
  unfold phase. replace (x + 2 * PI * IZR n)%R with (x + 2 * IZR n * PI)%R by ring.
  assert (P : forall (k : nat) y, cos (y + 2 * INR k * PI) = cos y /\ sin (y + 2 * INR k * PI) = sin y) by (intros k y; split; [apply cos_period|apply sin_period]).
  destruct n as [|p|p].
  - rewrite Rmult_0_r, Rmult_0_l, Rplus_0_r. reflexivity.
  - destruct (P (Pos.to_nat p) x) as [A B]. rewrite INR_IZR_INZ, positive_nat_Z in A, B. rewrite A, B. reflexivity.
  - destruct (P (Pos.to_nat p) (x + 2 * IZR (Z.neg p) * PI)%R) as [A B]. rewrite INR_IZR_INZ, positive_nat_Z in A, B. rewrite <- A, <- B.
    replace (x + 2 * IZR (Z.neg p) * PI + 2 * IZR (Z.pos p) * PI)%R with x; [reflexivity|]. change (Z.neg p) with (- Z.pos p)%Z. rewrite opp_IZR. ring.
Qed.
Lemma kdot_inner k d : kdot k d = inner k d.
Proof. revert d; induction k as [|x k IH]; intros [|n d]; cbn; try reflexivity; rewrite IH; reflexivity. Qed.
Lemma inner_opp k d : inner k (map Z.opp d) = (- inner k d)%R.
Proof. revert d; induction k as [|x k IH]; intros [|n d]; cbn [inner map]; try ring. rewrite IH, opp_IZR. ring. Qed.
Lemma inner_shift k G d : length G = length k -> exists n, inner (shift k G) d = (inner k d + IZR n)%R.
Proof.
  revert G d; induction k as [|x k IH]; intros [|g G] [|m d] H; try discriminate H; cbn; try (exists 0%Z; ring).
  injection H as H. destruct (IH G d H) as [n E]. unfold shift in E. exists (g * m + n)%Z. rewrite E, plus_IZR, mult_IZR. ring.
Qed.
Lemma firstn_len_inner n k d : length d = n -> inner (firstn n k) d = inner k d.
Proof. intros <-. revert k; induction d as [|m d IH]; intros [|x k]; cbn; try reflexivity. rewrite IH. reflexivity. Qed.

(** ---- the constructor ---- *)
Lemma deviates_false n a b : deviates n a b = false <-> conjugate_hops n a b.
Proof.
  unfold deviates, conjugate_hops, tolerance. split.
  - intros H i j Hi Hj. destruct (Rlt_dec (/ 1000000000000) (Cmod (h_el a i j - Cconj (h_el b j i))%C)) as [L|L]; [|lra]. exfalso.
    assert (E : existsb (fun i => existsb (fun j => if Rlt_dec (/ 1000000000000) (Cmod (h_el a i j - Cconj (h_el b j i))%C) then true else false) (seq 0 n)) (seq 0 n) = true); [|congruence].
    apply existsb_exists. exists i. split; [apply in_seq; lia|]. apply existsb_exists. exists j. split; [apply in_seq; lia|]. destruct (Rlt_dec _ _); [reflexivity|contradiction].
  - intros H. destruct (existsb _ _) eqn:E; [|reflexivity]. exfalso. apply existsb_exists in E. destruct E as (i & Hi & E). apply existsb_exists in E. destruct E as (j & Hj & E). apply in_seq in Hi, Hj.
    destruct (Rlt_dec _ _) as [L|L]; [|discriminate]. specialize (H i j ltac:(lia) ltac:(lia)). lra.
Qed.
Lemma map_opp_opp d : map Z.opp (map Z.opp d) = d.
Proof. rewrite map_map. rewrite <- (map_id d) at 2. apply map_ext. intros x. lia. Qed.
Lemma find_opposite_some R l m : find_opposite R l = Some m -> In (map Z.opp R, m) l.
Proof.
  induction l as [|[R' m'] l IH]; cbn; [discriminate|]. destruct (list_eq_dec _ _ _) as [->|N]; intros H; [injection H as <-; left; rewrite map_opp_opp; reflexivity|right; apply IH, H].
Qed.
Lemma find_opposite_none R l : find_opposite R l = None -> forall m, ~ In (map Z.opp R, m) l.
Proof.
  induction l as [|[R' m'] l IH]; cbn; intros H m; [tauto|]. destruct (list_eq_dec _ _ _) as [->|N]; [discriminate|]. intros [E|E]; [|exact (IH H m E)].
  injection E as E1 E2. apply N. rewrite E1, map_opp_opp. reflexivity.
Qed.
Lemma In_hopping displ mats R m : In (R, m) (combine displ mats) <-> hopping displ mats R m.
Proof.
  unfold hopping. revert mats. induction displ as [|d displ IH]; intros mats; [split; [intros []|intros ([|n] & E & _); discriminate]|]. destruct mats as [|x mats]; [split; [intros []|intros ([|n] & _ & E); discriminate]|].
  cbn [combine In]. rewrite IH. split.
  - intros [E|(n & E1 & E2)]; [injection E as -> ->; exists 0; split; reflexivity|exists (S n); split; assumption].
  - intros ([|n] & E1 & E2); cbn in E1, E2; [left; congruence|right; exists n; split; assumption].
Qed.
Lemma check_all_ok ndim norb l todo : check_all ndim norb l todo = Ok tt <-> forall x, In x todo -> check_hop ndim norb l x = Ok tt.
Proof.
  induction todo as [|x todo IH]; cbn [check_all]; [split; [intros _ x []|reflexivity]|]. split.
  - intros H y [<-|Hy]; destruct (check_hop ndim norb l x) as [[]| |] eqn:E; try discriminate H; [reflexivity|]. cbn [bind] in H. apply IH; assumption.
  - intros H. rewrite (H x (or_introl eq_refl)). cbn [bind]. apply IH. intros y Hy. apply H. right. exact Hy.
Qed.
Definition accepted (ndim norb : nat) (displ : list (list Z)) (mats : list hop) : Prop :=
  forall R m, hopping displ mats R m -> length R = ndim /\ h_rows m = norb /\ h_cols m = norb /\
    exists m', hopping displ mats (map Z.opp R) m' /\ conjugate_hops norb m m'.
Lemma make_accepted ndim norb displ mats t : tb_make ndim norb displ mats = Ok t ->
  t = mkTb ndim norb displ mats /\ length displ = length mats /\ accepted ndim norb displ mats.
Proof.
  unfold tb_make. destruct (Nat.eqb_spec (length displ) (length mats)) as [HL|]; cbn [negb]; [|discriminate]. destruct (check_all _ _ _ _) as [[]| |] eqn:E; cbn [bind]; try discriminate. intros H. injection H as <-.
  split; [reflexivity|]. split; [exact HL|]. intros R m Hm. apply In_hopping in Hm. pose proof (proj1 (check_all_ok _ _ _ _) E _ Hm) as Hc. unfold check_hop in Hc.
  destruct (Nat.eqb_spec (length R) ndim); cbn [negb] in Hc; [|discriminate]. destruct (Nat.eqb_spec (h_rows m) norb); cbn [negb] in Hc; [|discriminate]. destruct (Nat.eqb_spec (h_cols m) norb); cbn [negb] in Hc; [|discriminate].
  destruct (find_opposite R _) as [m'|] eqn:F; [|discriminate]. destruct (negb _); [discriminate|]. destruct (deviates norb m m') eqn:D; [discriminate|]. repeat split; try assumption. exists m'.
  split; [apply In_hopping, find_opposite_some, F|apply deviates_false, D].
Qed.
Lemma accepted_make ndim norb displ mats : length displ = length mats -> NoDup displ -> accepted ndim norb displ mats ->
  tb_make ndim norb displ mats = Ok (mkTb ndim norb displ mats).
Proof.
  intros HL ND H. unfold tb_make. rewrite HL, Nat.eqb_refl. cbn [negb]. replace (check_all _ _ _ _) with (Ok tt); [reflexivity|]. symmetry. apply check_all_ok. intros [R m] Hm.
  apply In_hopping in Hm. destruct (H R m Hm) as (E1 & E2 & E3 & m' & Hm' & Hc). unfold check_hop. rewrite E1, E2, E3, !Nat.eqb_refl. cbn [negb].
  destruct (find_opposite R _) as [m2|] eqn:F; [|exfalso; apply (find_opposite_none _ _ F m'); apply In_hopping; exact Hm'].
  apply find_opposite_some in F. apply In_hopping in F. destruct Hm' as (n & A1 & A2), F as (n' & B1 & B2).
  assert (n = n'). { apply (proj1 (NoDup_nth_error displ) ND); [apply nth_error_Some; congruence|congruence]. } subst n'. assert (m2 = m') by congruence. subst m2.
  destruct (H (map Z.opp R) m') as (_ & G2 & G3 & _); [exists n; split; assumption|]. rewrite G2, G3, !Nat.eqb_refl. cbn [negb andb]. rewrite (proj2 (deviates_false _ _ _) Hc). reflexivity.
Qed.

(** ---- fourier ---- *)
Lemma fold_add {A} (f : A -> cmat) l acc i j : fold_left (fun acc y => cm_add acc (f y)) l acc i j = (acc i j + csum (fun y => f y i j) l)%C.
Proof. revert acc; induction l as [|x l IH]; intros acc; cbn [fold_left csum]; [ring|]. rewrite IH. unfold cm_add. ring. Qed.
Lemma fourier_sum t k : accepted (tb_dim t) (tb_norb t) (tb_displ t) (tb_mats t) -> length (tb_displ t) = length (tb_mats t) -> tb_displ t <> [] -> tb_dim t <= length k ->
  exists h, fourier t k = Ok h /\ forall i j, h i j = h_k (tb_displ t) (tb_mats t) k i j.
Proof.
  intros A HL NE Hk. unfold fourier. destruct (Nat.ltb_spec (length k) (tb_dim t)); [lia|]. destruct (combine (tb_displ t) (tb_mats t)) as [|x l] eqn:E.
  { exfalso. apply NE. apply length_zero_iff_nil. pose proof (combine_length (tb_displ t) (tb_mats t)) as Q. rewrite E in Q. cbn in Q. lia. }
  eexists. split; [reflexivity|]. intros i j. rewrite fold_add. unfold h_k. rewrite E. cbn [csum].
  assert (V : forall y, In y (x :: l) -> tb_val (tb_dim t) k y i j = (phase (2 * PI * inner k (fst y)) * h_el (snd y) i j)%C).
  { intros [R m] Hy. rewrite <- E in Hy. apply In_hopping in Hy. destruct (A R m Hy) as (Hd & _). unfold tb_val. cbn [fst snd]. rewrite cexp_phase, kdot_inner, firstn_len_inner by exact Hd. reflexivity. }
  rewrite (V x (or_introl eq_refl)). f_equal. apply csum_ext. intros y Hy. apply V. right. exact Hy.
Qed.

(** hermitian up to the accumulated tolerance *)
Section Herm.
  Variables (displ : list (list Z)) (mats : list hop) (ndim norb : nat) (k : list R).
  Hypothesis HL : length displ = length mats.
  Hypothesis ND : NoDup displ.
  Hypothesis HA : accepted ndim norb displ mats.
  Variable bound : R.
  Hypothesis HB : forall R m m' i j, hopping displ mats R m -> hopping displ mats (map Z.opp R) m' -> i < norb -> j < norb -> (Cmod (h_el m i j - Cconj (h_el m' j i))%C <= bound)%R.

  Fixpoint look (R : list Z) (l : list (list Z * hop)) : hop :=
    match l with [] => mkHop 0 0 (fun _ _ => (RtoC 0)) | (R', m) :: l' => if list_eq_dec Z.eq_dec R R' then m else look R l' end.
  Lemma look_in R l : In R (map fst l) -> In (R, look R l) l.
  Proof. induction l as [|[R' m] l IH]; cbn; [tauto|]. destruct (list_eq_dec _ R R') as [->|N]; [tauto|]. intros [E|E]; [congruence|]. right. apply IH, E. Qed.
  Lemma look_eq l R m : NoDup (map fst l) -> In (R, m) l -> look R l = m.
  Proof.
    induction l as [|[R' m'] l IH]; cbn; [tauto|]. intros N H. inversion N as [|? ? N1 N2]; subst. destruct (list_eq_dec _ R R') as [->|Q]; destruct H as [E|H]; try congruence.
    - exfalso. apply N1. apply in_map_iff. exists (R', m). split; [reflexivity|exact H].
    - apply IH; assumption.
  Qed.
  Lemma fst_combine : map fst (combine displ mats) = displ.
  Proof. clear ND HA HB. revert mats HL; induction displ as [|d ds IH]; intros [|m ms] H; cbn in *; try discriminate; [reflexivity|]. rewrite IH by lia. reflexivity. Qed.
  Lemma in_displ R : In R displ -> hopping displ mats R (look R (combine displ mats)).
  Proof. intros H. apply In_hopping. apply look_in. rewrite fst_combine. exact H. Qed.
  Lemma opp_in R : In R displ -> In (map Z.opp R) displ.
  Proof. intros H. destruct (HA R _ (in_displ R H)) as (_ & _ & _ & m' & (n & E & _) & _). eapply nth_error_In. exact E. Qed.
  Lemma opp_perm : Permutation displ (map (map Z.opp) displ).
  Proof.
    symmetry. apply NoDup_Permutation_bis; [|rewrite map_length; lia|].
    - cut (forall l : list (list Z), NoDup l -> NoDup (map (map Z.opp) l)); [intros G; apply G, ND|]. clear. induction 1 as [|x l H1 H2 IH]; cbn; constructor; [|exact IH]. intros C. apply in_map_iff in C. destruct C as (y & E & Hy). apply H1.
      rewrite <- (map_opp_opp x), <- E, map_opp_opp. exact Hy.
    - intros x Hx. apply in_map_iff in Hx. destruct Hx as (y & <- & Hy). apply opp_in, Hy.
  Qed.
  Lemma sum_by_key (g : list Z -> hop -> C) : csum (fun x => g (fst x) (snd x)) (combine displ mats) = csum (fun R => g R (look R (combine displ mats))) displ.
  Proof.
    transitivity (csum (fun R => g R (look R (combine displ mats))) (map fst (combine displ mats))); [|rewrite fst_combine; reflexivity]. rewrite csum_map. apply csum_ext. intros [R m] H. cbn [fst snd]. rewrite (look_eq _ R m); [reflexivity| |exact H]. rewrite fst_combine. exact ND.
  Qed.
  Lemma hermitian_bound i j : i < norb -> j < norb -> (Cmod (h_k displ mats k i j - Cconj (h_k displ mats k j i))%C <= INR (length displ) * bound)%R.
  Proof.
    intros Hi Hj. unfold h_k. rewrite csum_conj.
    rewrite (sum_by_key (fun R m => (phase (2 * PI * inner k R) * h_el m i j)%C)), (sum_by_key (fun R m => Cconj (phase (2 * PI * inner k R) * h_el m j i)%C)).
    rewrite (csum_perm (fun R => Cconj (phase (2 * PI * inner k R) * h_el (look R (combine displ mats)) j i)%C) _ _ opp_perm), csum_map, csum_sub. apply csum_bound. intros R HR.
    rewrite inner_opp. set (a := h_el (look R _) i j). set (b := h_el (look (map Z.opp R) _) j i).
    assert (E : Cconj (phase (2 * PI * - inner k R) * b)%C = (phase (2 * PI * inner k R) * Cconj b)%C).
    { rewrite conj_mult, phase_conj. replace (- (2 * PI * - inner k R))%R with (2 * PI * inner k R)%R by ring. reflexivity. }
    rewrite E. replace (phase (2 * PI * inner k R) * a - phase (2 * PI * inner k R) * Cconj b)%C with (phase (2 * PI * inner k R) * (a - Cconj b))%C by ring.
    rewrite Cmod_mult, phase_mod, Rmult_1_l. apply (HB R _ _ i j); [apply in_displ, HR|apply in_displ, opp_in, HR|exact Hi|exact Hj].
  Qed.
End Herm.

Lemma hermitian_tol displ mats ndim norb k i j : length displ = length mats -> NoDup displ -> accepted ndim norb displ mats -> i < norb -> j < norb ->
  (Cmod (h_k displ mats k i j - Cconj (h_k displ mats k j i))%C <= INR (length displ) * (1 / 1000000000000))%R.
Proof.
  intros HL ND HA Hi Hj. apply (hermitian_bound displ mats ndim norb k HL ND HA); try assumption.
  intros R m m' a b Hm Hm' Ha Hb. destruct (HA R m Hm) as (_ & _ & _ & m2 & (n & A1 & A2) & Hc). destruct Hm' as (n' & B1 & B2).
  assert (n = n') by (apply (proj1 (NoDup_nth_error displ) ND); [apply nth_error_Some; congruence|congruence]). subst n'. assert (m2 = m') by congruence. subst m2. apply Hc; assumption.
Qed.
Lemma hermitian_exact displ mats ndim norb k i j : length displ = length mats -> NoDup displ -> accepted ndim norb displ mats ->
  (forall R m m' a b, hopping displ mats R m -> hopping displ mats (map Z.opp R) m' -> a < norb -> b < norb -> h_el m a b = Cconj (h_el m' b a)) ->
  i < norb -> j < norb -> h_k displ mats k i j = Cconj (h_k displ mats k j i).
Proof.
  intros HL ND HA HX Hi Hj. assert (B : (Cmod (h_k displ mats k i j - Cconj (h_k displ mats k j i))%C <= INR (length displ) * 0)%R).
  { apply (hermitian_bound displ mats ndim norb k HL ND HA); try assumption. intros R m m' a b Hm Hm' Ha Hb. rewrite (HX R m m' a b Hm Hm' Ha Hb). replace (Cconj (h_el m' b a) - Cconj (h_el m' b a))%C with (RtoC 0) by ring. rewrite Cmod_0. lra. }
  rewrite Rmult_0_r in B. assert (Z : (h_k displ mats k i j - Cconj (h_k displ mats k j i))%C = (RtoC 0)) by (apply Cmod_eq_0; pose proof (Cmod_ge_0 (h_k displ mats k i j - Cconj (h_k displ mats k j i))%C); lra).
  replace (h_k displ mats k i j) with ((h_k displ mats k i j - Cconj (h_k displ mats k j i)) + Cconj (h_k displ mats k j i))%C by ring. rewrite Z. ring.
Qed.
Lemma periodic displ mats k G i j : length G = length k -> h_k displ mats (shift k G) i j = h_k displ mats k i j.
Proof.
  intros HG. unfold h_k. apply csum_ext. intros [R m] _. cbn [fst snd]. destruct (inner_shift k G R HG) as [n ->].
  replace (2 * PI * (inner k R + IZR n))%R with (2 * PI * inner k R + 2 * PI * IZR n)%R by ring. rewrite phase_period. reflexivity.
Qed.

(** ---- arrays of momenta ---- *)
Lemma zip_add_map {A} (f g : A -> cmat) l : zip_add (map f l) (map g l) = map (fun x => cm_add (f x) (g x)) l.
Proof. induction l as [|x l IH]; cbn; [reflexivity|]. rewrite IH. reflexivity. Qed.
Lemma fold_zip {A} (f : A -> list R -> cmat) ks l (acc : list R -> cmat) :
  fold_left (fun acc y => zip_add acc (map (f y) ks)) l (map acc ks) = map (fun k => fold_left (fun a y => cm_add a (f y k)) l (acc k)) ks.
Proof. revert acc; induction l as [|x l IH]; intros acc; cbn [fold_left]; [reflexivity|]. rewrite zip_add_map, IH. reflexivity. Qed.
Lemma stack_each t ks : ks <> [] -> fourier_stack t ks = match fourier_each t ks with Ok l => Ok l | _ => UB end.
Proof.
  intros NE. unfold fourier_stack. destruct (combine (tb_displ t) (tb_mats t)) as [|x l] eqn:E.
  { destruct ks as [|k ks]; [congruence|]. cbn [fourier_each]. unfold fourier. rewrite E. destruct (existsb _ _), (Nat.ltb (length k) (tb_dim t)); reflexivity. }
  rewrite (fold_zip (fun y k => tb_val (tb_dim t) k y)). clear NE. induction ks as [|k ks IH]; cbn [existsb fourier_each map]; [reflexivity|].
  unfold fourier at 1. rewrite E. destruct (Nat.ltb (length k) (tb_dim t)); cbn [orb bind]; [reflexivity|]. destruct (existsb _ ks); destruct (fourier_each t ks); cbn [bind] in *; try discriminate IH; try reflexivity. injection IH as ->. reflexivity.
Qed.
Lemma each_nth t ks hs : fourier_each t ks = Ok hs -> length hs = length ks /\ forall n k, nth_error ks n = Some k -> exists h, nth_error hs n = Some h /\ fourier t k = Ok h.
Proof.
  revert hs; induction ks as [|k ks IH]; intros hs; cbn [fourier_each].
  - intros E. injection E as <-. split; [reflexivity|]. intros [|n] k E; discriminate E.
  - destruct (fourier t k) as [h| |] eqn:Ef; cbn [bind]; try discriminate. destruct (fourier_each t ks) as [hs'| |]; cbn [bind]; try discriminate. intros E. injection E as <-.
    destruct (IH _ eq_refl) as [HL HN]. split; [cbn; lia|]. intros [|n] k' E; cbn in *; [injection E as <-; eauto|apply HN, E].
Qed.
Lemma each_ok t ks : (forall k, In k ks -> exists h, fourier t k = Ok h) -> exists hs, fourier_each t ks = Ok hs.
Proof.
  induction ks as [|k ks IH]; intros H; cbn [fourier_each]; [eauto|]. destruct (H k (or_introl eq_refl)) as [h ->]. cbn [bind]. destruct IH as [hs ->]; [intros k' Hk; apply H; right; exact Hk|]. cbn [bind]. eauto.
Qed.

(** ---- the Brillouin zone mesh ---- *)
Lemma k_reduced_ok m a b c : brz_built m -> k_reduced m [a; b; c] =
  let v := keep (la_dim (bz_lat (br_bz m))) (V3 (IZR a) (IZR b) (IZR c)) in
  [(vx v / IZR (cy_d0 (br_dims m)))%R; (vy v / IZR (cy_d1 (br_dims m)))%R; (vz v / IZR (cy_d2 (br_dims m)))%R].
Proof.
  intros Hm. unfold k_reduced, br_value, vec_of. rewrite (br_units_rows m Hm). destruct Hm as (d & u & l & z & dm & Hl & Hz & Hd & ->). destruct (bz_det l z Hz) as (HD & Ei & El). cbn [br_make br_dims br_bz].
  set (w := keep _ _). clearbody w. rewrite Ei. cbv zeta.
  assert (E : mvec (transpose (M3 (vscal (/ IZR (cy_d0 dm)) (r0 (bz_K z))) (vscal (/ IZR (cy_d1 dm)) (r1 (bz_K z))) (vscal (/ IZR (cy_d2 dm)) (r2 (bz_K z))))) w =
    mvec (transpose (bz_K z)) (V3 (vx w / IZR (cy_d0 dm)) (vy w / IZR (cy_d1 dm)) (vz w / IZR (cy_d2 dm)))%R).
  { destruct (bz_K z) as [[a1 a2 a3] [b1 b2 b3] [c1 c2 c3]]. cbv [mvec transpose vscal dot vx vy vz r0 r1 r2 Rdiv]. f_equal; ring. }
  rewrite E, mvec_inv_l by exact HD. reflexivity.
Qed.

Lemma keep_inner d x y z R : length R = d -> (1 <= d <= 3) -> forall a b c,
  let v := keep d (V3 x y z) in inner [(vx v / a)%R; (vy v / b)%R; (vz v / c)%R] R = inner [(x / a)%R; (y / b)%R; (z / c)%R] R.
Proof. intros HR Hd a b c. destruct R as [|r1 [|r2 [|r3 [|r4 R]]]]; cbn in HR; subst d; try lia; cbn; reflexivity. Qed.
