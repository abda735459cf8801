From Coq Require Import ZArith Reals List Bool Arith Lia Lra.
From Coquelicot Require Import Complex.
From Verif Require Import Base Lattice TightBinding ThermalSpec Fourier Fourier_dft TightBindingSpec TightBinding_proofs KGrid KGridSpec.
From Verif Require Csum.
Import ListNotations.
Local Open Scope nat_scope.

Lemma pts_value N x : In x (pts1d N) <-> grid_value N x.
Proof.
  unfold pts1d, grid_value. rewrite in_map_iff. split.
  - intros (n & <- & H). apply in_seq in H. exists n. split; [lia|]. assert (INR N <> 0)%R by (apply not_0_INR; lia). rewrite plus_INR. cbn [INR]. field. assumption.
  - intros (n & H & ->). exists n. split; [|apply in_seq; lia]. assert (INR N <> 0)%R by (apply not_0_INR; lia). rewrite plus_INR. cbn [INR]. field. assumption.
Qed.
Lemma pts_length N : length (pts1d N) = N.
Proof. unfold pts1d. rewrite map_length, seq_length. reflexivity. Qed.
Lemma NoDup_map_in {A B} (f : A -> B) l : (forall x y, In x l -> In y l -> f x = f y -> x = y) -> NoDup l -> NoDup (map f l).
Proof.
  induction l as [|a l IH]; intros H ND; [constructor|]. inversion ND; subst. cbn [map]. constructor.
  - intros I. apply in_map_iff in I. destruct I as (y & E & Hy). assert (y = a) by (apply H; [right; exact Hy|left; reflexivity|exact E]). subst. contradiction.
  - apply IH; [|assumption]. intros x y Hx Hy. apply H; right; assumption.
Qed.
Lemma pts_nodup N : NoDup (pts1d N).
Proof.
  unfold pts1d. apply NoDup_map_in; [|apply seq_NoDup]. intros x y Hx _ E. apply in_seq in Hx. assert (P : (0 < INR N)%R) by (apply lt_0_INR; lia).
  apply INR_eq. apply (f_equal (fun z => (z * INR N)%R)) in E. unfold Rdiv in E. rewrite !Rmult_assoc, !Rinv_l, !Rmult_1_r in E by lra. lra.
Qed.

(** the product of [d] lists, the first component running fastest *)
Fixpoint prodl (P : list R) (d : nat) : list (list R) := match d with 0 => [[]] | S d' => flat_map (fun r => map (fun x => x :: r) P) (prodl P d') end.
Lemma prodl_length P d : length (prodl P d) = length P ^ d.
Proof.
  induction d as [|d IH]; [reflexivity|]. cbn [prodl Nat.pow]. rewrite <- IH. generalize (prodl P d) as l. induction l as [|r l IHl]; [cbn; lia|].
  cbn [flat_map length]. rewrite app_length, map_length, IHl. lia.
Qed.
Lemma prodl_in P d k : In k (prodl P d) <-> length k = d /\ Forall (fun x => In x P) k.
Proof.
  revert k. induction d as [|d IH]; intros k; cbn [prodl].
  - split; [intros [<-|[]]; split; [reflexivity|constructor]|]. intros [H _]. destruct k; [left; reflexivity|discriminate H].
  - rewrite in_flat_map. split.
    + intros (r & Hr & Hk). apply in_map_iff in Hk. destruct Hk as (x & <- & Hx). apply IH in Hr. destruct Hr as [L F]. split; [cbn; lia|constructor; assumption].
    + intros [L F]. destruct k as [|x r]; [discriminate L|]. inversion F; subst. exists r. split; [apply IH; split; [cbn in L; lia|assumption]|]. apply in_map_iff. exists x. split; [reflexivity|assumption].
Qed.
Lemma NoDup_app2 {A} (l m : list A) : NoDup l -> NoDup m -> (forall x, In x l -> In x m -> False) -> NoDup (l ++ m).
Proof.
  induction l as [|a l IH]; intros H1 H2 H; [exact H2|]. inversion H1; subst. cbn [app]. constructor.
  - rewrite in_app_iff. intros [I|I]; [contradiction|]. apply (H a); [left; reflexivity|exact I].
  - apply IH; [assumption|assumption|]. intros x Hx. apply H. right. exact Hx.
Qed.
Lemma prodl_nodup P d : NoDup P -> NoDup (prodl P d).
Proof.
  intros NP. induction d as [|d IH]; cbn [prodl]; [repeat constructor; intros []|]. revert IH. generalize (prodl P d) as l. induction l as [|r l IHl]; intros ND; [constructor|].
  inversion ND; subst. cbn [flat_map]. apply NoDup_app2.
  - apply NoDup_map_in; [|exact NP]. intros x y _ _ E. congruence.
  - apply IHl. assumption.
  - intros x Hx Hy. apply in_map_iff in Hx. destruct Hx as (u & <- & _). apply in_flat_map in Hy. destruct Hy as (r' & Hr' & Hy). apply in_map_iff in Hy. destruct Hy as (v & E & _). injection E as _ ->. contradiction.
Qed.
Lemma pts_one : pts1d 1 = [(1 / 2)%R].
Proof. unfold pts1d. cbn [seq map]. f_equal. cbn [INR]. field. Qed.
Lemma flat_flat {A B D} (f : B -> list D) (g : A -> list B) l : flat_map f (flat_map g l) = flat_map (fun x => flat_map f (g x)) l.
Proof. induction l as [|x l IH]; [reflexivity|]. cbn [flat_map]. rewrite flat_map_app, IH. reflexivity. Qed.
Lemma flat_of_map {A B D} (f : B -> list D) (g : A -> B) l : flat_map f (map g l) = flat_map (fun x => f (g x)) l.
Proof. induction l as [|x l IH]; [reflexivity|]. cbn [flat_map map]. rewrite IH. reflexivity. Qed.
Lemma grid_prod dim N : 1 <= dim <= 3 -> grid dim N = prodl (pts1d N) dim.
Proof.
  intros H. assert (P1 : prodl (pts1d N) 1 = map (fun x => [x]) (pts1d N)) by (cbn [prodl flat_map]; rewrite app_nil_r; reflexivity).
  assert (P2 : prodl (pts1d N) 2 = flat_map (fun y => map (fun x => [x; y]) (pts1d N)) (pts1d N)).
  { change (prodl (pts1d N) 2) with (flat_map (fun r => map (fun x => x :: r) (pts1d N)) (prodl (pts1d N) 1)). rewrite P1, flat_of_map. reflexivity. }
  destruct dim as [|[|[|[|dim]]]]; try lia; unfold grid, n_dir; cbn [Nat.ltb Nat.leb firstn].
  - rewrite pts_one. cbn [flat_map]. rewrite !app_nil_r. symmetry. exact P1.
  - rewrite pts_one. cbn [flat_map]. rewrite !app_nil_r. symmetry. exact P2.
  - change (prodl (pts1d N) 3) with (flat_map (fun r => map (fun x => x :: r) (pts1d N)) (prodl (pts1d N) 2)). rewrite P2, flat_flat. apply flat_map_ext. intros z. rewrite flat_of_map. reflexivity.
Qed.
Lemma nk_pow dim N : 1 <= dim <= 3 -> N * n_dir dim N 1 * n_dir dim N 2 = N ^ dim.
Proof. intros H. destruct dim as [|[|[|[|dim]]]]; try lia; unfold n_dir; cbn [Nat.ltb Nat.leb Nat.pow]; lia. Qed.

Lemma patch_throws c n rest : compute_patch c n rest = Throw.
Proof. unfold compute_patch, pdiv. cbn [pval]. destruct (Req_EM_T 3 0) as [E|_]; reflexivity. Qed.
Lemma make_ok rest t N : 1 <= tb_dim t <= 3 -> 1 <= N -> forall s, sumk_make rest t None N Riemann = Ok s <->
  exists h, fourier_stack t (prodl (pts1d N) (tb_dim t)) = Ok h /\ s = mkSumk t None Riemann (prodl (pts1d N) (tb_dim t)) (default_weights (N ^ tb_dim t)) h.
Proof.
  intros D HN s. unfold sumk_make, recompute_grid, compute_grid. rewrite (nk_pow _ _ D), (grid_prod _ _ D). assert (Z : N ^ tb_dim t <> 0) by (apply Nat.pow_nonzero; lia).
  destruct (Nat.eqb_spec (N ^ tb_dim t) 0) as [E|_]; [contradiction|]. destruct (Nat.ltb_spec 3 (tb_dim t)); [lia|]. destruct (fourier_stack t _) as [h| |]; cbn [bind]; split.
  - intros E. injection E as <-. exists h. split; reflexivity.
  - intros (h' & E & ->). injection E as ->. reflexivity.
  - discriminate. - intros (h' & E & _). discriminate E. - discriminate. - intros (h' & E & _). discriminate E.
Qed.
(** sums of plane waves *)
Lemma csum_app {A} (f : A -> C) l m : csum f (l ++ m) = (csum f l + csum f m)%C.
Proof. induction l as [|x l IH]; cbn [csum app]; [ring|rewrite IH; ring]. Qed.
Lemma csum_map {A B} (f : B -> C) (g : A -> B) l : csum f (map g l) = csum (fun x => f (g x)) l.
Proof. induction l as [|x l IH]; [reflexivity|]. cbn [csum map]. rewrite IH. reflexivity. Qed.
Lemma csum_scal {A} (c : C) (f : A -> C) l : csum (fun x => c * f x)%C l = (c * csum f l)%C.
Proof. induction l as [|x l IH]; cbn [csum]; [ring|rewrite IH; ring]. Qed.
Lemma csum_ext' {A} (f g : A -> C) l : (forall x, In x l -> f x = g x) -> csum f l = csum g l.
Proof. induction l as [|x l IH]; intros H; [reflexivity|]. cbn [csum]. rewrite (H x (or_introl eq_refl)), IH; [reflexivity|]. intros y Hy. apply H. right. exact Hy. Qed.
Lemma csum_same {A} (f : A -> C) l : ThermalSpec.csum l f = csum f l.
Proof. induction l as [|x l IH]; [reflexivity|]. rewrite Csum.csum_cons, IH. reflexivity. Qed.
Lemma csum_zero {A} (l : list A) : csum (fun _ => RtoC 0) l = RtoC 0.
Proof. induction l as [|x l IH]; [reflexivity|]. cbn [csum]. rewrite IH. ring. Qed.
Lemma csum_add {A} (f g : A -> C) l : csum (fun x => f x + g x)%C l = (csum f l + csum g l)%C.
Proof. induction l as [|x l IH]; cbn [csum]; [ring|rewrite IH; ring]. Qed.
Lemma csum_swap {A B} (f : A -> B -> C) l m : csum (fun x => csum (f x) m) l = csum (fun y => csum (fun x => f x y) l) m.
Proof. induction l as [|x l IH]; cbn [csum]; [symmetry; apply csum_zero|]. rewrite IH, <- csum_add. reflexivity. Qed.
Lemma phase_add x y : phase (x + y) = (phase x * phase y)%C.
Proof. exact (expi_add x y). Qed.
Lemma line N r : 1 <= N -> (Z.abs r < Z.of_nat N)%Z -> csum (fun x => phase (2 * PI * (x * IZR r))) (pts1d N) = if (r =? 0)%Z then RtoC (INR N) else RtoC 0.
Proof.
  intros HN Hr. assert (HR : (INR N <> 0)%R) by (apply not_0_INR; lia). unfold pts1d. rewrite csum_map.
  rewrite (csum_ext' _ (fun n => phase (2 * PI * ((1 - INR N / 2) / INR N * IZR r)) * expi (2 * PI * (INR n * IZR r / INR N)))%C).
  2: { intros n _. change (expi (2 * PI * (INR n * IZR r / INR N))) with (phase (2 * PI * (INR n * IZR r / INR N))). rewrite <- phase_add. f_equal. field. exact HR. }
  rewrite csum_scal, <- csum_same, roots by lia. destruct (Z.eqb_spec r 0) as [->|NZ].
  - rewrite Z.mod_0_l by lia. cbn [Z.eqb]. replace (2 * PI * ((1 - INR N / 2) / INR N * 0))%R with 0%R by ring. unfold phase. rewrite cos_0, sin_0. change (1, 0)%R with (RtoC 1). ring.
  - destruct (Z.eqb_spec (r mod Z.of_nat N) 0) as [E|_]; [|ring]. exfalso. apply Z.mod_divide in E; [|lia]. destruct E as [k ->]. assert (k <> 0)%Z by (intros ->; apply NZ; reflexivity). nia.
Qed.
Lemma plane N R : 1 <= N -> short N R -> csum (fun k => phase (2 * PI * inner k R)) (prodl (pts1d N) (length R)) = if list_eq_dec Z.eq_dec R (repeat 0%Z (length R)) then RtoC (INR (N ^ length R)) else RtoC 0.
Proof.
  intros HN. induction R as [|r R IH]; intros HS; cbn [length prodl].
  - cbn [repeat]. destruct (list_eq_dec Z.eq_dec [] []) as [_|X]; [|contradiction X; reflexivity]. cbn [csum inner Nat.pow INR]. rewrite Rmult_0_r. unfold phase. rewrite cos_0, sin_0. change (1, 0)%R with (RtoC 1). ring.
  - inversion HS; subst. specialize (IH H2).
    assert (G : forall l, csum (fun k => phase (2 * PI * inner k (r :: R))) (flat_map (fun k => map (fun x => x :: k) (pts1d N)) l) = (csum (fun x => phase (2 * PI * (x * IZR r))) (pts1d N) * csum (fun k => phase (2 * PI * inner k R)) l)%C).
    { induction l as [|k l IHl]; cbn [flat_map csum]; [ring|]. rewrite csum_app, IHl, csum_map.
      rewrite (csum_ext' _ (fun x => phase (2 * PI * inner k R) * phase (2 * PI * (x * IZR r)))%C) by (intros x _; rewrite <- phase_add; f_equal; cbn [inner]; ring). rewrite csum_scal. ring. }
    rewrite G, IH, (line N r HN H1). cbn [repeat]. destruct (Z.eqb_spec r 0) as [->|NZ].
    + destruct (list_eq_dec Z.eq_dec R (repeat 0%Z (length R))) as [E|E], (list_eq_dec Z.eq_dec (0%Z :: R) (0%Z :: repeat 0%Z (length R))) as [F|F].
      * cbn [Nat.pow]. rewrite mult_INR, RtoC_mult. ring.
      * exfalso. apply F. f_equal. exact E.
      * exfalso. apply E. injection F. trivial.
      * ring.
    + destruct (list_eq_dec Z.eq_dec (r :: R) (0%Z :: repeat 0%Z (length R))) as [F|F]; [exfalso; apply NZ; congruence|ring].
Qed.
Lemma total_repeat c n : total (repeat c n) = (INR n * c)%R.
Proof. induction n as [|n IH]; [cbn; ring|]. cbn [repeat total fold_right]. change (fold_right Rplus 0%R (repeat c n)) with (total (repeat c n)). rewrite IH, S_INR. ring. Qed.
Lemma csum_all {A B} (f : A -> C) (g : B -> C) l m : length l = length m -> (forall n b, nth_error m n = Some b -> exists a, nth_error l n = Some a /\ f a = g b) -> csum f l = csum g m.
Proof.
  revert m. induction l as [|a l IH]; intros [|b m] L H; try discriminate L; [reflexivity|]. cbn [csum]. destruct (H 0 b eq_refl) as (a' & E & V). injection E as <-. rewrite V. f_equal. apply IH; [cbn in L; lia|]. intros n y Hy. exact (H (S n) y Hy).
Qed.
Lemma csum_weights {B} (g : B -> C) w n (l : list B) : length l = n -> csum (fun p => RtoC (fst p) * g (snd p))%C (combine (repeat w n) l) = (RtoC w * csum g l)%C.
Proof. revert n. induction l as [|b l IH]; intros n L; subst n; cbn [length repeat combine csum]; [ring|]. rewrite IH by reflexivity. cbn [fst snd]. ring. Qed.
Lemma pick (displ : list (list Z)) (mats : list hop) z m (g : hop -> C) : NoDup displ -> hopping displ mats z m -> csum (fun x => if list_eq_dec Z.eq_dec (fst x) z then g (snd x) else RtoC 0) (combine displ mats) = g m.
Proof.
  revert mats. induction displ as [|R displ IH]; intros mats ND (n & H1 & H2); [destruct n; discriminate H1|]. destruct mats as [|m' mats]; [destruct n; discriminate H2|]. inversion ND; subst. cbn [combine csum fst snd]. destruct n as [|n]; cbn [nth_error] in *.
  - injection H1 as ->. injection H2 as ->. destruct (list_eq_dec Z.eq_dec z z) as [_|X]; [|contradiction X; reflexivity].
    rewrite (csum_ext' _ (fun _ => RtoC 0)); [rewrite csum_zero; ring|]. intros [R' m'] HI. apply in_combine_l in HI. cbn [fst snd]. destruct (list_eq_dec Z.eq_dec R' z) as [->|_]; [contradiction|reflexivity].
  - destruct (list_eq_dec Z.eq_dec R z) as [->|_]; [exfalso; apply H3; apply (nth_error_In _ _ H1)|]. rewrite IH; [ring|assumption|exists n; split; assumption].
Qed.
Lemma mean_h displ mats dim N i j : 1 <= N -> (forall R, In R displ -> length R = dim /\ short N R) ->
  csum (fun k => h_k displ mats k i j) (prodl (pts1d N) dim) = csum (fun x => if list_eq_dec Z.eq_dec (fst x) (repeat 0%Z dim) then RtoC (INR (N ^ dim)) * h_el (snd x) i j else RtoC 0)%C (combine displ mats).
Proof.
  intros HN H. unfold h_k. rewrite csum_swap. apply csum_ext'. intros [R m] HI. cbn [fst snd]. apply in_combine_l in HI. destruct (H R HI) as [L Sh].
  rewrite (csum_ext' _ (fun k => h_el m i j * phase (2 * PI * inner k R))%C) by (intros; ring). rewrite csum_scal. rewrite <- L at 1. rewrite (plane N R HN Sh), L. destruct (list_eq_dec Z.eq_dec R (repeat 0%Z dim)); ring.
Qed.
Lemma value_bounds N x : grid_value N x -> (- (1 / 2) < x <= 1 / 2)%R.
Proof.
  intros (n & Hn & ->). assert (P : (0 < INR N)%R) by (apply lt_0_INR; lia). assert (A : (0 < INR (n + 1) / INR N)%R) by (apply Rdiv_lt_0_compat; [apply lt_0_INR; lia|exact P]).
  assert (B : (INR (n + 1) / INR N <= 1)%R). { apply (Rmult_le_reg_r (INR N)); [exact P|]. unfold Rdiv. rewrite Rmult_assoc, Rinv_l, Rmult_1_r, Rmult_1_l by lra. apply le_INR. lia. } lra.
Qed.
Lemma value_zero N : grid_value N 0 <-> N <> 0 /\ Nat.Even N.
Proof.
  split.
  - intros (n & Hn & E). split; [lia|]. assert (P : (0 < INR N)%R) by (apply lt_0_INR; lia). exists (n + 1). apply INR_eq. rewrite mult_INR.
    assert (Q : (INR (n + 1) = INR N * (INR (n + 1) / INR N))%R) by (field; lra). replace (INR (n + 1) / INR N)%R with (1 / 2)%R in Q by lra. rewrite Q. cbn [INR]. lra.
  - intros [NZ [m ->]]. exists (m - 1). split; [lia|]. replace (m - 1 + 1) with m by lia. rewrite mult_INR. assert (INR m <> 0)%R by (apply not_0_INR; lia). cbn [INR]. field. assumption.
Qed.
Lemma value_opp N x : grid_value N x -> exists y, grid_value N y /\ exists z : Z, (- x = y + IZR z)%R.
Proof.
  intros (n & Hn & ->). assert (P : (0 < INR N)%R) by (apply lt_0_INR; lia). destruct (Nat.eq_dec (n + 1) N) as [E|E].
  - exists (INR (n + 1) / INR N - 1 / 2)%R. split; [exists n; split; [lia|reflexivity]|]. exists (-1)%Z. rewrite E. replace (INR N / INR N)%R with 1%R by (field; lra). change (IZR (-1)) with (-1)%R. lra.
  - exists (INR (N - n - 2 + 1) / INR N - 1 / 2)%R. split; [exists (N - n - 2); split; [lia|reflexivity]|]. exists 0%Z. replace (N - n - 2 + 1) with (N - (n + 1)) by lia. rewrite minus_INR by lia. change (IZR 0) with 0%R. field. lra.
Qed.
Lemma point_opp N k : Forall (grid_value N) k -> exists k', length k' = length k /\ Forall (grid_value N) k' /\ equivalent (map Ropp k) k'.
Proof.
  induction 1 as [|x k Hx _ (k' & L & F & E)]; [exists []; repeat split; constructor|]. destruct (value_opp N x Hx) as (y & Hy & Z). exists (y :: k'). split; [cbn; lia|]. split; [constructor; assumption|]. cbn [map]. constructor; assumption.
Qed.
