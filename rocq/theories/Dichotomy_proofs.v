From Coq Require Import ZArith QArith Qabs List Bool Lia Lqa.
From Verif Require Import Base Dichotomy.
Local Open Scope Q_scope.

Lemma Qltb_spec a b : reflect (a < b) (Qltb a b).
Proof.
  unfold Qltb. destruct (Qle_bool b a) eqn:E; cbn; constructor.
  - apply Qle_bool_iff in E. lra.
  - destruct (Qlt_le_dec a b) as [|H]; [assumption|]. apply Qle_bool_iff in H. congruence.
Qed.
Lemma Qltb_true a b : Qltb a b = true -> a < b. Proof. destruct (Qltb_spec a b); [auto|discriminate]. Qed.
Lemma Qltb_false a b : Qltb a b = false -> b <= a. Proof. destruct (Qltb_spec a b); [discriminate|lra]. Qed.

Lemma Qabs_cases x : (0 <= x /\ Qabs x == x) \/ (x <= 0 /\ Qabs x == - x).
Proof. destruct (Qlt_le_dec 0 x); [left|right]; (split; [lra|]); [apply Qabs_pos|apply Qabs_neg]; lra. Qed.

Section D.
  Variable f : nat -> Q -> Q.
  Variables (y p dx eps : Q).

  Lemma find_bound_inv n c x2 y2 n' c' x2' y2' : find_bound f y p dx eps n c x2 y2 = (n', c', x2', y2') ->
    (n' + c' = n + c /\ c <= c')%nat /\ (y2' = y2 /\ x2' = x2 /\ c' = c \/ (c < c')%nat /\ exists k, (k < c')%nat /\ y2' = f k x2') /\
    (exists j : nat, (j <= n)%nat /\ x2' == x2 - inject_Z (Z.of_nat j) * (eps * dx)) /\
    (n' <> O -> (y2' - y) * eps <= 0 \/ Qabs (y2' - y) <= p).
  Proof.
    revert c x2 y2. induction n as [|n IH]; intros c x2 y2 H; cbn [find_bound] in H.
    - injection H as <- <- <- <-. split; [lia|]. split; [left; auto|]. split; [exists O; split; [lia|]; change (inject_Z (Z.of_nat 0)) with 0; ring|congruence].
    - destruct (Qltb 0 ((y2 - y) * eps) && Qltb p (Qabs (y2 - y))) eqn:E.
      + destruct (IH _ _ _ H) as (A & B & (j & Hj & C) & D). split; [lia|]. split; [right|split; [|exact D]].
        * destruct B as [(-> & -> & ->)|(B1 & k & B2 & B3)]; (split; [lia|]); [exists c; split; [lia|reflexivity]|exists k; split; assumption].
        * exists (S j). split; [lia|]. rewrite Nat2Z.inj_succ. unfold Z.succ. rewrite inject_Z_plus. rewrite C. change (inject_Z 1) with 1. ring.
      + injection H as <- <- <- <-. split; [lia|]. split; [left; auto|]. split; [exists O; split; [lia|]; change (inject_Z (Z.of_nat 0)) with 0; ring|].
        intros _. apply andb_false_iff in E. destruct E as [E|E]; apply Qltb_false in E; auto.
  Qed.

  (** what refine preserves *)
  Lemma refine_sound n c x1 y1 x2 y2 x yf c' x' y' : (exists k, (k < c)%nat /\ yf = f k x) ->
    refine f y p n c x1 y1 x2 y2 x yf = Ok (c', x', y') ->
    (exists k, (k < c')%nat /\ y' = f k x') /\ (c' <= n + c)%nat /\ ((c' = n + c)%nat \/ Qabs (y' - y) <= p).
  Proof.
    revert c x1 y1 x2 y2 x yf. induction n as [|n IH]; intros c x1 y1 x2 y2 x yf Hk H; cbn [refine] in H.
    - injection H as <- <- <-. split; [assumption|]. split; [lia|left; lia].
    - destruct (Qltb p (Qabs (yf - y))) eqn:E.
      + destruct (Qeq_bool (y2 - y1) 0); [discriminate|]. cbv zeta in H.
        set (xn := x1 + (x2 - x1) * (y - y1) / (y2 - y1)) in *. destruct (Qltb 0 ((y1 - y) * (f c xn - y))).
        all: destruct (IH _ _ _ _ _ _ _ (ex_intro _ c (conj (Nat.lt_succ_diag_r c) eq_refl)) H) as (A & B & C).
        all: split; [exact A|]; split; [lia|]; destruct C; [left; lia|right; assumption].
      + injection H as <- <- <-. split; [assumption|]. split; [lia|]. right. apply Qltb_false. exact E.
  Qed.

  (** y1 and y2 on opposite sides of y *)
  Definition opposite (y1 y2 : Q) : Prop := (y1 < y /\ y < y2) \/ (y2 < y /\ y < y1).

  Lemma secant_between x1 x2 y1 y2 lo hi : opposite y1 y2 -> lo <= x1 <= hi -> lo <= x2 <= hi ->
    lo <= x1 + (x2 - x1) * (y - y1) / (y2 - y1) <= hi.
  Proof.
    intros Ho H1 H2. set (t := (y - y1) / (y2 - y1)).
    assert (Ht : 0 < t /\ t < 1).
    { unfold t. destruct Ho as [[A B]|[A B]].
      - split; [apply Qlt_shift_div_l; lra|apply Qlt_shift_div_r; lra].
      - assert (E : (y - y1) / (y2 - y1) == (y1 - y) / (y1 - y2)) by (field; split; lra). rewrite E. split; [apply Qlt_shift_div_l; lra|apply Qlt_shift_div_r; lra]. }
    assert (E : x1 + (x2 - x1) * (y - y1) / (y2 - y1) == (1 - t) * x1 + t * x2) by (unfold t; field; destruct Ho; lra).
    rewrite E. destruct Ht as [T1 T2].
    assert (A1 : 0 <= t * (x2 - lo)) by (apply Qmult_le_0_compat; lra). assert (A2 : 0 <= t * (hi - x2)) by (apply Qmult_le_0_compat; lra).
    assert (A3 : 0 <= (1 - t) * (x1 - lo)) by (apply Qmult_le_0_compat; lra). assert (A4 : 0 <= (1 - t) * (hi - x1)) by (apply Qmult_le_0_compat; lra).
    split; lra.
  Qed.

  Lemma pos_same a b : 0 < a * b -> (0 < a /\ 0 < b) \/ (a < 0 /\ b < 0).
  Proof.
    intros H. destruct (Qlt_le_dec 0 a) as [A|A].
    - left. split; [exact A|]. destruct (Qlt_le_dec 0 b) as [B|B]; [exact B|]. assert (0 <= a * (- b)) by (apply Qmult_le_0_compat; lra). lra.
    - right. assert (a < 0). { destruct (Qlt_le_dec a 0) as [|A']; [assumption|]. assert (E : a == 0) by lra. rewrite E in H. lra. }
      split; [assumption|]. destruct (Qlt_le_dec b 0) as [B|B]; [exact B|]. assert (0 <= (- a) * b) by (apply Qmult_le_0_compat; lra). lra.
  Qed.
  Lemma nonpos_opp a b : a * b <= 0 -> ~ a == 0 -> ~ b == 0 -> (0 < a /\ b < 0) \/ (a < 0 /\ 0 < b).
  Proof.
    intros H A B. destruct (Qlt_le_dec 0 a) as [Ha|Ha].
    - left. split; [exact Ha|]. destruct (Qlt_le_dec b 0) as [|Hb]; [assumption|]. exfalso. assert (0 < b) by (destruct (Qlt_le_dec 0 b); [assumption|exfalso; apply B; lra]).
      assert (0 < a * b) by (apply Qmult_lt_0_compat; assumption). lra.
    - right. assert (a < 0) by (destruct (Qlt_le_dec a 0); [assumption|exfalso; apply A; lra]). split; [assumption|].
      destruct (Qlt_le_dec 0 b) as [|Hb]; [assumption|]. exfalso. assert (b < 0) by (destruct (Qlt_le_dec b 0); [assumption|exfalso; apply B; lra]).
      assert (0 < (- a) * (- b)) by (apply Qmult_lt_0_compat; lra). lra.
  Qed.

  Hypothesis Hp : 0 <= p.

  Lemma refine_ok lo hi n c x1 y1 x2 y2 x yf :
    (n = O \/ opposite y1 y2 \/ Qabs (yf - y) <= p) -> lo <= x1 <= hi -> lo <= x2 <= hi -> lo <= x <= hi ->
    exists c' x' y', refine f y p n c x1 y1 x2 y2 x yf = Ok (c', x', y') /\ lo <= x' <= hi.
  Proof.
    revert c x1 y1 x2 y2 x yf. induction n as [|n IH]; intros c x1 y1 x2 y2 x yf Ho H1 H2 H3; cbn [refine].
    - exists c, x, yf. auto.
    - destruct (Qltb_spec p (Qabs (yf - y))) as [E|E]; [|exists c, x, yf; auto].
      assert (O : opposite y1 y2) by (destruct Ho as [F|[F|F]]; [discriminate F|exact F|lra]). clear Ho.
      destruct (Qeq_bool (y2 - y1) 0) eqn:Z; [apply Qeq_bool_iff in Z; exfalso; destruct O; lra|]. cbv zeta.
      set (xn := x1 + (x2 - x1) * (y - y1) / (y2 - y1)). assert (Hx : lo <= xn <= hi) by (apply secant_between; assumption).
      destruct (Qltb_spec 0 ((y1 - y) * (f c xn - y))) as [P|P].
      + apply IH; try assumption. right. left. apply pos_same in P. unfold opposite in *. destruct O, P; lra.
      + apply IH; try assumption. destruct (Qeq_dec (f c xn) y) as [Q|Q].
        * right. right. assert (E' : Qabs (f c xn - y) == 0) by (rewrite Q; assert (Z' : y - y == 0) by ring; rewrite Z'; reflexivity). lra.
        * right. left. destruct (nonpos_opp (y1 - y) (f c xn - y)) as [R|R]; [lra|destruct O; lra|lra| |]; unfold opposite; lra.
  Qed.
End D.

Section Whole.
  Variable f : nat -> Q -> Q.
  Variables (x0 y p delta : Q) (ml : Z).
  Let N := Z.to_nat (ml + 1).
  Let dx := Qabs delta.
  Let y0 := f O x0.
  Let eps := qsign (y0 - y).

  Lemma eps_cases : (eps == 1 /\ 0 < y0 - y) \/ (eps == -(1) /\ y0 - y < 0) \/ (eps == 0 /\ y0 == y).
  Proof.
    unfold eps, qsign. destruct (Qltb_spec 0 (y0 - y)); [left; split; [reflexivity|assumption]|]. right.
    destruct (Qltb_spec (y0 - y) 0); [left; split; [reflexivity|assumption]|]. right. split; [reflexivity|lra].
  Qed.

  (** the state when the bounds are known *)
  Lemma dich_unfold : exists n c x1 y1 x2 y2 x yf,
    dichotomy f x0 y p delta ml = (do r <- refine f y p n c x1 y1 x2 y2 x yf ;
       let '(calls', x', y') := r in Ok (if Qltb (Qabs (y' - y)) p then Some (x', y') else None, calls')) /\
    (n + c = N + 1)%nat /\ (exists k, (k < c)%nat /\ yf = f k x) /\
    (0 <= p -> n = O \/ opposite y y1 y2 \/ Qabs (yf - y) <= p) /\
    (forall b, inject_Z (Z.of_nat N) * dx <= b -> (x0 - b <= x1 <= x0 + b) /\ (x0 - b <= x2 <= x0 + b) /\ (x0 - b <= x <= x0 + b)).
  Proof.
    unfold dichotomy. fold y0. fold eps. fold N. fold dx.
    destruct (find_bound f y p dx eps N 1 x0 y0) as [[[n c] xb] yb] eqn:F.
    destruct (find_bound_inv f y p dx eps N 1 x0 y0 n c xb yb F) as ((A1 & A1') & A2 & (j & Hj & A3) & A4).
    assert (K0 : exists k, (k < c)%nat /\ y0 = f k x0) by (exists O; split; [lia|reflexivity]).
    assert (Kb : exists k, (k < c)%nat /\ yb = f k xb).
    { destruct A2 as [(-> & -> & ->)|(_ & K)]; [exists O; split; [lia|reflexivity]|exact K]. }
    assert (Hd : 0 <= dx) by apply Qabs_nonneg.
    assert (Hb : forall b, inject_Z (Z.of_nat N) * dx <= b -> (x0 - b <= x0 <= x0 + b) /\ (x0 - b <= xb <= x0 + b)).
    { intros b Bb. assert (J : 0 <= inject_Z (Z.of_nat j)) by (change 0 with (inject_Z 0); rewrite <- Zle_Qle; lia).
      assert (JN : inject_Z (Z.of_nat j) <= inject_Z (Z.of_nat N)) by (rewrite <- Zle_Qle; lia).
      assert (Jd : 0 <= inject_Z (Z.of_nat j) * dx) by (apply Qmult_le_0_compat; assumption).
      assert (Jn : inject_Z (Z.of_nat j) * dx <= inject_Z (Z.of_nat N) * dx) by (apply Qmult_le_compat_r; assumption).
      split; [lra|]. assert (G : xb == x0 - eps * (inject_Z (Z.of_nat j) * dx)) by (rewrite A3; ring).
      set (z := inject_Z (Z.of_nat j) * dx) in *. destruct eps_cases as [[E _]|[[E _]|[E _]]]; rewrite E in G; split; lra. }
    assert (Ho : 0 <= p -> n = O \/ (opposite y y0 yb \/ opposite y yb y0) \/ Qabs (yb - y) <= p).
    { intros Hp. destruct n as [|n]; [left; reflexivity|right]. destruct (A4 ltac:(discriminate)) as [B|B]; [|right; exact B].
      destruct (Qeq_dec yb y) as [Q|Q]; [right; assert (Z0 : yb - y == 0) by lra; rewrite Z0; exact Hp|].
      unfold opposite. destruct eps_cases as [[E C]|[[E C]|[E C]]].
      - left. rewrite E in B. lra.
      - left. rewrite E in B. lra.
      - right. destruct A2 as [(-> & _ & _)|(A2 & _)].
        + exfalso. apply Q. exact C.
        + exfalso. assert (Z0 : forall m c x2 y2, find_bound f y p dx eps m c x2 y2 = (m, c, x2, y2)).
          { intros [|m] c0 x2 y2; cbn [find_bound]; [reflexivity|]. destruct (Qltb_spec 0 ((y2 - y) * eps)) as [W|W]; [rewrite E in W; lra|reflexivity]. }
          rewrite Z0 in F. assert (c = 1%nat) by congruence. lia. }
    destruct (Qltb xb x0) eqn:Sw.
    - destruct (Qltb_spec (Qabs (yb - y)) (Qabs (y0 - y))) as [C|C].
      + exists n, c, xb, yb, x0, y0, xb, yb. split; [reflexivity|]. split; [lia|]. split; [exact Kb|]. split.
        * intros Hp. destruct (Ho Hp) as [|[[[B|B]|[B|B]]|]]; auto; right; left; unfold opposite; lra.
        * intros b Bb. destruct (Hb b Bb). auto.
      + exists n, c, xb, yb, x0, y0, x0, y0. split; [reflexivity|]. split; [lia|]. split; [exact K0|]. split.
        * intros Hp. destruct (Ho Hp) as [|[[[B|B]|[B|B]]|]]; auto; try (right; left; unfold opposite; lra). right. right. lra.
        * intros b Bb. destruct (Hb b Bb). auto.
    - destruct (Qltb_spec (Qabs (y0 - y)) (Qabs (yb - y))) as [C|C].
      + exists n, c, x0, y0, xb, yb, x0, y0. split; [reflexivity|]. split; [lia|]. split; [exact K0|]. split.
        * intros Hp. destruct (Ho Hp) as [|[[[B|B]|[B|B]]|]]; auto; try (right; left; unfold opposite; lra). right. right. lra.
        * intros b Bb. destruct (Hb b Bb). auto.
      + exists n, c, x0, y0, xb, yb, xb, yb. split; [reflexivity|]. split; [lia|]. split; [exact Kb|]. split.
        * intros Hp. destruct (Ho Hp) as [|[[[B|B]|[B|B]]|]]; auto; right; left; unfold opposite; lra.
        * intros b Bb. destruct (Hb b Bb). auto.
  Qed.

  Lemma dich_sound r calls : dichotomy f x0 y p delta ml = Ok (r, calls) -> (calls <= N + 1)%nat /\
    forall x y', r = Some (x, y') -> Qabs (y' - y) < p /\ exists k, (k < calls)%nat /\ y' = f k x.
  Proof.
    destruct dich_unfold as (n & c & x1 & y1 & x2 & y2 & x & yf & -> & A & B & _ & _). intros H.
    destruct (refine f y p n c x1 y1 x2 y2 x yf) as [[[c' x'] y']| |] eqn:E; cbn [bind] in H; try discriminate H.
    assert (Er : r = if Qltb (Qabs (y' - y)) p then Some (x', y') else None) by congruence. assert (Ec : calls = c') by congruence. subst r calls. clear H.
    destruct (refine_sound _ _ _ _ _ _ _ _ _ _ _ _ _ _ B E) as (C & D & _). split; [lia|].
    intros x'' y'' W. revert W. destruct (Qltb_spec (Qabs (y' - y)) p) as [G|G]; intros W; [|discriminate W]. injection W as <- <-. auto.
  Qed.
  Lemma dich_failure calls : dichotomy f x0 y p delta ml = Ok (None, calls) ->
    (calls = N + 1)%nat \/ exists k x, (k < calls)%nat /\ Qabs (f k x - y) == p.
  Proof.
    destruct dich_unfold as (n & c & x1 & y1 & x2 & y2 & x & yf & -> & A & B & _ & _). intros H.
    destruct (refine f y p n c x1 y1 x2 y2 x yf) as [[[c' x'] y']| |] eqn:E; cbn [bind] in H; try discriminate H.
    assert (W : (if Qltb (Qabs (y' - y)) p then Some (x', y') else None) = None) by congruence. assert (Ec : calls = c') by congruence. subst calls. clear H.
    destruct (refine_sound _ _ _ _ _ _ _ _ _ _ _ _ _ _ B E) as ((k & C1 & C2) & D & [F|F]); [left; lia|right].
    exists k, x'. split; [exact C1|]. rewrite <- C2. revert W. destruct (Qltb_spec (Qabs (y' - y)) p) as [G|G]; intros W; [discriminate W|lra].
  Qed.
  Lemma dich_total : 0 <= p -> exists r calls, dichotomy f x0 y p delta ml = Ok (r, calls) /\
    forall x y', r = Some (x, y') -> Qabs (x - x0) <= inject_Z (Z.max 0 (ml + 1)) * Qabs delta.
  Proof.
    intros Hp. destruct dich_unfold as (n & c & x1 & y1 & x2 & y2 & x & yf & -> & A & B & C & D).
    specialize (D _ (Qle_refl _)). destruct D as (D1 & D2 & D3).
    destruct (refine_ok f y p Hp _ _ n c x1 y1 x2 y2 x yf (C Hp) D1 D2 D3) as (c' & x' & y' & -> & E). cbn [bind].
    eexists _, _. split; [reflexivity|]. intros x'' y'' W. destruct (Qltb (Qabs (y' - y)) p); [|discriminate W]. injection W as <- <-.
    assert (EN : Z.of_nat N = Z.max 0 (ml + 1)) by (unfold N; lia). rewrite EN in E. fold dx. destruct (Qabs_cases (x' - x0)) as [[_ G]|[_ G]]; rewrite G; lra.
  Qed.
End Whole.
