(** Proofs: interaction matrices in the cubic and other bases; Kanamori and Slater matrices. *)
From Coq Require Import ZArith String List Bool Reals Lia Lra Setoid Morphisms Ring Permutation FinFun.
From Coquelicot Require Import Complex.
From Verif Require Import Base Indices Scalar Fock OpModel OpExpr Op_proofs RealAtom UMatrix OpUtil OpUtilSpec OpAlg OpBody
  OpUtil_base OpUtil_ham OpUtil_phys OpAng UMatrix_proofs UMatrix_inv UMatrix_neg OpUtil_L OpUtil_rot OpUtil_inv OpUtil_thms OpUtil_thm2 OpUtil_thm3.
Import ListNotations.

Section Rev.
  Add Ring KringRv : (sl_ring CS CS_laws).
  Local Open Scope K_scope.
  Notation L := CS_laws.
  Notation Sm := (Sm CS).
  Lemma Sm_perm {A} (l m : list A) f : Permutation l m -> Sm l f = Sm m f.
  Proof. induction 1; rewrite ?(Sm_cons CS); try congruence; ring. Qed.
  Lemma csum_rev n (f : nat -> C) : csum_n n (fun j => f (n - 1 - j)%nat) = csum_n n f.
  Proof.
    etransitivity; [exact (csum_Sm n (fun j => f (n - 1 - j)%nat))|]. etransitivity; [|symmetry; exact (csum_Sm n f)].
    rewrite <- (Sm_map CS (fun j => (n - 1 - j)%nat) (seq 0 n) (fun j => (f j : CS))). apply Sm_perm. apply NoDup_Permutation; [|apply seq_NoDup|].
    - apply (NoDup_map_inv (fun j => (n - 1 - j)%nat)). rewrite map_map. rewrite (map_ext_in _ (fun x => x)), map_id; [apply seq_NoDup|]. intros a Ha. apply in_seq in Ha. lia.
    - intros x. rewrite in_map_iff, in_seq. split.
      + intros (y & <- & Hy). apply in_seq in Hy. lia.
      + intros Hx. exists (n - 1 - x)%nat. rewrite in_seq. lia.
  Qed.
End Rev.

(** ---- cubic harmonics are real ---- *)
Definition sgn (l a : nat) : C := RtoC (par (Z.of_nat a - Z.of_nat l)).
Lemma cubic_conj l T : (0 < l)%nat -> spherical_to_cubic l Triqs = Ok T -> forall i a, (i < 2 * l + 1)%nat -> (a < 2 * l + 1)%nat ->
  T i a = Cmult (sgn l a) (Cconj (T i (2 * l + 1 - 1 - a)%nat)).
Proof.
  intros Hl E. destruct l as [|[|[|[|l]]]]; [lia| | | |discriminate E].
  all: cbn [spherical_to_cubic] in E; injection E as <-; intros i a Hi Ha; down i; down a; apply injective_projections; cbn; ring.
Qed.
Lemma Cconj_mul (x y : C) : Cconj (Cmult x y) = Cmult (Cconj x) (Cconj y).
Proof. apply injective_projections; cbn; ring. Qed.
Lemma Cconj_conj (x : C) : Cconj (Cconj x) = x.
Proof. apply injective_projections; cbn; ring. Qed.
Lemma slater_rev l F a b c d : (a < 2 * l + 1)%nat -> (b < 2 * l + 1)%nat -> (c < 2 * l + 1)%nat -> (d < 2 * l + 1)%nat ->
  slater_spherical l F a b c d = slater_spherical l F (2 * l + 1 - 1 - a) (2 * l + 1 - 1 - b) (2 * l + 1 - 1 - c) (2 * l + 1 - 1 - d).
Proof.
  intros Ha Hb Hc Hd. rewrite !U_z. f_equal. rewrite <- slater_z_neg. unfold zz. f_equal; lia.
Qed.
Lemma sgn_prod l F a b c d : Cmult (Cmult (Cmult (Cmult (sgn l a) (sgn l b)) (slater_spherical l F a b c d)) (sgn l c)) (sgn l d) = slater_spherical l F a b c d.
Proof.
  destruct (Nat.eq_dec (a + b) (c + d)) as [E|E].
  - unfold sgn. rewrite U_z. rewrite <- !RtoC_mult. f_equal. set (u := slater_z _ _ _ _ _ _).
    transitivity (par (Z.of_nat a - Z.of_nat l) * par (Z.of_nat b - Z.of_nat l) * (par (Z.of_nat c - Z.of_nat l) * par (Z.of_nat d - Z.of_nat l)) * u)%R; [ring|].
    assert (E1 : (par (Z.of_nat a - Z.of_nat l) * par (Z.of_nat b - Z.of_nat l) = par (Z.of_nat c - Z.of_nat l) * par (Z.of_nat d - Z.of_nat l))%R) by (rewrite <- !par_add; f_equal; lia).
    rewrite E1. transitivity ((par (Z.of_nat c - Z.of_nat l) * par (Z.of_nat c - Z.of_nat l)) * (par (Z.of_nat d - Z.of_nat l) * par (Z.of_nat d - Z.of_nat l)) * u)%R; [ring|]. rewrite !par_sq. ring.
  - rewrite (U_conserves l F a b c d E). apply injective_projections; cbn; ring.
Qed.
Lemma slater_real l F a b c d : Cconj (slater_spherical l F a b c d) = slater_spherical l F a b c d.
Proof. rewrite U_z. apply conj_R. Qed.
Definition csum4 (n : nat) (f : nat -> nat -> nat -> nat -> C) : C := csum_n n (fun a => csum_n n (fun b => csum_n n (fun c => csum_n n (fun d => f a b c d)))).
Lemma csum4_ext n f g : (forall a b c d, (a < n)%nat -> (b < n)%nat -> (c < n)%nat -> (d < n)%nat -> f a b c d = g a b c d) -> csum4 n f = csum4 n g.
Proof. intros H. unfold csum4. do 4 (apply csum_ext; intros ? ?). apply H; assumption. Qed.
Lemma csum4_rev n f : csum4 n (fun a b c d => f (n - 1 - a) (n - 1 - b) (n - 1 - c) (n - 1 - d))%nat = csum4 n f.
Proof.
  unfold csum4.
  rewrite (csum_rev n (fun a => csum_n n (fun b => csum_n n (fun c => csum_n n (fun d => f a (n - 1 - b) (n - 1 - c) (n - 1 - d)))))%nat). apply csum_ext. intros a _.
  rewrite (csum_rev n (fun b => csum_n n (fun c => csum_n n (fun d => f a b (n - 1 - c) (n - 1 - d))))%nat). apply csum_ext. intros b _.
  rewrite (csum_rev n (fun c => csum_n n (fun d => f a b c (n - 1 - d)))%nat). apply csum_ext. intros c _.
  exact (csum_rev n (fun d => f a b c d)).
Qed.
Lemma csum4_conj n f : Cconj (csum4 n f) = csum4 n (fun a b c d => Cconj (f a b c d)).
Proof. unfold csum4. rewrite csum_conj. apply csum_ext. intros a _. rewrite csum_conj. apply csum_ext. intros b _. rewrite csum_conj. apply csum_ext. intros c _. apply csum_conj. Qed.
Lemma C_move (s1 x1 s2 x2 u s3 x3 s4 x4 : C) : Cmult (Cmult (Cmult (Cmult (Cmult s1 x1) (Cmult s2 x2)) u) (Cmult s3 x3)) (Cmult s4 x4) =
  Cmult (Cmult (Cmult (Cmult x1 x2) (Cmult (Cmult (Cmult (Cmult s1 s2) u) s3) s4)) x3) x4.
Proof. ring. Qed.
Lemma cubic_real l T F : (0 < l)%nat -> spherical_to_cubic l Triqs = Ok T -> forall i j k m, (i < 2 * l + 1)%nat -> (j < 2 * l + 1)%nat -> (k < 2 * l + 1)%nat -> (m < 2 * l + 1)%nat ->
  Cconj (transform_U_matrix (2 * l + 1) (slater_spherical l F) T i j k m) = transform_U_matrix (2 * l + 1) (slater_spherical l F) T i j k m.
Proof.
  intros Hl E i j k m Hi Hj Hk Hm. pose proof (cubic_conj l T Hl E) as HT. clear E.
  set (G := fun a b c d => Cmult (Cmult (Cmult (Cmult (Cconj (T i a)) (Cconj (T j b))) (slater_spherical l F a b c d)) (T k c)) (T m d)).
  change (Cconj (csum4 (2 * l + 1) G) = csum4 (2 * l + 1) G). rewrite csum4_conj.
  etransitivity; [|exact (csum4_rev (2 * l + 1) G)]. apply csum4_ext. intros a b c d Ha Hb Hc Hd.
  unfold G. rewrite !Cconj_mul, !Cconj_conj, slater_real. rewrite <- slater_rev by assumption.
  rewrite (HT i a), (HT j b), (HT k c), (HT m d) by assumption.
  rewrite (Cconj_mul (sgn l c)), (Cconj_mul (sgn l d)), !Cconj_conj. unfold sgn at 3 4. rewrite !conj_R. fold (sgn l c) (sgn l d).
  rewrite C_move, sgn_prod. reflexivity.
Qed.
