(** Proofs: unitary changes of basis of matrices and interaction tensors. *)
From Coq Require Import ZArith String List Bool Reals Lia Lra Setoid Morphisms Ring.
From Coquelicot Require Import Complex.
From Verif Require Import Base Indices Scalar Fock OpModel OpExpr Op_proofs RealAtom UMatrix OpUtil OpUtilSpec OpAlg OpBody
  OpUtil_base OpUtil_ham OpUtil_phys UMatrix_proofs UMatrix_inv OpUtil_L.
Import ListNotations.

Section Rot.
  Add Ring KringR : (sl_ring CS CS_laws).
  Local Open Scope K_scope.
  Notation L := CS_laws.
  Notation Sm := (Sm CS).
  Context (n : nat) (T : nat -> nat -> C).
  Notation sq := (seq 0 n).
  Definition cT (i j : nat) : CS := Cconj (T i j).
  Definition tT (i j : nat) : CS := T i j.
  Hypothesis HU : unitary n T.
  Lemma HU' j k : (j < n)%nat -> (k < n)%nat -> Sm sq (fun b => cT b j * tT b k) = if (j =? k)%nat then k1 else k0.
  Proof. intros Hj Hk. specialize (HU j k Hj Hk). rewrite (csum_Sm n) in HU. exact HU. Qed.

  Definition A (v : nat -> CS) (i : nat) : CS := Sm sq (fun j => cT i j * v j).
  Definition B (v : nat -> CS) (i : nat) : CS := Sm sq (fun j => v j * tT i j).
  Lemma A_ext v w i : (forall j, (j < n)%nat -> v j = w j) -> A v i = A w i.
  Proof. intros H. apply (sq_ext n). intros j Hj. rewrite H by exact Hj. reflexivity. Qed.
  Lemma B_ext v w i : (forall j, (j < n)%nat -> v j = w j) -> B v i = B w i.
  Proof. intros H. apply (sq_ext n). intros j Hj. rewrite H by exact Hj. reflexivity. Qed.
  Lemma A_add v w i : A v i + A w i = A (fun j => v j + w j) i.
  Proof. unfold A. rewrite <- (Sm_add CS L). apply Sm_ext. intros. ring. Qed.
  Lemma B_add v w i : B v i + B w i = B (fun j => v j + w j) i.
  Proof. unfold B. rewrite <- (Sm_add CS L). apply Sm_ext. intros. ring. Qed.
  Lemma linA (c : nat -> CS) (w : nat -> nat -> CS) i : Sm sq (fun y => c y * A (w y) i) = A (fun j => Sm sq (fun y => c y * w y j)) i.
  Proof.
    unfold A. transitivity (Sm sq (fun y => Sm sq (fun j => cT i j * (c y * w y j)))).
    - apply Sm_ext. intros y _. rewrite <- (Sm_mul_l CS L). apply Sm_ext. intros. ring.
    - rewrite (Sm_swap CS L). apply Sm_ext. intros j _. rewrite <- (Sm_mul_l CS L). reflexivity.
  Qed.
  Lemma linA' (c : nat -> CS) (w : nat -> nat -> CS) i : Sm sq (fun y => A (w y) i * c y) = A (fun j => Sm sq (fun y => w y j * c y)) i.
  Proof.
    transitivity (Sm sq (fun y => c y * A (w y) i)); [apply Sm_ext; intros; ring|]. rewrite linA. apply A_ext. intros. apply Sm_ext. intros. ring.
  Qed.
  Lemma linB (c : nat -> CS) (w : nat -> nat -> CS) i : Sm sq (fun y => c y * B (w y) i) = B (fun j => Sm sq (fun y => c y * w y j)) i.
  Proof.
    unfold B. transitivity (Sm sq (fun y => Sm sq (fun j => (c y * w y j) * tT i j))).
    - apply Sm_ext. intros y _. rewrite <- (Sm_mul_l CS L). apply Sm_ext. intros. ring.
    - rewrite (Sm_swap CS L). apply Sm_ext. intros j _. rewrite <- (Sm_mul_r CS L). reflexivity.
  Qed.
  Lemma linB' (c : nat -> CS) (w : nat -> nat -> CS) i : Sm sq (fun y => B (w y) i * c y) = B (fun j => Sm sq (fun y => w y j * c y)) i.
  Proof.
    transitivity (Sm sq (fun y => c y * B (w y) i)); [apply Sm_ext; intros; ring|]. rewrite linB. apply B_ext. intros. apply Sm_ext. intros. ring.
  Qed.
  Lemma BA v w : Sm sq (fun b => B v b * A w b) = Sm sq (fun k => v k * w k).
  Proof.
    transitivity (Sm sq (fun b => Sm sq (fun k => Sm sq (fun j => v k * w j * (cT b j * tT b k))))).
    - apply Sm_ext. intros b _. unfold B. rewrite <- (Sm_mul_r CS L). apply Sm_ext. intros k _. unfold A. rewrite <- (Sm_mul_l CS L). apply Sm_ext. intros. ring.
    - rewrite (Sm_swap CS L). apply (sq_ext n). intros k Hk. rewrite (Sm_swap CS L).
      rewrite (sq_single n k); [|exact Hk|].
      + rewrite (Sm_mul_l CS L), HU', Nat.eqb_refl by assumption. ring.
      + intros j Hj Hne. rewrite (Sm_mul_l CS L), HU' by assumption. destruct (Nat.eqb_spec j k); [contradiction|ring].
  Qed.
  Lemma rotate_AB (X : nat -> nat -> C) i l : (rotate n T X i l : CS) = A (fun j => B (fun k => X j k) l) i.
  Proof.
    unfold rotate. rewrite (csum_Sm n). apply Sm_ext. intros j _. rewrite (csum_Sm n). unfold B. rewrite <- (Sm_mul_l CS L).
    apply Sm_ext. intros k _. change (cT i j * (X j k : CS) * tT l k = cT i j * ((X j k : CS) * tT l k)). ring.
  Qed.
  Lemma act1 (M : nat -> nat -> C) w i : Sm sq (fun b => (rotate n T M i b : CS) * A w b) = A (fun j => Sm sq (fun y => (M j y : CS) * w y)) i.
  Proof.
    transitivity (Sm sq (fun b => A (fun j => B (fun k => M j k) b) i * A w b)); [apply Sm_ext; intros b _; rewrite rotate_AB; reflexivity|].
    rewrite (linA' (fun b => A w b) (fun b j => B (fun k => M j k) b) i). apply A_ext. intros j _. rewrite BA. reflexivity.
  Qed.
  Lemma act3 (M : nat -> nat -> C) w k : Sm sq (fun b => B w b * (rotate n T M b k : CS)) = B (fun x => Sm sq (fun y => w y * (M y x : CS))) k.
  Proof.
    transitivity (Sm sq (fun b => B w b * A (fun j => B (fun x => M j x) k) b)); [apply Sm_ext; intros b _; rewrite rotate_AB; reflexivity|].
    rewrite BA, linB. reflexivity.
  Qed.
  Lemma rotate_mul (M M' : nat -> nat -> C) o o' :
    Sm sq (fun b => (rotate n T M o b : CS) * (rotate n T M' b o' : CS)) = rotate n T (fun j k => Sm sq (fun b => (M j b : CS) * (M' b k : CS))) o o'.
  Proof.
    transitivity (Sm sq (fun b => (rotate n T M o b : CS) * A (fun j => B (fun k => M' j k) o') b)); [apply Sm_ext; intros b _; rewrite (rotate_AB M'); reflexivity|].
    rewrite act1, rotate_AB. apply A_ext. intros j _. rewrite linB. reflexivity.
  Qed.
  Lemma rotate_ext (M M' : nat -> nat -> C) o o' : (forall j k, (j < n)%nat -> (k < n)%nat -> M j k = M' j k) -> rotate n T M o o' = rotate n T M' o o'.
  Proof.
    intros H. change ((rotate n T M o o' : CS) = rotate n T M' o o'). rewrite !rotate_AB. apply A_ext. intros j Hj. apply B_ext. intros k Hk. exact (H j k Hj Hk).
  Qed.
  Lemma rotate_lin (x y : CS) (M M' : nat -> nat -> C) o o' :
    (rotate n T (fun j k => x * (M j k : CS) + y * (M' j k : CS)) o o' : CS) = x * (rotate n T M o o' : CS) + y * (rotate n T M' o o' : CS).
  Proof.
    rewrite !rotate_AB. unfold A. rewrite <- !(Sm_mul_l CS L), <- (Sm_add CS L). apply Sm_ext. intros j _. unfold B.
    transitivity (cT o j * (Sm sq (fun k => x * ((M j k : CS) * tT o' k)) + Sm sq (fun k => y * ((M' j k : CS) * tT o' k)))).
    - rewrite <- (Sm_add CS L). f_equal. apply Sm_ext. intros. ring.
    - rewrite !(Sm_mul_l CS L). ring.
  Qed.
  Lemma rotate_comm (M M' : nat -> nat -> C) o o' : (o < n)%nat -> (o' < n)%nat ->
    mcomm n (rotate n T M) (rotate n T M') o o' = rotate n T (mcomm n M M') o o'.
  Proof.
    intros Ho Ho'. unfold mcomm. rewrite (Sm_sub CS L), !rotate_mul.
    set (P := fun j k => Sm sq (fun b => (M j b : CS) * (M' b k : CS))). set (Q := fun j k => Sm sq (fun b => (M' j b : CS) * (M b k : CS))).
    transitivity (k1 * (rotate n T P o o' : CS) + (- k1) * (rotate n T Q o o' : CS)); [ring|].
    rewrite <- rotate_lin. apply rotate_ext. intros j k _ _. unfold P, Q.
    transitivity (Sm sq (fun b => (M j b : CS) * (M' b k : CS)) - Sm sq (fun b => (M' j b : CS) * (M b k : CS))); [|symmetry; apply (Sm_sub CS L)].
    generalize (Sm sq (fun b => (M j b : CS) * (M' b k : CS))) (Sm sq (fun b => (M' j b : CS) * (M b k : CS))). intros u v.
    match goal with |- ?a = ?b => change (@eq (K CS) a b) end. ring.
  Qed.
  Lemma csum_conj (f : nat -> C) : Cconj (csum_n n f) = csum_n n (fun j => Cconj (f j)).
  Proof.
    unfold csum_n. induction sq as [|a q IH]; cbn [fold_right].
    - unfold Cconj, RtoC. cbn. f_equal. ring.
    - rewrite <- IH. unfold Cconj, Cplus. cbn. f_equal. ring.
  Qed.
  Lemma csum_ext (f g : nat -> C) : (forall j, (j < n)%nat -> f j = g j) -> csum_n n f = csum_n n g.
  Proof.
    intros H. transitivity (Sm sq (fun j => (f j : CS))); [exact (csum_Sm n f)|]. transitivity (Sm sq (fun j => (g j : CS))); [|symmetry; exact (csum_Sm n g)].
    apply (sq_ext n). exact H.
  Qed.
  Lemma csum_swap (f : nat -> nat -> C) : csum_n n (fun j => csum_n n (fun k => f j k)) = csum_n n (fun k => csum_n n (fun j => f j k)).
  Proof.
    transitivity (Sm sq (fun j => Sm sq (fun k => (f j k : CS)))).
    - etransitivity; [exact (csum_Sm n _)|]. apply (sq_ext n). intros j _. exact (csum_Sm n _).
    - transitivity (Sm sq (fun k => Sm sq (fun j => (f j k : CS)))); [apply (Sm_swap CS L)|]. symmetry.
      etransitivity; [exact (csum_Sm n _)|]. apply (sq_ext n). intros j _. exact (csum_Sm n _).
  Qed.
  Lemma rotate_dag (M : nat -> nat -> C) o o' : Cconj (rotate n T M o' o) = rotate n T (fun j k => Cconj (M k j)) o o'.
  Proof.
    unfold rotate. rewrite csum_conj, (csum_swap (fun j k => Cmult (Cmult (Cconj (T o j)) (Cconj (M k j))) (T o' k))).
    apply csum_ext. intros j _. rewrite csum_conj. apply csum_ext. intros k _. unfold Cconj, Cmult. cbn. f_equal; ring.
  Qed.

  (** ---- tensors ---- *)
  Lemma transform_AB (U : tensor4) i j k l :
    (transform_U_matrix n U T i j k l : CS) = A (fun a => A (fun b => B (fun c => B (fun d => U a b c d) l) k) j) i.
  Proof.
    unfold transform_U_matrix. rewrite (csum_Sm n). apply Sm_ext. intros a _. rewrite (csum_Sm n). unfold A. rewrite <- (Sm_mul_l CS L).
    apply Sm_ext. intros b _. rewrite (csum_Sm n). unfold B. rewrite <- !(Sm_mul_l CS L). apply Sm_ext. intros c _. rewrite (csum_Sm n).
    rewrite <- (Sm_mul_r CS L), <- !(Sm_mul_l CS L). apply Sm_ext. intros d _.
    change (cT i a * cT j b * (U a b c d : CS) * tT k c * tT l d = cT i a * (cT j b * ((U a b c d : CS) * tT l d * tT k c))). ring.
  Qed.
  Lemma transform_ext (U V : tensor4) i j k l :
    (forall a b c d, (a < n)%nat -> (b < n)%nat -> (c < n)%nat -> (d < n)%nat -> U a b c d = V a b c d) ->
    transform_U_matrix n U T i j k l = transform_U_matrix n V T i j k l.
  Proof.
    intros H. change ((transform_U_matrix n U T i j k l : CS) = transform_U_matrix n V T i j k l). rewrite !transform_AB.
    apply A_ext. intros a Ha. apply A_ext. intros b Hb. apply B_ext. intros c Hc. apply B_ext. intros d Hd. exact (H a b c d Ha Hb Hc Hd).
  Qed.
  Lemma transform_add (U V : tensor4) i j k l :
    (transform_U_matrix n U T i j k l : CS) + (transform_U_matrix n V T i j k l : CS) = transform_U_matrix n (fun a b c d => (U a b c d : CS) + (V a b c d : CS)) T i j k l.
  Proof.
    rewrite !transform_AB, A_add. apply A_ext. intros a _. rewrite A_add. apply A_ext. intros b _. rewrite B_add. apply B_ext. intros c _. apply B_add.
  Qed.
  Lemma transform_invariant M U : invariant_under n M U -> invariant_under n (rotate n T M) (transform_U_matrix n U T).
  Proof.
    intros H i j k l Hi Hj Hk Hl.
    transitivity ((transform_U_matrix n (fun a b c d => Sm sq (fun y => (M a y : CS) * (U y b c d : CS))) T i j k l : CS) +
                  (transform_U_matrix n (fun a b c d => Sm sq (fun y => (M b y : CS) * (U a y c d : CS))) T i j k l : CS)).
    - f_equal.
      + rewrite transform_AB.
        transitivity (Sm sq (fun b => (rotate n T M i b : CS) * A (fun a => A (fun b => B (fun c => B (fun d => U a b c d) l) k) j) b)); [apply Sm_ext; intros; rewrite transform_AB; reflexivity|].
        rewrite act1. apply A_ext. intros a _. rewrite linA. apply A_ext. intros b _. rewrite linB. apply B_ext. intros c _. rewrite linB. reflexivity.
      + rewrite transform_AB.
        transitivity (Sm sq (fun b0 => (rotate n T M j b0 : CS) * A (fun a => A (fun b => B (fun c => B (fun d => U a b c d) l) k) b0) i)); [apply Sm_ext; intros; rewrite transform_AB; reflexivity|].
        rewrite (linA (fun b0 => rotate n T M j b0) (fun b0 a => A (fun b => B (fun c => B (fun d => U a b c d) l) k) b0)). apply A_ext. intros a _. rewrite act1.
        apply A_ext. intros b _. rewrite linB. apply B_ext. intros c _. rewrite linB. reflexivity.
    - transitivity ((transform_U_matrix n (fun a b c d => Sm sq (fun y => (U a b y d : CS) * (M y c : CS))) T i j k l : CS) +
                    (transform_U_matrix n (fun a b c d => Sm sq (fun y => (U a b c y : CS) * (M y d : CS))) T i j k l : CS)).
      + rewrite !transform_add. apply transform_ext. intros a b c d Ha Hb Hc Hd. exact (H a b c d Ha Hb Hc Hd).
      + symmetry. f_equal.
        * rewrite transform_AB.
          transitivity (Sm sq (fun b0 => A (fun a => A (fun b => B (fun c => B (fun d => U a b c d) l) b0) j) i * (rotate n T M b0 k : CS))); [apply Sm_ext; intros; rewrite transform_AB; reflexivity|].
          rewrite (linA' (fun b0 => rotate n T M b0 k) (fun b0 a => A (fun b => B (fun c => B (fun d => U a b c d) l) b0) j)). apply A_ext. intros a _.
          rewrite (linA' (fun b0 => rotate n T M b0 k) (fun b0 b => B (fun c => B (fun d => U a b c d) l) b0)). apply A_ext. intros b _.
          rewrite act3. apply B_ext. intros c _. rewrite linB'. reflexivity.
        * rewrite transform_AB.
          transitivity (Sm sq (fun b0 => A (fun a => A (fun b => B (fun c => B (fun d => U a b c d) b0) k) j) i * (rotate n T M b0 l : CS))); [apply Sm_ext; intros; rewrite transform_AB; reflexivity|].
          rewrite (linA' (fun b0 => rotate n T M b0 l) (fun b0 a => A (fun b => B (fun c => B (fun d => U a b c d) b0) k) j)). apply A_ext. intros a _.
          rewrite (linA' (fun b0 => rotate n T M b0 l) (fun b0 b => B (fun c => B (fun d => U a b c d) b0) k)). apply A_ext. intros b _.
          rewrite (linB' (fun b0 => rotate n T M b0 l) (fun b0 c => B (fun d => U a b c d) b0)). apply B_ext. intros c _. rewrite act3. reflexivity.
  Qed.
End Rot.
