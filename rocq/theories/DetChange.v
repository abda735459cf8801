(** Rank-two modification of a matrix: change of one row and/or one column. *)
From mathcomp Require Import all_ssreflect all_algebra.
From Verif Require Import Base FieldTac DetManip DetSpec DetLemmas DetStruct DetMove DetNum.
Set Implicit Arguments.
Unset Strict Implicit.
Unset Printing Implicit Defensive.
Import GRing.Theory.
Local Open Scope ring_scope.

Section Change.
Variables (F : fieldType).
Add Field Ff : (Fft F).
Implicit Types (g h w : nat -> F).

Lemma sumND n g h : sumN n (fun l => g l + h l) = sumN n g + sumN n h.
Proof. exact: big_split. Qed.
Lemma sumN_mull n c g : sumN n (fun l => c * g l) = c * sumN n g.
Proof. by rewrite /sumN mulr_sumr. Qed.
Lemma sumN_mulr n c g : sumN n (fun l => g l * c) = sumN n g * c.
Proof. by rewrite /sumN mulr_suml. Qed.
Lemma sumN_delta n j g : (j < n)%N -> sumN n (fun l => (l == j)%:R * g l) = g j.
Proof.
move=> Hj; rewrite /sumN (bigD1 (Ordinal Hj)) //= eqxx mul1r big1 ?addr0 // => l Hl.
by rewrite (_ : (l == j :> nat) = false) ?mul0r //; apply/negbTE; apply: contra Hl => /eqP E; apply/eqP/val_inj.
Qed.
Lemma sumN_swap n m (g : nat -> nat -> F) : sumN n (fun a => sumN m (fun b => g a b)) = sumN m (fun b => sumN n (fun a => g a b)).
Proof. exact: exchange_big. Qed.

Section Rank2.
Variables (n i j : nat) (A M : nat -> nat -> F) (u w : nat -> F).
Hypotheses (Hi : (i < n)%N) (Hj : (j < n)%N) (HM : fmx n n A *m fmx n n M = 1%:M).
Definition r2X a := sumN n (fun l => M a l * u l).
Definition r2Y b := sumN n (fun l => M l b * w l).
Definition r2Z := sumN n (fun l => w l * r2X l).
Definition r2D := (1 + r2X j) * (1 + r2Y i) - M j i * r2Z.
Definition r2A a b := A a b + u a * (b == j)%:R + (a == i)%:R * w b.
Definition r2M a b := M a b + (- (1 + r2Y i) / r2D * r2X a * M j b + - (1 + r2X j) / r2D * M a i * r2Y b
                      + M j i / r2D * r2X a * r2Y b + r2Z / r2D * M a i * M j b).

Lemma AMe p q : (p < n)%N -> (q < n)%N -> sumN n (fun l => A p l * M l q) = (p == q)%:R.
Proof. by move=> Hp Hq; move: HM; rewrite fmxM -fmx1 => /fmx_inj -> . Qed.
Lemma AX p : (p < n)%N -> sumN n (fun l => A p l * r2X l) = u p.
Proof.
move=> Hp; rewrite /r2X.
transitivity (sumN n (fun m => (m == p)%:R * u m)); last exact: sumN_delta.
transitivity (sumN n (fun l => sumN n (fun m => A p l * M l m * u m))).
  by apply: eq_sumN => l _; rewrite -sumN_mull; apply: eq_sumN => m _; rewrite mulrA.
rewrite sumN_swap; apply: eq_sumN => m Hm.
by rewrite sumN_mulr AMe // eq_sym.
Qed.
Lemma r2_inv : r2D != 0 -> fmx n n r2A *m fmx n n r2M = 1%:M.
Proof.
move=> HD; rewrite fmxM -fmx1; apply: eq_fmx => p q Hp Hq.
have L : forall G : nat -> F, sumN n (fun l => r2A p l * G l) = sumN n (fun l => A p l * G l) + u p * G j + (p == i)%:R * sumN n (fun l => w l * G l).
  move=> G; rewrite -(sumN_delta G Hj) -!sumN_mull -!sumND; apply: eq_sumN => l _.
  rewrite /r2A. set d1 := (l == j)%:R; set d2 := (p == i)%:R. fring F.
have Lin : forall (c : nat -> F), sumN n (fun l => c l * r2M l q) =
   sumN n (fun l => c l * M l q) + (- (1 + r2Y i) / r2D * M j q + M j i / r2D * r2Y q) * sumN n (fun l => c l * r2X l)
     + (- (1 + r2X j) / r2D * r2Y q + r2Z / r2D * M j q) * sumN n (fun l => c l * M l i).
  move=> c; rewrite -(sumN_mull n _ (fun l => c l * r2X l)) -(sumN_mull n _ (fun l => c l * M l i)) -!sumND.
  by apply: eq_sumN => l _; rewrite /r2M; fring F.
have Ew : forall b, sumN n (fun l => w l * M l b) = r2Y b by move=> b; apply: eq_sumN => l _; rewrite mulrC.
rewrite L !Lin AMe // AX // AMe // !Ew -/r2Z.
rewrite /r2M; move: HD; rewrite /r2D.
set d := (p == q)%:R; set e := (p == i)%:R.
move: (r2X j) (r2Y i) (r2Y q) (M j q) (M j i) r2Z (u p) => Xj Yi Yq Mjq Mji Z up HD.
ffield F.
Qed.
Lemma r2_det : nda_det n r2A = nda_det n A * r2D.
Proof.
pose P := fun a c : nat => if c == 0%N then u a else (a == i)%:R.
pose Q := fun c b : nat => if c == 0%N then (b == j)%:R else w b.
have E : fmx n n r2A = fmx n n A *m (1%:M + fmx n n M *m fmx n 2 P *m fmx 2 n Q).
  rewrite mulmxDr mulmx1 !mulmxA HM mul1mx fmxM fmxD; apply: eq_fmx => a b _ _.
  by rewrite /sumN !big_ord_recl big_ord0 /= addr0 addrA.
rewrite /nda_det E det_mulmx; congr (_ * _).
rewrite det_1PQ !mulmxA -mulmxA !fmxM -fmx1 fmxD.
have := @det_ksiE F 2%N (fun a b => (a == b)%:R + sumN n (fun l => Q a l * sumN n (fun m => M l m * P m b))).
rewrite /nda_det => <-; rewrite /det_ksi /= /P /Q /=.
have Ed : forall l, sumN n (fun m => M l m * (m == i)%:R) = M l i.
  by move=> l; rewrite -(sumN_delta (M l) Hi); apply: eq_sumN => m _; rewrite mulrC.
rewrite !(sumN_delta (fun l => sumN n (fun m => M l m * u m)) Hj) (sumN_delta (fun l => sumN n (fun m => M l m * (m == i)%:R)) Hj) !Ed.
rewrite (_ : sumN n (fun l => w l * sumN n (fun m => M l m * (m == i)%:R)) = r2Y i); last first.
  by apply: eq_sumN => l _; rewrite Ed mulrC.
by rewrite -/r2Z /r2D -/(r2X j) !add0r (mulrC r2Z).
Qed.
End Rank2.
End Change.
