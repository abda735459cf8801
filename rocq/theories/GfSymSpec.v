(** Specification vocabulary for Matsubara functions on a mesh. *)
From Coq Require Import ZArith Reals List Bool.
From Verif Require Import Base Scalar Matsubara GfSym.
Import ListNotations.
Local Open Scope Z_scope.

(** index of the frequency -w : w = (2n+1) pi / beta for fermions, 2n pi / beta for bosons *)
Definition opposite (s : statistic) (n : Z) : Z := match s with Fermion => - n - 1 | Boson => - n end.

Section Spec.
  Context (S : scalar_ops).
  (** a Green function: at least one positive frequency, one element per mesh point *)
  Definition complete (g : gfiw S) : Prop := 1 <= if_n (g_mesh S g) /\ Z.of_nat (length (g_data S g)) = if_size (g_mesh S g).
  (** n is the index of a frequency of the mesh *)
  Definition on_mesh (g : gfiw S) (n : Z) : Prop := if_first (g_mesh S g) <= n <= if_last (g_mesh S g).
  Definition zero : tgt S := fun _ => k0.
  (** G(i w_n)_q *)
  Definition value (g : gfiw S) (n : Z) (q : list nat) : S :=
    nth (Z.to_nat (n - if_first (g_mesh S g))) (g_data S g) zero q.
  (** q is a subscript of an array of this shape *)
  Definition subscript (sh q : list nat) : Prop := Forall2 (fun n i => (i < n)%nat) sh q.
  (** same mesh and target shape *)
  Definition alike (g g' : gfiw S) : Prop := g_mesh S g = g_mesh S g' /\ g_sh S g = g_sh S g' /\ length (g_data S g) = length (g_data S g').
End Spec.

(** target subscripts exchanged: the second half first.  (i,j) -> (j,i), (i,j,k,l) -> (k,l,i,j) *)
Definition exchange (q : list nat) : list nat := skipn (length q / 2) q ++ firstn (length q / 2) q.
(** scalar, matrix or rank four target, of equal left and right dimensions *)
Definition square_target (sh : list nat) : Prop := (length sh = 0 \/ length sh = 2 \/ length sh = 4)%nat /\ exchange sh = sh.
