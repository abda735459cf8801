(** Specification of block-wise operations, of the Dyson equation and of the sum over k points. *)
From Coq Require Import List Arith Bool.
From Verif Require Import Base Scalar PyGf PyGfSpec PyBlock.
Import ListNotations.

Section Spec.
  Context (S : scalar_ops).
  Local Open Scope K_scope.

  (** r has the blocks of b, in the same order, and each is what [f] says of it *)
  Definition blockwise (f : nat -> gf S -> gf S -> Prop) (b r : block S) : Prop :=
    Forall2 (fun x y => fst x = fst y /\ f (fst x) (snd x) (snd y)) b r.

  (** b is the inverse of the n x n matrix a *)
  Definition inverse_of (n : nat) (a b : nat -> nat -> S) : Prop :=
    forall i j, i < n -> j < n -> product S n a b i j = unit_matrix S i j /\ product S n b a i j = unit_matrix S i j.
  (** G0^-1 - G^-1 = Sigma *)
  Definition dyson_equation (n : nat) (G0 G Sigma : nat -> nat -> S) : Prop :=
    exists A B, inverse_of n G0 A /\ inverse_of n G B /\ forall i j, i < n -> j < n -> Sigma i j = A i j - B i j.

  (** what is subtracted as [field]; nothing if it is absent *)
  Definition field_value (v : option (val S)) (p : nat) : nat -> nat -> S :=
    match v with
    | None => fun _ _ => k0
    | Some (Num _ c) => fun i j => c * unit_matrix S i j
    | Some (Arr _ _ _ m) => m
    | Some (G _ g) => g_data S g p
    end.
  Definition field_fits (points : nat -> list S) (mesh n : nat) (v : option (val S)) : Prop :=
    match v with
    | Some (Arr _ a b _) => a = n /\ b = n
    | Some (G _ g) => on_mesh S points mesh (Some (n, n)) g
    | _ => True
    end.
  Definition sigma_value {K} (sg : sigma S K) (k : K) (e : nat -> nat -> S) : gf S := match sg with SigGf _ _ g => g | SigFun _ _ f => f k e end.
  (** sum over the k points of w (omega + mu - field - Sigma(k) - eps(k))^-1, at the frequency number p *)
  Definition k_sum {K} (minv : nat -> (nat -> nat -> S) -> (nat -> nat -> S)) (n : nat) (om mu : S) (field : option (val S)) (sg : sigma S K) (eps_hat : (nat -> nat -> S) -> (nat -> nat -> S))
                   (l : list (S * K * (nat -> nat -> S))) (p i j : nat) : S :=
    ksum (map (fun x => fst (fst x) * minv n (fun i j => (om + mu) * unit_matrix S i j - field_value field p i j - g_data S (sigma_value sg (snd (fst x)) (snd x)) p i j - eps_hat (snd x) i j) i j) l).
End Spec.
