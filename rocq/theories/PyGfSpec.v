(** What an expression of Green's functions means: a matrix for each point of the mesh. *)
From Coq Require Import List Arith Bool.
From Verif Require Import Base Scalar PyGf.
Import ListNotations.

Section Spec.
  Context (S : scalar_ops).
  Local Open Scope K_scope.
  Variable kinv : S -> S.
  Variable minv : nat -> (nat -> nat -> S) -> (nat -> nat -> S).
  Variable points : nat -> list S.
  (** the mesh, the dimension of the matrices (1 for a scalar function) and the shape of the target *)
  Variable mesh n : nat.
  Variable sh : option (nat * nat).

  Definition unit_matrix (i j : nat) : S := if i =? j then k1 else k0.
  Definition product (a b : nat -> nat -> S) (i j : nat) : S := ksum (map (fun k => a i k * b k j) (seq 0 n)).

  (** the Green's functions on the mesh with the shape *)
  Definition on_mesh (g : gf S) : Prop := g_mesh S g = mesh /\ g_len S g = length (points mesh) /\ g_shape S g = sh.

  (** the value of a descriptor at a frequency *)
  Definition desc_value (d : desc S) (om : S) : nat -> nat -> S :=
    match d with
    | DOmega _ => fun i j => om * unit_matrix i j
    | DConst _ (Num _ c) => fun i j => c * unit_matrix i j
    | DConst _ v => read S v
    | DFun _ f => read S (f sh om)
    end.
  (** a number stands for that multiple of the unit matrix *)
  Fixpoint value (e : uexpr S) (p : nat) : nat -> nat -> S :=
    match e with
    | UVal _ (Num _ c) => fun i j => c * unit_matrix i j
    | UVal _ (Arr _ _ _ m) => m
    | UVal _ (G _ g) => g_data S g p
    | UDesc _ d => desc_value d (nth p (points mesh) k0)
    | UBin _ OpAdd a b => fun i j => value a p i j + value b p i j
    | UBin _ OpSub a b => fun i j => value a p i j - value b p i j
    | UBin _ OpMul a b => product (value a p) (value b p)
    | UBin _ OpDiv a b => fun i j => value a p i j * kinv (value b p 0 0)
    | UInv _ a => minv n (value a p)
    end.

  (** The expressions covered: the Green's functions have the mesh and shape of the result, arrays its
      shape; sums, differences and products, divisions by numbers, inverses; but: an array may not be
      combined with a number or an array, nor stand to the left of an expression with a descriptor, and
      a Green's function (without descriptor) may not be multiplied from the right by one with. *)
  Inductive form : Type := FNum | FArr | FGf | FLazy.
  Definition combine (op : binop) (x y : form) : option form :=
    match op, x, y with
    | OpDiv, FNum, FNum => Some FNum
    | OpDiv, FGf, FNum => Some FGf
    | OpDiv, FLazy, FNum => Some FLazy
    | OpDiv, _, _ => None
    | _, FNum, FNum => Some FNum
    | _, FNum, FArr | _, FArr, FNum | _, FArr, FArr => None
    | _, FArr, FLazy => None
    | OpMul, FGf, FLazy => None
    | _, FLazy, _ => Some FLazy
    | _, _, FLazy => Some FLazy
    | _, _, _ => Some FGf
    end.
  Inductive covered : uexpr S -> form -> Prop :=
  | cov_num c : covered (UVal S (Num S c)) FNum
  | cov_arr m : sh = Some (n, n) -> covered (UVal S (Arr S n n m)) FArr
  | cov_gf g : on_mesh g -> covered (UVal S (G S g)) FGf
  | cov_omega : covered (UDesc S (DOmega S)) FLazy
  | cov_fun f : (forall om, In om (points mesh) -> assignable S sh (f sh om) = true) -> covered (UDesc S (DFun S f)) FLazy
  | cov_bin op a b x y z : covered a x -> covered b y -> combine op x y = Some z -> covered (UBin S op a b) z
  | cov_inv a x : covered a x -> (x = FGf \/ x = FLazy) -> covered (UInv S a) x.
End Spec.
