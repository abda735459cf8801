(** Model of the arithmetic of block Green's functions (python/triqs/gf/block_gf.py:271-423), of dyson
    (python/triqs/gf/tools.py:95-118) and of the sum over k points (python/triqs/sumk/sumk_discrete.py:73-166).

    A BlockGf is a list of names (numbers) and Green's functions of PyGf.v.  Simplification: when a block
    throws, the blocks before it have been changed in the code; the model only says that it throws. *)
From Coq Require Import ZArith List Arith Bool.
From Verif Require Import Base Scalar MpiSlice PyGf.
Import ListNotations.

Section PyBlock.
  Context (S : scalar_ops).
  Local Open Scope K_scope.
  Variable kinv : S -> S.
  Variable minv : nat -> (nat -> nat -> S) -> (nat -> nat -> S).
  Variable kind : nat -> mesh_kind.
  Variable points : nat -> list S.

  Definition block : Type := list (nat * gf S).
  (** block_gf.py:271-276 *)
  Fixpoint get (b : block) (n : nat) : res (gf S) :=
    match b with
    | [] => Throw
    | (m, g) :: b' => if n =? m then Ok g else get b' n
    end.
  (** the right operand: a BlockGf, a list, a number or array, a lazy expression *)
  Inductive arg : Type := ABlock (b : block) | AList (l : list (val S)) | AVal (v : val S) | ALazy (e : lazy S).

  (** for (n,g) in self: ... *)
  Fixpoint each (f : nat -> gf S -> res (gf S)) (b : block) : res block :=
    match b with
    | [] => Ok []
    | (n, g) :: b' => do g' <- f n g ; do r <- each f b' ; Ok ((n, g') :: r)
    end.
  Fixpoint each_list (f : gf S -> val S -> res (gf S)) (b : block) (l : list (val S)) : res block :=
    match b, l with
    | [], [] => Ok []
    | (n, g) :: b', v :: l' => do g' <- f g v ; do r <- each_list f b' l' ; Ok ((n, g') :: r)
    | _, _ => Throw
    end.
  (** block_gf.py:306-314 and 323-331 : += and -=.  For a lazy expression g += arg only binds the loop
      variable (gf.py:427, 451), so that nothing changes. *)
  Definition bl_inplace (op : S -> S -> S) (b : block) (a : arg) : res block :=
    match a with
    | ABlock c => each (fun n g => do h <- get c n ; inplace S kind op g (G S h)) b
    | AList l => if length l =? length b then each_list (inplace S kind op) b l else Throw
    | AVal v => each (fun _ g => inplace S kind op g v) b
    | ALazy _ => Ok b
    end.
  (** block_gf.py:343-348 : *=.  The same holds for lazy expressions (gf.py:478). *)
  Definition bl_imul (b : block) (a : arg) : res block :=
    match a with
    | ABlock c => each (fun n g => do h <- get c n ; imatmul S g (G S h)) b
    | AList _ => Throw
    | AVal v => each (fun _ g => imatmul S g v) b
    | ALazy _ => Ok b
    end.
  (** block_gf.py:316-321, 333-341, 350-363, 373-376 *)
  Definition bl_add (b : block) (a : arg) : res block := bl_inplace kadd b a.
  Definition bl_radd (a : arg) (b : block) : res block := bl_add b a.
  Definition bl_sub (b : block) (a : arg) : res block := bl_inplace ksub b a.
  Definition bl_mul (b : block) (a : arg) : res block :=
    match a with
    | ABlock c => each (fun n g => do h <- get c n ; matmul S g (G S h)) b
    | _ => bl_imul b a
    end.
  Definition bl_rmul (a : arg) (b : block) : res block := bl_mul b a.
  Definition bl_rsub (a : arg) (b : block) : res block := do c <- bl_mul b (AVal (Num S (- k1))) ; bl_inplace kadd c a.
  Definition bl_div (b : block) (c : S) : res block := each (fun _ g => Ok (scale S (kinv c) g)) b.
  (** block_gf.py:420-423 *)
  Definition gf_inverse (g : gf S) : res (gf S) :=
    do v <- inverse S kinv minv (G S g) ; match v with G _ h => Ok h | _ => Throw end.
  Definition bl_inverse (b : block) : res block := each (fun _ g => gf_inverse g) b.

  (** tools.py:95-118 : exactly two of the three arguments *)
  Definition dyson (G0 Gi Sigma : option (gf S)) : res (gf S) :=
    match G0, Gi, Sigma with
    | None, Some g, Some s => do a <- gf_inverse g ; do b <- inplace S kind kadd s (G S a) ; gf_inverse b
    | Some g0, None, Some s => do a <- gf_inverse g0 ; do b <- inplace S kind ksub a (G S s) ; gf_inverse b
    | Some g0, Some g, None => do a <- gf_inverse g0 ; do b <- gf_inverse g ; inplace S kind ksub a (G S b)
    | _, _, _ => Throw
    end.

  (** sumk_discrete.py:73-166, for one block.  [K] is the type of k points; a matrix is (rows, columns, elements). *)
  Section Sumk.
    Variable K : Type.
    Inductive sigma : Type := SigGf (g : gf S) | SigFun (f : K -> (nat -> nat -> S) -> gf S).
    (** lines 149-161 : one k point *)
    Definition k_step (eps_hat : (nat -> nat -> S) -> (nat -> nat -> S)) (sg : sigma) (no : nat) (mu : S) (tmp : gf S) (acc : res (gf S)) (x : S * K * (nat -> nat -> S)) : res (gf S) :=
      do a <- acc ;
      let '(w, k, eps_k) := x in
      do t1 <- inplace S kind ksub tmp (Arr S no no (fun i j => eps_hat eps_k i j - mu * delta S i j)) ;
      do t2 <- match sg with SigGf _ => Ok t1 | SigFun f => inplace S kind ksub t1 (G S (f k eps_k)) end ;
      do t3 <- gf_inverse t2 ;
      do t4 <- imatmul S t3 (Num S w) ;
      inplace S kind kadd a (G S t4).
    (** line 141 : G.zero() *)
    Definition zero (g : gf S) : gf S := with_data S g (fun _ _ _ => k0).
    (** lines 126-161 on one rank.  [model] is the shape of the result, [no_eps] the dimension of the
        matrices eps_hat(eps_k); [aliased]: the argument [result] is the object Sigma, which is set to zero
        before it is subtracted. *)
    Definition sumk_rank (size rank : Z) (eps_hat : (nat -> nat -> S) -> (nat -> nat -> S)) (no_eps : nat) (aliased : bool) (sg : sigma) (mu : S) (field : option (val S)) (model : gf S)
                         (w : list S) (k : list K) (hop : list (nat -> nat -> S)) : res (gf S) :=
      match g_shape S model with
      | Some (no, no') =>
        if (no =? no_eps) && (no' =? no_eps) then
          do t0 <- describe S kind points (DOmega S) (zero model) ;
          do t1 <- match field with None => Ok t0 | Some v => inplace S kind ksub t0 v end ;
          do t2 <- match sg with SigGf s => inplace S kind ksub t1 (G S (if aliased then zero s else s)) | SigFun _ => Ok t1 end ;
          fold_left (k_step eps_hat sg no mu t2) (combine (combine (slice_array size rank w) (slice_array size rank k)) (slice_array size rank hop)) (Ok (zero model))
        else Throw
      | None => Throw
      end.
    (** line 163 : all_reduce adds the data of the ranks *)
    Definition add_data (r : res (gf S)) (x : res (gf S)) : res (gf S) :=
      do a <- r ; do b <- x ; Ok (with_data S a (fun p i j => g_data S a p i j + g_data S b p i j)).
    Definition sumk (size : Z) eps_hat no_eps aliased sg mu field (model : gf S) w k hop : res (gf S) :=
      fold_left add_data (map (fun r => sumk_rank size (Z.of_nat r) eps_hat no_eps aliased sg mu field model w k hop) (seq 0 (Z.to_nat size))) (Ok (zero model)).
  End Sumk.
End PyBlock.
