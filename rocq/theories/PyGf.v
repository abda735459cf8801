(** Model of the arithmetic of Green's functions in Python and of lazy expressions
    (python/triqs/gf/gf.py:250-268, 382-405, 426-618; lazy_expressions.py:24-125; descriptor_base.py:42-138;
    tools.py:32-40).

    Green's functions of one mesh variable whose target has rank 0 or 2, with elements in any ring.
    A mesh is a number: two meshes compare equal if and only if they have the same number.  The
    elements are a function of the point and of two indices; for rank 0 only the indices 0, 0 count.
    numpy's broadcasting of arrays of different shapes is not modelled: such operations throw. *)
From Coq Require Import List Arith Bool.
From Verif Require Import Base Scalar.
Import ListNotations.

Inductive mesh_kind : Type := MeshImFreq | MeshDLRImFreq | MeshReFreq | MeshOther.
Definition mesh_freq (k : mesh_kind) : bool := match k with MeshOther => false | _ => true end.
(** wrapped_aux_desc.py:144-149 : the meshes for which g += scalar exists *)
Definition mesh_wrapped (k : mesh_kind) : bool := match k with MeshImFreq | MeshReFreq => true | _ => false end.

Section PyGf.
  Context (S : scalar_ops).
  Local Open Scope K_scope.
  (** 1 / x, and the inverse of a matrix of dimension n *)
  Variable kinv : S -> S.
  Variable minv : nat -> (nat -> nat -> S) -> (nat -> nat -> S).
  (** type and values of the meshes *)
  Variable kind : nat -> mesh_kind.
  Variable points : nat -> list S.

  Record gf : Type := mkGf { g_mesh : nat; g_len : nat; g_shape : option (nat * nat); g_data : nat -> nat -> nat -> S }.
  Inductive val : Type := Num (c : S) | Arr (a b : nat) (m : nat -> nat -> S) | G (g : gf).

  Definition delta (i j : nat) : S := if i =? j then k1 else k0.
  Definition with_data (g : gf) (d : nat -> nat -> nat -> S) : gf := mkGf (g_mesh g) (g_len g) (g_shape g) d.
  Definition shape_eqb (s t : option (nat * nat)) : bool :=
    match s, t with
    | None, None => true
    | Some (a, b), Some (c, d) => (a =? c) && (b =? d)
    | _, _ => false
    end.

  (** gf.py:262-267.  The mesh is copied before the shapes are compared. *)
  Definition copy_from (g h : gf) : gf * res unit :=
    let g' := mkGf (g_mesh h) (g_len g) (g_shape g) (g_data g) in
    if (g_len g =? g_len h) && shape_eqb (g_shape g) (g_shape h) then (with_data g' (g_data h), Ok tt) else (g', Throw).

  (** gf.py:426-439 and 450-463; [op] is the addition or the subtraction *)
  Definition inplace (op : S -> S -> S) (g : gf) (v : val) : res gf :=
    match v with
    | G h => if (g_mesh g =? g_mesh h) && (g_len g =? g_len h) && shape_eqb (g_shape g) (g_shape h)
             then Ok (with_data g (fun p i j => op (g_data g p i j) (g_data h p i j))) else Throw
    | Num c => match g_shape g with
               | None => Ok (with_data g (fun p i j => op (g_data g p i j) c))
               | Some _ => if mesh_wrapped (kind (g_mesh g)) then Ok (with_data g (fun p i j => op (g_data g p i j) (c * delta i j))) else Throw
               end
    | Arr a b m => match g_shape g with
                   | None => Throw
                   | Some (a', b') => if negb (mesh_wrapped (kind (g_mesh g))) then Throw
                                      else if (a =? a') && (b =? b') then Ok (with_data g (fun p i j => op (g_data g p i j) (m i j))) else UB
                   end
    end.
  Definition scale (c : S) (g : gf) : gf := with_data g (fun p i j => g_data g p i j * c).
  Definition dot (n : nat) (x y : nat -> S) : S := ksum (map (fun k => x k * y k) (seq 0 n)).

  (** gf.py:477-509.  The assertion of line 486 demands that the argument is not square. *)
  Definition imatmul (g : gf) (v : val) : res gf :=
    match v with
    | G h =>
      if negb (g_mesh g =? g_mesh h) then Throw else
      match g_shape g, g_shape h with
      | Some (a, b), Some (b', c) =>
        if b' =? c then Throw
        else if (b =? b') && (b =? c) && (g_len g =? g_len h)
             then Ok (with_data g (fun p i j => dot b (g_data g p i) (fun k => g_data h p k j))) else Throw
      | Some _, None => if g_len g =? g_len h then Ok (with_data g (fun p i j => g_data g p i j * g_data h p 0 0)) else Throw
      | None, None => if g_len g =? g_len h then Ok (with_data g (fun p i j => g_data g p i j * g_data h p i j)) else Throw
      | None, Some _ => Throw
      end
    | Num c => Ok (scale c g)
    | Arr a' c m =>
      match g_shape g with
      | Some (a, b) => if (b =? a') && (c =? b) then Ok (with_data g (fun p i j => dot b (g_data g p i) (fun k => m k j))) else Throw
      | None => Throw
      end
    end.
  (** gf.py:526-551 with the meshes of frequencies (lines 512-524) *)
  Definition matmul (g : gf) (v : val) : res gf :=
    match v with
    | G h =>
      if negb ((g_mesh g =? g_mesh h) && (g_len g =? g_len h)) then Throw else
      match g_shape g, g_shape h with
      | Some (a, b), Some (b', c) =>
        if b =? b' then Ok (mkGf (g_mesh g) (g_len g) (Some (a, c)) (fun p i j => dot b (g_data g p i) (fun k => g_data h p k j))) else Throw
      | None, None => Ok (with_data g (fun p i j => g_data g p i j * g_data h p i j))
      | Some _, None => Ok (with_data g (fun p i j => g_data g p i j * g_data h p 0 0))
      | None, Some s => Ok (mkGf (g_mesh g) (g_len g) (Some s) (fun p i j => g_data g p 0 0 * g_data h p i j))
      end
    | _ => imatmul g v
    end.
  (** gf.py:553-563 *)
  Definition rmatmul (v : val) (g : gf) : res gf :=
    match v with
    | Arr d e m => match g_shape g with
                   | Some (a, b) => if (e =? a) && (d =? a) then Ok (with_data g (fun p i j => dot e (m i) (fun k => g_data g p k j))) else Throw
                   | None => Throw
                   end
    | Num c => Ok (scale c g)
    | G _ => Throw
    end.

  Inductive binop : Type := OpAdd | OpSub | OpMul | OpDiv.
  (** The Python operators x op y.  Left operand a Green's function: __add__ ... (441-444, 465-468, 569-570, 580-583);
      right operand only: __radd__, __rsub__, __rmul__ (446, 470-473, 572-573), there is no __rtruediv__.
      Operations on two numbers are those of the ring; on two arrays they are not modelled. *)
  Definition py_binop (op : binop) (x y : val) : res val :=
    match op, x, y with
    | OpAdd, G g, _ => do r <- inplace kadd g y ; Ok (G r)
    | OpAdd, _, G g => do r <- inplace kadd g x ; Ok (G r)
    | OpSub, G g, _ => do r <- inplace ksub g y ; Ok (G r)
    | OpSub, _, G g => do r <- inplace kadd (scale (- k1) g) x ; Ok (G r)
    | OpMul, G g, _ => do r <- matmul g y ; Ok (G r)
    | OpMul, _, G g => do r <- rmatmul x g ; Ok (G r)
    | OpDiv, G g, Num c => Ok (G (scale (kinv c) g))
    | OpAdd, Num a, Num b => Ok (Num (a + b))
    | OpSub, Num a, Num b => Ok (Num (a - b))
    | OpMul, Num a, Num b => Ok (Num (a * b))
    | OpDiv, Num a, Num b => Ok (Num (a * kinv b))
    | _, _, _ => Throw
    end.
  (** gf.py:593-618, tools.py:32-40 *)
  Definition inverse (v : val) : res val :=
    match v with
    | G g => match g_shape g with
             | None => Ok (G (with_data g (fun p i j => kinv (g_data g p i j))))
             | Some (a, b) => if a =? b then Ok (G (with_data g (fun p => minv a (g_data g p)))) else Throw
             end
    | Num c => Ok (Num (kinv c))
    | Arr a b m => Ok (Arr a b (fun i j => kinv (m i j)))
    end.

  (** descriptor_base.py:85-138.  A DFun f is Function; f also gets the target shape, since the descriptors of
      descriptors.py build their identity from it. *)
  Inductive desc : Type := DOmega | DConst (v : val) | DFun (f : option (nat * nat) -> S -> val).
  (** res[n, ...] = value, for every point *)
  Definition assignable (sh : option (nat * nat)) (v : val) : bool :=
    match v, sh with
    | Num _, _ => true
    | Arr a b _, Some (a', b') => (a =? a') && (b =? b')
    | _, _ => false
    end.
  Definition read (v : val) (i j : nat) : S := match v with Num c => c | Arr _ _ m => m i j | G _ => k0 end.
  Definition fill (g : gf) (f : S -> val) : res gf :=
    if forallb (fun om => assignable (g_shape g) (f om)) (points (g_mesh g))
    then Ok (with_data g (fun p => read (f (nth p (points (g_mesh g)) k0)))) else Throw.
  Definition describe (d : desc) (g : gf) : res gf :=
    match d with
    | DFun f => fill g (f (g_shape g))
    | DOmega =>
      if negb (mesh_freq (kind (g_mesh g))) then Throw else
      match g_shape g with
      | None => fill g (fun om => Num om)
      | Some (a, _) => fill g (fun om => Arr a a (fun i j => om * delta i j))
      end
    | DConst v =>
      if negb (mesh_freq (kind (g_mesh g))) then Throw else
      match v, g_shape g with
      | Num c, Some (a, b) => if a =? b then fill g (fun _ => Arr a a (fun i j => c * delta i j)) else Throw
      | Arr a b _, Some (a', b') => if (a =? a') && (b =? b') then fill g (fun _ => v) else Throw
      | _, _ => fill g (fun _ => v)
      end
    end.

  (** lazy_expressions.py:48-58 : T is a terminal, F a function applied to an expression *)
  Inductive lazy : Type := T (v : val) | TD (d : desc) | Bin (op : binop) (a b : lazy) | F (f : val -> res val) (a : lazy).
  (** descriptor_base.py:50-64, lazy_expressions.py:116-125 *)
  Definition to_const (e : lazy) : lazy := match e with T (Num c) => TD (DConst (Num c)) | T (Arr a b m) => TD (DConst (Arr a b m)) | _ => e end.
  Fixpoint transform (e : lazy) : lazy :=
    match e with
    | T v => T v
    | TD d => TD d
    | Bin op a b => match op with
                    | OpAdd | OpSub => Bin op (to_const (transform a)) (to_const (transform b))
                    | _ => Bin op (transform a) (transform b)
                    end
    | F f a => F f (transform a)
    end.
  Definition convert_scalar_to_const (e : lazy) : lazy := match e with T (Num _) | T (Arr _ _ _) => to_const e | _ => transform e end.
  (** lazy_expressions.py:93-103 with the context of gf.py:393-397 *)
  Fixpoint eval_expr (self : gf) (e : lazy) : res val :=
    match e with
    | T v => Ok v
    | TD d => do g <- describe d self ; Ok (G g)
    | Bin op a b => do x <- eval_expr self a ; do y <- eval_expr self b ; py_binop op x y
    | F f a => do x <- eval_expr self a ; f x
    end.
  (** gf.py:391-398, 401-402 : self << expression; without a result self is unchanged *)
  Definition lshift (self : gf) (e : lazy) : gf * res unit :=
    match eval_expr self (convert_scalar_to_const e) with
    | Ok (G h) => copy_from self h
    | Ok _ => (self, Throw)
    | Throw => (self, Throw)
    | UB => (self, UB)
    end.
  (** gf.py:387-390 *)
  Definition lshift_gf (self h : gf) : gf * res unit := if g_mesh self =? g_mesh h then copy_from self h else (self, Throw).

  (** Expressions as they are written: the operands are evaluated first. *)
  Inductive uexpr : Type := UVal (v : val) | UDesc (d : desc) | UBin (op : binop) (a b : uexpr) | UInv (a : uexpr).
  Definition as_lazy (x : val + lazy) : lazy := match x with inl v => T v | inr l => l end.
  (** With a lazy operand on the left, or on the right of a number, the result is lazy (lazy_expressions.py:26-34).
      Green's function op lazy: + and - give a lazy expression (gf.py:427, 451); * throws (line 550), / too.
      array op lazy: numpy makes an array of lazy expressions, which can not be assigned: throws. *)
  Definition build_bin (op : binop) (x y : val + lazy) : res (val + lazy) :=
    match x, y with
    | inl u, inl v => do z <- py_binop op u v ; Ok (inl z)
    | inl (G g), inr l => match op with OpAdd | OpSub => Ok (inr (Bin op (T (G g)) l)) | _ => Throw end
    | inl (Arr _ _ _), inr _ => Throw
    | _, _ => Ok (inr (Bin op (as_lazy x) (as_lazy y)))
    end.
  Fixpoint build (e : uexpr) : res (val + lazy) :=
    match e with
    | UVal v => Ok (inl v)
    | UDesc d => Ok (inr (TD d))
    | UBin op a b => do x <- build a ; do y <- build b ; build_bin op x y
    | UInv a => do x <- build a ; match x with inl v => do w <- inverse v ; Ok (inl w) | inr l => Ok (inr (F inverse l)) end
    end.
  (** self << e *)
  Definition assign (self : gf) (e : uexpr) : gf * res unit :=
    match build e with
    | Ok (inl (G h)) => lshift_gf self h
    | Ok x => lshift self (as_lazy x)
    | Throw => (self, Throw)
    | UB => (self, UB)
    end.
End PyGf.
