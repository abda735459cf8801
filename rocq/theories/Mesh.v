(** Model of index maps of the meshes: c++/triqs/mesh/{discrete,legendre,cyclat,brzone,prod}.hpp,
    mesh/bases/linear.hpp, mesh/utils.hpp and mesh/k_expr.hpp.

    Simplification: [long] is Z without overflow (sizes below 2^62).  Every mesh index is
    represented as a list of integers: one integer for scalar meshes, three for the
    lattice meshes. *)
From Coq Require Import ZArith List Bool Lia.
From Verif Require Import Base.
Import ListNotations.
Local Open Scope Z_scope.

Definition idx : Type := list Z.

(** the part of the Mesh concept (mesh/concepts.hpp) about indices *)
Record mesh : Type := mkMesh {
  ms_size : Z;               (* size() *)
  ms_valid : idx -> bool;    (* is_index_valid *)
  ms_data : idx -> Z;        (* to_data_index *)
  ms_index : Z -> idx }.     (* to_index *)

(** every mesh iterates over data indices 0 .. size-1 (discrete.hpp:106-109 and the same
    code in the other meshes) *)
Definition ms_points (m : mesh) : list idx :=
  map (fun d => ms_index m (Z.of_nat d)) (seq 0 (Z.to_nat (ms_size m))).

(** discrete.hpp:69, 73-82 ; legendre.hpp:83-99 ; bases/linear.hpp:110, 117-133 *)
Definition range_valid (L : Z) (i : idx) : bool := match i with [x] => (0 <=? x) && (x <? L) | _ => false end.
Definition range_mesh (L : Z) : mesh :=
  mkMesh L (range_valid L) (fun i => match i with x :: _ => x | [] => 0 end) (fun d => [d]).

(** ---- cyclic meshes ---- *)
(** utils.hpp:50-53  positive_modulo ; % of C++ is Z.rem *)
Definition positive_modulo (r d : Z) : Z := let res := Z.rem r d in if 0 <=? res then res else res + d.

(** cyclat.hpp:37-41, 52-56 and brzone.hpp:39-43, 64-68 *)
Record cyc : Type := mkCyc { cy_d0 : Z; cy_d1 : Z; cy_d2 : Z }.
Definition cy_size (m : cyc) : Z := cy_d0 m * cy_d1 m * cy_d2 m.
Definition cy_stride1 (m : cyc) : Z := cy_d2 m.
Definition cy_stride0 (m : cyc) : Z := cy_d1 m * cy_d2 m.
(** cyclat.hpp:112-114, brzone.hpp:125-127 *)
Definition cy_modulo (m : cyc) (r : idx) : idx :=
  match r with
  | [a; b; c] => [positive_modulo a (cy_d0 m); positive_modulo b (cy_d1 m); positive_modulo c (cy_d2 m)]
  | _ => r
  end.
(** cyclat.hpp:145-149, brzone.hpp:182-186 *)
Definition cy_valid (m : cyc) (r : idx) : bool :=
  match r with
  | [a; b; c] => negb ((a <? 0) || (cy_d0 m <=? a)) && negb ((b <? 0) || (cy_d1 m <=? b)) && negb ((c <? 0) || (cy_d2 m <=? c))
  | _ => false
  end.
(** cyclat.hpp:153-156, brzone.hpp:190-193 *)
Definition cy_data (m : cyc) (r : idx) : Z :=
  match r with [a; b; c] => a * cy_stride0 m + b * cy_stride1 m + c | _ => 0 end.
(** cyclat.hpp:162-169, brzone.hpp:211-218 ; / and % of C++ *)
Definition cy_index (m : cyc) (d : Z) : idx :=
  let i0 := Z.quot d (cy_stride0 m) in
  let r0 := Z.rem d (cy_stride0 m) in
  [i0; Z.quot r0 (cy_stride1 m); Z.rem r0 (cy_stride1 m)].
Definition cyc_mesh (m : cyc) : mesh := mkMesh (cy_size m) (cy_valid m) (cy_data m) (cy_index m).
(** cyclat.hpp:245, brzone.hpp:345 : evaluation at an index *)
Definition cy_eval {A} (m : cyc) (f : idx -> A) (r : idx) : A := f (cy_modulo m r).

(** k_expr.hpp:38-110 : arithmetic on mesh points is arithmetic on their indices *)
Inductive kexpr : Type :=
| KPt (i : idx) | KNeg (a : kexpr) | KAdd (a b : kexpr) | KSub (a b : kexpr) | KMul (z : Z) (a : kexpr).
Fixpoint zip (f : Z -> Z -> Z) (a b : idx) : idx :=
  match a, b with x :: a', y :: b' => f x y :: zip f a' b' | _, _ => [] end.
Fixpoint k_index (e : kexpr) : idx :=
  match e with
  | KPt i => i
  | KNeg a => map Z.opp (k_index a)
  | KAdd a b => zip Z.add (k_index a) (k_index b)
  | KSub a b => zip Z.sub (k_index a) (k_index b)
  | KMul z a => map (Z.mul z) (k_index a)
  end.
(** brzone.hpp:199-207 *)
Definition k_data (m : cyc) (e : kexpr) : Z := cy_data m (cy_modulo m (k_index e)).

(** utils.hpp:46  hash(ts...) is the sum of the individual hashes; cyclat.hpp:58,
    brzone.hpp:71 : _mesh_hash = hash(sum(units), d0, d1, d2); cyclat.hpp:91, brzone.hpp:102 :
    operator== compares the hashes.  [hu] and [hl] are std::hash<double> applied to the sum
    of the units and std::hash<long>. *)
Definition cy_hash (hl : Z -> Z) (hu : Z) (m : cyc) : Z := wrap64 (hu + hl (cy_d0 m) + hl (cy_d1 m) + hl (cy_d2 m)).
Definition cy_eqb (hl : Z -> Z) (hu : Z) (m : cyc) (hu' : Z) (m' : cyc) : bool :=
  cy_hash hl hu m =? cy_hash hl hu' m'.

(** ---- product meshes ---- *)
(** prod.hpp:95-97 *)
Definition pr_size (ms : list mesh) : Z := fold_left (fun r m => r * ms_size m) ms 1.
(** prod.hpp:110-115 *)
Fixpoint pr_valid (ms : list mesh) (is_ : list idx) : bool :=
  match ms, is_ with
  | [], [] => true
  | m :: ms', i :: is' => ms_valid m i && pr_valid ms' is'
  | _, _ => false
  end.
(** prod.hpp:120-123, 128-131 *)
Fixpoint pr_data (ms : list mesh) (is_ : list idx) : list Z :=
  match ms, is_ with m :: ms', i :: is' => ms_data m i :: pr_data ms' is' | _, _ => [] end.
Fixpoint pr_index (ms : list mesh) (ds : list Z) : list idx :=
  match ms, ds with m :: ms', d :: ds' => ms_index m d :: pr_index ms' ds' | _, _ => [] end.
(** prod.hpp:157-162 : itertools::product of the components.  (Which component runs fastest
    is decided by the itertools library; here the last one.) *)
Fixpoint pr_points (ms : list mesh) : list (list idx) :=
  match ms with
  | [] => [[]]
  | m :: ms' => flat_map (fun p => map (cons p) (pr_points ms')) (ms_points m)
  end.

(** ---- specification ---- *)
Definition mesh_ok (m : mesh) : Prop :=
  0 <= ms_size m /\
  (forall i, ms_valid m i = true -> 0 <= ms_data m i < ms_size m /\ ms_index m (ms_data m i) = i) /\
  (forall d, 0 <= d < ms_size m -> ms_valid m (ms_index m d) = true /\ ms_data m (ms_index m d) = d).
