(** Model of c++/triqs/hilbert_space/state.hpp : many-body states.

    A state lives in a space, which is the full Fock space of [dim] states or a
    sub_hilbert_space.  Amplitudes are held in a vector or in a hash map; the map is an
    association list in an arbitrary order, so statements about every such list cover
    every iteration order of the map. *)
From Coq Require Import ZArith NArith List Bool Lia.
From Verif Require Import Base Indices Scalar Hilbert.
Import ListNotations.

Inductive space : Type :=
| Full (dim : Z)
| Sub (s : sub_hs).

(** the common interface of hilbert_space and sub_hilbert_space (hilbert_space.hpp:56,184 ;
    80,218 ; 87,211 ; 97,225) *)
Definition sp_size (h : space) : Z := match h with Full d => d | Sub s => Z.of_nat (sub_size s) end.
Definition sp_has (h : space) (f : N) : bool := match h with Full d => hs_has d f | Sub s => sub_has s f end.
Definition sp_index (h : space) (f : N) : res nat :=
  match h with
  | Full d => match hs_index d f with Ok z => if (z <? 0)%Z then UB else Ok (Z.to_nat z) | Throw => Throw | UB => UB end
  | Sub s => sub_at s f
  end.
Definition sp_fock (h : space) (i : nat) : res N :=
  match h with Full d => hs_fock d (Z.of_nat i) | Sub s => sub_fock s i end.

Section State.
  Context (S : scalar_ops).
  Local Open Scope K_scope.

  (** unordered_map<fock_state_t, ScalarType> *)
  Fixpoint a_find (i : nat) (m : list (nat * S)) : option S :=
    match m with
    | [] => None
    | (j, a) :: m' => if Nat.eqb j i then Some a else a_find i m'
    end.
  Fixpoint a_upd (i : nat) (u : S -> S) (m : list (nat * S)) : list (nat * S) :=
    match m with
    | [] => []
    | (j, a) :: m' => if Nat.eqb j i then (j, u a) :: m' else (j, a) :: a_upd i u m'
    end.
  (** insert; if the key exists combine with the old amplitude (lines 132-133, 146-147) *)
  Definition a_put_or (i : nat) (u : S -> S) (a : S) (m : list (nat * S)) : list (nat * S) :=
    match a_find i m with None => m ++ [(i, a)] | Some _ => a_upd i u m end.

  (** state.hpp:75-80 and 228-233 *)
  Inductive amps : Type := AMap (m : list (nat * S)) | AVec (v : list S).
  Record state : Type := mkState { st_sp : space; st_amps : amps }.

  (** state.hpp:97 and 250 : zero state *)
  Definition st_zero (based_on_map : bool) (h : space) : state :=
    mkState h (if based_on_map then AMap [] else AVec (repeat k0 (Z.to_nat (sp_size h)))).

  (** state.hpp:215-223  prune *)
  Definition prune (m : list (nat * S)) : list (nat * S) := filter (fun ia => negb (kisz (snd ia))) m.

  (** positional update of a vector; None : out of bounds *)
  Fixpoint v_upd (i : nat) (u : S -> S) (v : list S) : option (list S) :=
    match v, i with
    | [], _ => None
    | a :: v', O => Some (u a :: v')
    | a :: v', Datatypes.S i' => option_map (cons a) (v_upd i' u v')
    end.

  (** st(i) += x, st(i) = x : state.hpp:117 (the map creates a zero amplitude) and 270
      (unchecked vector access) *)
  Definition st_update (i : nat) (u : S -> S) (st : state) : res state :=
    match st_amps st with
    | AMap m => Ok (mkState (st_sp st) (AMap (a_put_or i u (u k0) m)))
    | AVec v => match v_upd i u v with Some v' => Ok (mkState (st_sp st) (AVec v')) | None => UB end
    end.

  (** state.hpp:104 and 257 : basis state *)
  Definition st_basis (based_on_map : bool) (h : space) (i : nat) : res state :=
    st_update i (fun _ => k1) (st_zero based_on_map h).

  (** elementwise combination of vectors; different sizes are out of bounds *)
  Fixpoint v_zip (f : S -> S -> S) (v w : list S) : option (list S) :=
    match v, w with
    | [], [] => Some []
    | a :: v', b :: w' => option_map (cons (f a b)) (v_zip f v' w')
    | _, _ => None
    end.

  (** state.hpp:130-137 and 283-286  operator+= *)
  Definition map_add (m1 m2 : list (nat * S)) : list (nat * S) :=
    prune (fold_left (fun m ia => a_put_or (fst ia) (fun x => x + snd ia) (snd ia) m) m2 m1).
  (** state.hpp:144-151  operator-= *)
  Definition map_sub (m1 m2 : list (nat * S)) : list (nat * S) :=
    prune (fold_left (fun m ia => a_put_or (fst ia) (fun x => x - snd ia) (- snd ia) m) m2 m1).
  (** state.hpp:158-162  operator*= *)
  Definition map_scale (x : S) (m : list (nat * S)) : list (nat * S) :=
    prune (map (fun ia => (fst ia, snd ia * x)) m).

  (** the two operands have the same C++ type, hence the same storage kind *)
  Definition st_add (s t : state) : res state :=
    match st_amps s, st_amps t with
    | AMap m1, AMap m2 => Ok (mkState (st_sp s) (AMap (map_add m1 m2)))
    | AVec v1, AVec v2 => match v_zip kadd v1 v2 with Some v => Ok (mkState (st_sp s) (AVec v)) | None => UB end
    | _, _ => UB
    end.
  Definition st_sub (s t : state) : res state :=
    match st_amps s, st_amps t with
    | AMap m1, AMap m2 => Ok (mkState (st_sp s) (AMap (map_sub m1 m2)))
    | AVec v1, AVec v2 => match v_zip ksub v1 v2 with Some v => Ok (mkState (st_sp s) (AVec v)) | None => UB end
    | _, _ => UB
    end.
  (** state.hpp:158-162 and 303-306 *)
  Definition st_scale (x : S) (s : state) : state :=
    match st_amps s with
    | AMap m => mkState (st_sp s) (AMap (map_scale x m))
    | AVec v => mkState (st_sp s) (AVec (map (fun a => a * x) v))
    end.

  (** state.hpp:177-184 (loop over the first map, common keys only) and 324 (blas dotc:
      sum of conj(a_i) * b_i) *)
  Definition map_dot (m1 m2 : list (nat * S)) : S :=
    fold_left (fun r ia => match a_find (fst ia) m2 with
                           | Some b => r + kconj (snd ia) * b
                           | None => r
                           end) m1 k0.
  Definition st_dot (s t : state) : res S :=
    match st_amps s, st_amps t with
    | AMap m1, AMap m2 => Ok (map_dot m1 m2)
    | AVec v1, AVec v2 => match v_zip (fun a b => kconj a * b) v1 v2 with Some v => Ok (fold_left kadd v k0) | None => UB end
    | _, _ => UB
    end.

  (** state.hpp:194-197 and 334-337  foreach : the (index, amplitude) pairs visited; the map
      version drops zeros first *)
  Definition st_entries (s : state) : list (nat * S) :=
    match st_amps s with
    | AMap m => prune m
    | AVec v => combine (seq 0 (length v)) v
    end.

  (** state.hpp:387-393 and 395-404  project : the overload for hilbert_space indexes the
      target by the Fock state itself, without a membership test *)
  Definition project_step (target : space) (source : space) (r : res state) (ia : nat * S) : res state :=
    do p <- r ;
    do f <- sp_fock source (fst ia) ;
    match target with
    | Full _ => st_update (N.to_nat f) (fun _ => snd ia) p
    | Sub _ => if sp_has target f then (do i <- sp_index target f ; st_update i (fun _ => snd ia) p) else Ok p
    end.
  Definition st_project (based_on_map : bool) (target : space) (s : state) : res state :=
    fold_left (project_step target (st_sp s)) (st_entries s) (Ok (st_zero based_on_map target)).
End State.
Arguments mkState {S} _ _. Arguments AMap {S} _. Arguments AVec {S} _.
Arguments st_sp {S} _. Arguments st_amps {S} _. Arguments a_find {S} _ _. Arguments a_upd {S} _ _ _.
Arguments a_put_or {S} _ _ _ _. Arguments prune {S} _. Arguments v_upd {S} _ _ _. Arguments st_update {S} _ _ _.
Arguments v_zip {S} _ _ _. Arguments map_add {S} _ _. Arguments map_sub {S} _ _. Arguments map_scale {S} _ _.
Arguments st_add {S} _ _. Arguments st_sub {S} _ _. Arguments st_scale {S} _ _. Arguments map_dot {S} _ _.
Arguments st_dot {S} _ _. Arguments st_entries {S} _. Arguments st_project {S} _ _ _. Arguments project_step {S} _ _ _ _.
