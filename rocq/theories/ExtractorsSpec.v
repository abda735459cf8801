(** Specification of the operator extractors (operators/util/extractors.hpp): the documented formulae. *)
From Coq Require Import ZArith NArith List Bool String Sorted.
From Verif Require Import Base Indices Scalar Fock OpModel OpExpr Hilbert Extractors.
Import ListNotations.
Local Open Scope nat_scope.

Section Formulae.
  Context (S : scalar_ops).
  (** sum over the dictionary of (coefficient times the operator of the key) *)
  Definition dict_sum (F : key -> expr S) (d : dict S) : expr S :=
    fold_right (fun kx e => EAdd (EMulS (F (fst kx)) (snd kx)) e) (EScal k0) d.
  Definition quadratic (k : key) : expr S := match k with [i; j] => EMul (ECdag i) (EC j) | _ => EScal k0 end.
  Definition density_density (k : key) : expr S := match k with [i; j] => EMul (EN i) (EN j) | _ => EScal k0 end.
  Definition two_particle (x : key) : expr S :=
    match x with [i; j; k; l] => EMul (EMul (EMul (ECdag i) (ECdag j)) (EC l)) (EC k) | _ => EScal k0 end.
End Formulae.
Definition cd (i : indices) : cop := mkCop true i.
Definition ca (i : indices) : cop := mkCop false i.
Definition is_quadratic (m : monomial) : Prop := exists i j, m = [cd i; ca j].
Definition is_density_density (m : monomial) : Prop := exists i j, m = [cd i; cd j; ca j; ca i].
Definition is_two_particle (m : monomial) : Prop := exists i j k l, m = [cd i; cd j; ca l; ca k].

(** the keys increase strictly, hence each occurs once; no vanishing value is stored *)
Section Dict.
  Context (S : scalar_ops).
  Definition dklt (a b : key * S) : Prop := kcmp (fst a) (fst b) = Lt.
  Definition proper_dict (d : dict S) : Prop := StronglySorted dklt d /\ Forall (fun kx => snd kx <> k0) d.
End Dict.
(** q holds the positions, in the operator set, of the indices of the key *)
Definition names (fs : fops) (k : key) (q : list nat) : Prop := Forall2 (fun i p => nth_error fs p = Some i) k q.

(** ---- Specification: block matrices ---- *)
Section BSpec.
  Context (S : scalar_ops).
  (** one square matrix per block, of the size given by gf_struct *)
  Definition agrees (gs : gf_struct) (M : bmat S) : Prop :=
    List.length M = List.length gs /\
    forall b name n, nth_error gs b = Some (name, n) ->
      exists rows, nth_error M b = Some rows /\ List.length rows = n /\ forall i r, nth_error rows i = Some r -> List.length r = n.
  (** M[b](i, j) *)
  Definition entry (M : bmat S) (b i j : nat) : S := nth j (nth i (nth b M []) []) k0.
End BSpec.
(** c_dag(name, i) c(name, j) *)
Definition hopping (name : string) (i j : nat) : monomial := [cd [LStr name; LInt (Z.of_nat i)]; ca [LStr name; LInt (Z.of_nat j)]].
Definition block_term (gs : gf_struct) (m : monomial) : Prop :=
  exists name n i j, In (name, n) gs /\ i < n /\ j < n /\ m = hopping name i j.

