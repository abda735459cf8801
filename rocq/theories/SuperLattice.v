(** Model of python/triqs/lattice/super_lattice.py (TBSuperLattice).

    Simplifications: the superlattice units are integers and numpy's determinant, inverse and rounding are exact, so
    rint(inv(M) * N) is the integer matrix sign(det M) adj(M).  A Python exception is Throw.  The dictionary of folded
    hoppings is a partial function of the superlattice vector.  The matrices of hoppings have n_orbitals rows and columns. *)
From mathcomp Require Import all_ssreflect all_algebra.
From Verif Require Import Base.
Set Implicit Arguments.
Unset Strict Implicit.
Unset Printing Implicit Defensive.
Import GRing.Theory.
Local Open Scope ring_scope.

(** Python's range(-a, a+1) (line 83) *)
Definition py_range (a : int) : seq int := if a is Posz k then [seq i%:Z - k%:Z | i <- iota 0 (k + k).+1] else [::].
(** the nested loops of lines 84-86; loops over the single value 0, for dimensions beyond ndim, are left out (line 87) *)
Fixpoint nested (rs : seq (seq int)) : seq (seq int) :=
  if rs is r :: rs' then flatten [seq [seq x :: v | v <- nested rs'] | x <- r] else [:: [::]].

Section Sl.
  Variable n' : nat.
  Notation n := n'.+1.                  (* ndim *)
  (** line 60 : numpy.rint(abs(det(units))) *)
  Definition sl_N (units : 'M[int]_n) : nat := `|\det units|%N.
  (** line 62 *)
  Definition sl_M (units : 'M[int]_n) : 'M[int]_n := units^T.
  (** line 63 *)
  Definition sl_Mt (units : 'M[int]_n) : 'M[int]_n := sgz (\det (sl_M units)) *: \adj (sl_M units).
  (** numpy.array of a list, and back *)
  Definition vec (s : seq int) : 'cV[int]_n := \col_i s`_i.
  Definition unvec (v : 'cV[int]_n) : seq int := [seq v i 0 | i <- enum 'I_n].
  (** lines 79-81 : max of a row of M, times the dimension *)
  Definition row_max (M : 'M[int]_n) (i : 'I_n) : int := foldl Num.max (M i 0) [seq M i j | j <- enum 'I_n].
  Definition extent (M : 'M[int]_n) (i : 'I_n) : int := n%:Z * row_max M i.
  (** lines 88-89 *)
  Definition kept (units : 'M[int]_n) (nv : seq int) : bool :=
    [forall i, (0 <= (sl_Mt units *m vec nv) i 0) && ((sl_Mt units *m vec nv) i 0 < (sl_N units)%:Z)].
  (** lines 74-90 *)
  Definition auto_sites (units : 'M[int]_n) : seq (seq int) :=
    [seq nv <- nested [seq py_range (extent (sl_M units) i) | i <- enum 'I_n] | kept units nv].

  Record sl : Type := mkSl { sl_units : 'M[int]_n; sl_sites : seq (seq int) }.
  (** lines 60-93, without the hoppings *)
  Definition sl_make (units : 'M[int]_n) (cluster_sites : option (seq (seq int))) : res sl :=
    if sl_N units == 0%N then Throw else
    match cluster_sites with
    | None => if (3 < n)%N then Throw else
              if size (auto_sites units) != sl_N units then Throw else Ok (mkSl units (auto_sites units))
    | Some s => if size s != sl_N units then Throw else Ok (mkSl units s)
    end.

  (** lines 147-152; list.index raises ValueError when there is no such element *)
  Definition L_to_SL (s : sl) (x : 'cV[int]_n) : res ('cV[int]_n * nat) :=
    let aux := sl_Mt (sl_units s) *m x in
    let R := \col_i divz (aux i 0) (sl_N (sl_units s))%:Z in
    let dx := x - sl_M (sl_units s) *m R in
    let alpha := index (unvec dx) (sl_sites s) in
    if (alpha < size (sl_sites s))%N then Ok (R, alpha) else Throw.
  (** lines 143-145 : a Python list does not take the subscript [alpha,:] (TypeError) *)
  Definition SL_to_L (s : sl) (R : 'cV[int]_n) (alpha : nat) : res ('cV[int]_n) := Throw.

  (** lines 154-156 *)
  Definition pack (s : sl) (n_site n_orbital : nat) : nat := (n_site + n_orbital * sl_N (sl_units s))%N.
  (** lines 158-163 *)
  Definition unpack (s : sl) (index : nat) : nat * nat :=
    let n_orbital := (index %/ sl_N (sl_units s))%N in
    ((index - n_orbital * sl_N (sl_units s))%N, n_orbital).

  Section Fold.
    Variable V : zmodType.
    Definition hmat : Type := nat -> nat -> V.
    Definition folded : Type := 'cV[int]_n -> option hmat.
    (** += on an element *)
    Definition add_el (m : hmat) (p q : nat) (x : V) : hmat := fun p' q' => if (p' == p) && (q' == q) then m p' q' + x else m p' q'.
    (** lines 138-140 *)
    Definition add_orbs (s : sl) (norb nsite alpha : nat) (t : hmat) (m : hmat) : hmat :=
      foldl (fun m orb1 => foldl (fun m orb2 => add_el m (pack s nsite orb1) (pack s alpha orb2) (t orb1 orb2)) m (iota 0 norb)) m (iota 0 norb).
    (** lines 135-140 : remove_internal evaluates the attribute self.tb_lattice, which no class defines (AttributeError) *)
    Definition fold_one (s : sl) (norb : nat) (remove_internal : bool) (nsite : nat) (CS : seq int) (x : 'cV[int]_n * hmat) (acc : folded) : res folded :=
      bind (L_to_SL s (vec CS + x.1)) (fun Ra =>
        let m := if acc Ra.1 is Some m then m else fun _ _ => 0 in
        if remove_internal then Throw else
        let m' := add_orbs s norb nsite Ra.2 x.2 m in
        Ok (fun R => if R == Ra.1 then Some m' else acc R)).
    Fixpoint fold_hops (s : sl) (norb : nat) (remove_internal : bool) (nsite : nat) (CS : seq int) (D1 : seq ('cV[int]_n * hmat)) (acc : folded) : res folded :=
      if D1 is x :: D1' then bind (fold_one s norb remove_internal nsite CS x acc) (fold_hops s norb remove_internal nsite CS D1') else Ok acc.
    Fixpoint fold_sites (s : sl) (norb : nat) (remove_internal : bool) (nsite : nat) (sites : seq (seq int)) (D1 : seq ('cV[int]_n * hmat)) (acc : folded) : res folded :=
      if sites is CS :: sites' then bind (fold_hops s norb remove_internal nsite CS D1 acc) (fold_sites s norb remove_internal nsite.+1 sites' D1) else Ok acc.
    (** lines 124-141; the number of orbitals is read from the first value: no hopping is an IndexError *)
    Definition fold (s : sl) (norb : nat) (D1 : seq ('cV[int]_n * hmat)) (remove_internal : bool) : res folded :=
      if D1 is [::] then Throw else fold_sites s norb remove_internal 0 (sl_sites s) D1 (fun _ => None).
  End Fold.
End Sl.
