(** Model of c++/triqs/gfs/functions/imfreq.hpp : hermitian symmetry and half-mesh representation of Matsubara functions.
    Simplifications: exact scalars; the data array is a list (first dimension: data index of the mesh point) of elements of the
    target, an element being a function of its subscripts; views are values (no aliasing); block functions are handled block by
    block in the code (lines 122, 156, 213, 244) and are not modelled. *)
From Coq Require Import ZArith Reals List Bool.
From Verif Require Import Base Scalar Matsubara.
Import ListNotations.
Local Open Scope Z_scope.

(** element of an array: out of range is undefined behaviour *)
Definition rd {A} (l : list A) (d : Z) : res A :=
  if d <? 0 then UB else match nth_error l (Z.to_nat d) with Some x => Ok x | None => UB end.
Fixpoint upd {A} (l : list A) (k : nat) (x : A) : list A :=
  match l, k with
  | [], _ => []
  | _ :: l', O => x :: l'
  | y :: l', S k' => y :: upd l' k' x
  end.
Definition wr {A} (l : list A) (d : Z) (x : A) : res (list A) :=
  if (d <? 0) || (Z.of_nat (length l) <=? d) then UB else Ok (upd l (Z.to_nat d) x).
(** a(range(lo, hi), ...) *)
Definition slice {A} (l : list A) (lo hi : Z) : res (list A) :=
  if (lo <? 0) || (hi <? lo) || (Z.of_nat (length l) <? hi) then UB
  else Ok (firstn (Z.to_nat (hi - lo)) (skipn (Z.to_nat lo) l)).

(** (), (i,j) -> (j,i), (i,j,k,l) -> (k,l,i,j) : lines 98-103, 192-196 *)
Definition tswap (q : list nat) : list nat :=
  match q with
  | [i; j] => [j; i]
  | [i; j; k; l] => [k; l; i; j]
  | _ => q
  end.
(** gf.hpp:206 : itertools::product_range of the target shape *)
Fixpoint target_indices (sh : list nat) : list (list nat) :=
  match sh with
  | [] => [[]]
  | n :: sh' => flat_map (fun i => map (cons i) (target_indices sh')) (seq 0 n)
  end.

Section GfSym.
  Context (S : scalar_ops).
  Local Open Scope K_scope.
  Definition tgt : Type := list nat -> S.
  Record gfiw : Type := mkGfiw { g_mesh : imfreq; g_sh : list nat; g_data : list tgt }.
  Variable half : S.                    (* 0.5 *)
  Variable exceeds : S -> bool.         (* abs(x) > tolerance *)
  Definition same_shape (sh : list nat) : bool := if list_eq_dec Nat.eq_dec (tswap sh) sh then true else false.

  (** g[iw] : the element at the data index of a frequency (imfreq.hpp mesh:191-196) *)
  Definition g_at (g : gfiw) (w : freq) : res tgt := rd (g_data g) (if_to_data (g_mesh g) (fr_n w)).
  (** the points of the mesh, in order *)
  Definition g_points (g : gfiw) : list freq := map (if_freq (g_mesh g)) (if_points (g_mesh g)).

  (** lines 187-198 (make_hermitian, Matsubara) with [sw] = tswap and 237-240 (make_real_in_tau) with [sw] the identity.
      The sum of two arrays of different shapes is undefined. *)
  Section Sym.
    Variable sw : list nat -> list nat.
    Fixpoint sym_loop (g : gfiw) (ws : list freq) (acc : list tgt) : res (list tgt) :=
      match ws with
      | [] => Ok acc
      | w :: ws' =>
          do a <- g_at g w ; do b <- g_at g (fr_neg w) ;
          do acc' <- wr acc (if_to_data (g_mesh g) (fr_n w)) (fun q => half * (a q + kconj (b (sw q)))) ;
          sym_loop g ws' acc'
      end.
    (** lines 95-106, 146-153 : comparison of all elements *)
    Fixpoint sym_test (g : gfiw) (ws : list freq) : res bool :=
      match ws with
      | [] => Ok true
      | w :: ws' =>
          do a <- g_at g w ; do b <- g_at g (fr_neg w) ;
          if existsb (fun q => exceeds (kconj (b (sw q)) - a q)) (target_indices (g_sh g)) then Ok false else sym_test g ws'
      end.
  End Sym.
  (** lines 176-216 *)
  Definition make_hermitian (g : gfiw) : res gfiw :=
    if if_pos (g_mesh g) then Ok g
    else if negb (same_shape (g_sh g)) then UB
    else do d <- sym_loop tswap g (g_points g) (g_data g) ; Ok (mkGfiw (g_mesh g) (g_sh g) d).
  (** lines 82-124 *)
  Definition is_gf_hermitian (g : gfiw) : res bool :=
    if if_pos (g_mesh g) then Ok true
    else if negb (same_shape (g_sh g)) then UB
    else sym_test tswap g (g_points g).
  (** lines 229-245 *)
  Definition make_real_in_tau (g : gfiw) : res gfiw :=
    if if_pos (g_mesh g) then Ok g
    else do d <- sym_loop (fun q => q) g (g_points g) (g_data g) ; Ok (mkGfiw (g_mesh g) (g_sh g) d).
  (** lines 139-158 *)
  Definition is_gf_real_in_tau (g : gfiw) : res bool :=
    if if_pos (g_mesh g) then Ok true else sym_test (fun q => q) g (g_points g).

  (** imaginary time (lines 199-211 and 107-120): the points are independent; [data] is the list over the mesh *)
  Definition make_hermitian_tau (sh : list nat) (data : list tgt) : res (list tgt) :=
    if negb (same_shape sh) then UB else Ok (map (fun a : tgt => fun q => half * (a q + kconj (a (tswap q)))) data).
  Definition is_gf_hermitian_tau (sh : list nat) (data : list tgt) : res bool :=
    if negb (same_shape sh) then UB
    else Ok (forallb (fun a : tgt => negb (existsb (fun q => exceeds (kconj (a (tswap q)) - a q)) (target_indices sh))) data).

  (** lines 43-46; the elements of new_data start uninitialised (None) *)
  Fixpoint real_loop (dat : list tgt) (l l1 : Z) (us : list nat) (acc : list (option tgt)) : res (list (option tgt)) :=
    match us with
    | [] => Ok acc
    | u :: us' =>
        do a <- rd dat (Z.of_nat u) ;
        do acc1 <- wr acc (l1 + Z.of_nat u)%Z (Some a) ;
        do acc2 <- wr acc1 (l - 1 - Z.of_nat u)%Z (Some (fun q => kconj (a q))) ;
        real_loop dat l l1 us' acc2
    end.
  Record gfiw_new : Type := mkNew { n_mesh : imfreq; n_sh : list nat; n_data : list (option tgt) }.
  (** lines 32-48 *)
  Definition make_gf_from_real_gf (g : gfiw) : res gfiw_new :=
    if negb (if_pos (g_mesh g)) then Throw else
    let dat := g_data g in
    let boson := stat_eqb (if_stat (g_mesh g)) Boson in
    let b := if boson then 1%Z else 0%Z in
    let l := Z.of_nat (length dat) in
    if (2 * l - b <? 0)%Z then UB else
    let new0 := repeat None (Z.to_nat (2 * l - b)) in
    do new1 <- (if boson then do a <- rd dat 0 ; wr new0 (l - 1)%Z (Some a) else Ok new0) ;
    let l1 := if boson then (l - 1)%Z else l in
    do new2 <- real_loop dat l l1 (seq (Z.to_nat b) (length dat - Z.to_nat b)) new1 ;
    Ok (mkNew (mkImfreq (if_beta (g_mesh g)) (if_stat (g_mesh g)) l false) (g_sh g) new2).

  (** lines 52-62 *)
  Definition positive_freq_view (g : gfiw) : res gfiw :=
    if if_pos (g_mesh g) then Ok g else
    let l := if_size (g_mesh g) in
    let l1 := Z.quot (l + 1) 2 in
    let b := if stat_eqb (if_stat (g_mesh g)) Boson then 1%Z else 0%Z in
    do d <- slice (g_data g) (l1 - b)%Z l ; Ok (mkGfiw (if_positive (g_mesh g)) (g_sh g) d).

  (** lines 248-257 : the new mesh is always fermionic *)
  Definition restricted_view (g : gfiw) (n_max : Z) : res gfiw :=
    let m := mkImfreq (if_beta (g_mesh g)) Fermion n_max false in
    let idx_min := if_to_data (g_mesh g) (if_first m) in
    let idx_max := if_to_data (g_mesh g) (if_last m) in
    do d <- slice (g_data g) idx_min (idx_max + 1)%Z ; Ok (mkGfiw m (g_sh g) d).

  (** lines 259-262; tail_eval is a parameter (a value for each frequency) *)
  Fixpoint tail_loop (m : imfreq) (tail : freq -> tgt) (n_min : Z) (ws : list freq) (acc : list tgt) : res (list tgt) :=
    match ws with
    | [] => Ok acc
    | w :: ws' =>
        if (n_min <=? fr_n w)%Z || (fr_n w <? - n_min)%Z
        then do acc' <- wr acc (if_to_data m (fr_n w)) (tail w) ; tail_loop m tail n_min ws' acc'
        else tail_loop m tail n_min ws' acc
    end.
  Definition replace_by_tail (g : gfiw) (tail : freq -> tgt) (n_min : Z) : res gfiw :=
    do d <- tail_loop (g_mesh g) tail n_min (g_points g) (g_data g) ; Ok (mkGfiw (g_mesh g) (g_sh g) d).
End GfSym.
