(** Model of c++/triqs/hilbert_space/imperative_operator.hpp : operators as bit masks. *)
From Coq Require Import ZArith NArith List Bool Lia.
From Verif Require Import Base Indices Scalar Fock OpModel Hilbert State.
Import ListNotations.

(** bitwise complement of a uint64 *)
Definition not64 (x : N) : N := N.lxor x (N.ones 64).

Section Greater.
  (** the positions fops[indices] (all present, see [imp_build]) *)
  Variable pos : indices -> nat.

  (** lines 96-99 : lambda greater *)
  Definition greater (a b : cop) : bool :=
    if xorb (dag a) (dag b) then dag b
    else if dag a then (pos (ind b) <? pos (ind a))%nat else (pos (ind a) <? pos (ind b))%nat.

  (** lines 112-119 : one pass of [k] comparisons over x :: rest; returns the list, whether
      a swap was made, and the parity of the number of sign changes *)
  Fixpoint bpass (k : nat) (x : cop) (rest : list cop) : list cop * bool * bool :=
    match k, rest with
    | Datatypes.S k', y :: rest' =>
        if greater x y
        then let '(l, _, s) := bpass k' x rest' in (y :: l, true, negb s)
        else let '(l, w, s) := bpass k' y rest' in (x :: l, w, s)
    | _, _ => (x :: rest, false, false)
    end.

  (** lines 108-121 : do { pass over the first n } --n while (swapped); [fuel] bounds the
      number of passes.  The boolean result is the parity of the number of coef *= -1. *)
  Fixpoint bsort (fuel : nat) (n : nat) (m : list cop) (s : bool) : option (list cop * bool) :=
    match fuel, m with
    | O, _ => None
    | Datatypes.S fuel', [] => Some (m, s)
    | Datatypes.S fuel', x :: rest =>
        let '(l, w, s') := bpass (n - 1) x rest in
        if w then bsort fuel' (n - 1) l (xorb s s') else Some (l, xorb s s')
    end.
  Definition fsort (m : list cop) : option (list cop * bool) := bsort (Datatypes.S (length m)) (length m) m false.

  (** lines 131-136 : positions and masks of the operators with the given dagger flag *)
  Definition positions (d : bool) (m : list cop) : list nat :=
    map (fun o => pos (ind o)) (filter (fun o => eqb (dag o) d) m).
  Definition mask_of (l : list nat) : N := fold_left (fun k p => N.lor k (N.shiftl 1 (N.of_nat p))) l 0%N.
End Greater.

(** lines 137-147 : compute_count_mask, the loop over i < 64 *)
Fixpoint cmask_loop (d : list nat) (i todo : nat) (is_on : bool) (mask : N) : N :=
  match todo with
  | O => mask
  | Datatypes.S todo' =>
      if existsb (Nat.eqb i) d then cmask_loop d (Datatypes.S i) todo' (negb is_on) mask
      else cmask_loop d (Datatypes.S i) todo' is_on
             (if is_on then N.lor mask (N.shiftl 1 (N.of_nat i)) else mask)
  end.
Definition count_mask (d : list nat) : N := cmask_loop d 0 64 (Nat.odd (length d)) 0%N.

(** lines 175-184 : parity_number_of_bits *)
Definition parity_bits (v : N) : bool :=
  let v := N.lxor v (N.shiftr v 8) in
  let v := N.lxor v (N.shiftr v 4) in
  let v := N.lxor v (N.shiftr v 2) in
  let v := N.lxor v (N.shiftr v 1) in
  negb (N.land v 1 =? 0)%N.

Section Imp.
  Context {S : scalar_ops}.
  Local Open Scope K_scope.

  (** lines 65-68 *)
  Record one_term : Type := mkTerm { coeff : S; d_mask : N; dag_mask : N; d_count : N; dag_count : N }.

  (** lines 103-150 for one monomial.  fops[...] throws for an absent index (lines 98, 134);
      a shift by 64 or more is undefined (line 135).  The CHECK_ISSUE819 branch (lines
      126-129, an opt-in diagnostic) is not modelled. *)
  Definition imp_term (l : fops) (m : monomial) (c : S) : res one_term :=
    if negb (forallb (fun o => fops_has l (ind o)) m) then Throw
    else
      let pos i := match find_pos l i with Some p => p | None => O end in
      match fsort pos m with
      | None => UB
      | Some (m', s) =>
          if negb (forallb (fun o => (pos (ind o) <? 64)%nat) m') then UB
          else
            let dg := positions pos true m' in
            let nd := positions pos false m' in
            Ok (mkTerm (if s then c * (- k1) else c) (mask_of nd) (mask_of dg) (count_mask nd) (count_mask dg))
      end.

  Fixpoint imp_terms (l : fops) (op : omap S) : res (list one_term) :=
    match op with
    | [] => Ok []
    | (m, c) :: op' => do t <- imp_term l m c ; do ts <- imp_terms l op' ; Ok (t :: ts)
    end.

  (** lines 216-222 : action of one term on a Fock state *)
  Definition term_act (M : one_term) (f : N) : option (bool * N) :=
    if negb (N.land f (d_mask M) =? d_mask M)%N then None
    else
      let f2 := N.land f (not64 (d_mask M)) in
      if negb (N.land (N.lxor f2 (dag_mask M)) (dag_mask M) =? dag_mask M)%N then None
      else
        let f3 := not64 (N.land (not64 f2) (not64 (dag_mask M))) in
        Some (parity_bits (N.lxor (N.land f2 (d_count M)) (N.land f3 (dag_count M))), f3).

  (** lines 216-226 : body of the foreach; the target space is a null pointer when
      hilbert_map gives -1 *)
  Definition apply_step (M : one_term) (source : space) (target : option space)
                        (r : res (state S)) (ia : nat * S) : res (state S) :=
    do t <- r ;
    do f <- sp_fock source (fst ia) ;
    match term_act M f with
    | None => Ok t
    | Some (minus, f3) =>
        match target with
        | None => UB
        | Some h =>
            do i <- sp_index h f3 ;
            st_update i (fun x => x + snd ia * coeff M * (if minus then - k1 else k1)) t
        end
    end.

  (** lines 207-230 : operator().  [target] : the space chosen by get_target_st (lines 165-173):
      the space of the argument, or the subspace given by hilbert_map. *)
  Definition is_map (st : state S) : bool := match st_amps st with AMap _ => true | AVec _ => false end.
  Definition imp_apply (ts : list one_term) (target : option space) (st : state S) : res (state S) :=
    let zero := match target with
                | Some h => st_zero S (is_map st) h
                | None => mkState (Full 0) (if is_map st then AMap [] else AVec [])
                end in
    fold_left (fun r M => fold_left (apply_step M (st_sp st) target) (st_entries st) r) ts (Ok zero).

  (** lines 165-169 : the subspace number given by the map; -1 means none; an out-of-range
      number is undefined *)
  Definition target_by_map (hmap : list Z) (subs : list sub_hs) (h : space) : res (option space) :=
    match h with
    | Full _ => UB (* hilbert_space has no get_index: does not compile *)
    | Sub s =>
        if (sub_index s <? 0)%Z then UB
        else match nth_error hmap (Z.to_nat (sub_index s)) with
             | None => UB
             | Some n => if (n =? -1)%Z then Ok None
                         else if (n <? 0)%Z then UB
                         else match nth_error subs (Z.to_nat n) with
                              | Some s' => Ok (Some (Sub s'))
                              | None => UB
                              end
             end
    end.

  (** lines 89-94 and 207 : construction and application.  UseMap = false. *)
  Definition imp_run (l : fops) (op : omap S) (st : state S) : res (state S) :=
    do ts <- imp_terms l op ; imp_apply ts (Some (st_sp st)) st.
  (** UseMap = true; an empty map throws (line 94) *)
  Definition imp_run_map (l : fops) (op : omap S) (hmap : list Z) (subs : list sub_hs) (st : state S) : res (state S) :=
    match hmap with
    | [] => Throw
    | _ => do ts <- imp_terms l op ; do h <- target_by_map hmap subs (st_sp st) ; imp_apply ts h st
    end.
End Imp.
Arguments one_term S : clear implicits.
