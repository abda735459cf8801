(** Model of c++/triqs/det_manip/det_manip.hpp.

    The values are in a field F (exact arithmetic).  Buffers (mat_inv, work arrays) are
    functions of their indices: entries beyond the current size have no meaning, as in the
    code.  nda::determinant and nda::inverse are the determinant and inverse of mathcomp.
    Indices are natural numbers: a negative argument throws in the code, except in
    try_change_row where it is undefined behaviour.

    [sing] is is_singular() (l. 1203), [deviates] the test of check_mat_inv against the error
    threshold (l. 1166-1168, 1181), [max_ops] is n_opts_max_before_check (l. 81).

    Simplifications: the memory reservation (reserve, l. 232-253) is only kept through [c_kmax];
    the completions do not write their scratch results (w1.ksi, w1.MC, wk.ksi, the swapped
    w_refill ...) back into the work data, since every try overwrites what its completion reads;
    an exception ends the history (the state it leaves behind is not modelled); HDF5 (l. 87-118),
    copy, move and swap (l. 196-222, 323-333), foreach and try_insert_from_function (l. 516-547)
    are not modelled. *)
From mathcomp Require Import all_ssreflect all_algebra.
From Verif Require Import Base.
Set Implicit Arguments.
Unset Strict Implicit.
Unset Printing Implicit Defensive.
Import GRing.Theory.
Local Open Scope ring_scope.

Section DetManip.
Variables (F : fieldType) (X Y : Type) (x0 : X) (y0 : Y) (f : X -> Y -> F).
Variable sing : F -> bool.
Variable deviates : nat -> (nat -> nat -> F) -> (nat -> nat -> F) -> bool.
Variable max_ops : nat.

(** the block of size m x n of a buffer *)
Definition fmx m n (g : nat -> nat -> F) : 'M[F]_(m, n) := \matrix_(i, j) g i j.
Definition of_mx m n (A : 'M[F]_(m, n)) : nat -> nat -> F :=
  fun i j => match insub i, insub j with Some i', Some j' => A i' j' | _, _ => 0 end.
(** nda::determinant, nda::inverse on the leading n x n block *)
Definition nda_det n (g : nat -> nat -> F) : F := \det (fmx n n g).
Definition nda_inv n (g : nat -> nat -> F) : nat -> nat -> F := of_mx (invmx (fmx n n g)).
Definition sumN n (g : nat -> F) : F := \sum_(l < n) g l.
Definition upd (A : Type) (g : nat -> A) i v : nat -> A := fun j => if j == i then v else g j.
(** an int equal to +1 (false) or -1 (true) *)
Definition sg (b : bool) : F := (-1) ^+ b.

(** det_manip.hpp:122-137, 139-176, 178-187, 189-193 : work data *)
Record work1 := W1 { w_x : X; w_y : Y; w_i : nat; w_j : nat; w_ir : nat; w_jr : nat;
  w_MB : nat -> F; w_MC : nat -> F; w_B : nat -> F; w_C : nat -> F; w_ksi : F }.
Record workk := WK { k_k : nat; k_x : seq X; k_y : seq Y; k_i : seq nat; k_j : seq nat; k_ir : seq nat; k_jr : seq nat;
  k_MB : nat -> nat -> F; k_MC : nat -> nat -> F; k_B : nat -> nat -> F; k_C : nat -> nat -> F; k_ksi : nat -> nat -> F }.
Record workr := WR { r_x : seq X; r_y : seq Y; r_M : nat -> nat -> F }.
(** det_manip.hpp:58-84, 189-193 *)
Record core := Core { c_N : nat; c_det : F; c_sign : bool; c_row : seq nat; c_col : seq nat;
  c_xs : seq X; c_ys : seq Y; c_inv : nat -> nat -> F; c_nopts : nat; c_kmax : nat }.
Inductive try_kind := NoTry | Insert | Remove | ChangeCol | ChangeRow | ChangeRowCol | InsertK | RemoveK | Refill.
Record state := St { s_c : core; s_w1 : work1; s_wk : workk; s_wr : workr; s_newdet : F; s_newsign : bool; s_last : try_kind }.

Definition w1_init : work1 := W1 x0 y0 0 0 0 0 (fun=> 0) (fun=> 0) (fun=> 0) (fun=> 0) 0.
Definition wk_init : workk := WK 0 [::] [::] [::] [::] [::] [::] (fun _ _ => 0) (fun _ _ => 0) (fun _ _ => 0) (fun _ _ => 0) (fun _ _ => 0).
Definition wr_init : workr := WR [::] [::] (fun _ _ => 0).

(** det_manip.hpp:287-291 and 301-322 : constructors; mat_inv starts with arbitrary content *)
Definition make_empty : state :=
  St (Core 0 1 false [::] [::] [::] [::] (fun _ _ => 0) 0 1) w1_init wk_init wr_init 0 false NoTry.
Definition make_from (xs : seq X) (ys : seq Y) : res state :=
  if size xs != size ys then Throw
  else let N := size xs in
    let A := fun i j => f (nth x0 xs i) (nth y0 ys j) in
    Ok (if N == 0%N then make_empty
        else St (Core N (nda_det N A) false (iota 0 N) (iota 0 N) xs ys (nda_inv N A) 0 1) w1_init wk_init wr_init 0 false NoTry).

(** det_manip.hpp:336-345 : clear; complete_remove and complete_refill call it too *)
Definition clear_core (c : core) : core := Core 0 1 false [::] [::] [::] [::] (c_inv c) (c_nopts c) (c_kmax c).
Definition clear (s : state) : state :=
  St (clear_core (s_c s)) (s_w1 s) (s_wk s) (s_wr s) (s_newdet s) (s_newsign s) NoTry.

(** ---- read access, det_manip.hpp:350-427 ---- *)
Definition size_of (s : state) : nat := c_N (s_c s).
Definition get_x (s : state) i : X := nth x0 (c_xs (s_c s)) (nth 0%N (c_row (s_c s)) i).
Definition get_y (s : state) j : Y := nth y0 (c_ys (s_c s)) (nth 0%N (c_col (s_c s)) j).
Definition get_xs (s : state) : seq X := [seq get_x s i | i <- iota 0 (size_of s)].
Definition get_ys (s : state) : seq Y := [seq get_y s j | j <- iota 0 (size_of s)].
Definition inverse_matrix (s : state) i j : F := c_inv (s_c s) (nth 0%N (c_col (s_c s)) i) (nth 0%N (c_row (s_c s)) j).
Definition matrix (s : state) i j : F := f (get_x s i) (get_y s j).

(** ---- regenerate, det_manip.hpp:1148-1198 ---- *)
(** the determinant of the permutation matrix m(i, row[i]) = 1 *)
Definition perm_det n (p : seq nat) : F := nda_det n (fun i r => (nth 0%N p i == r)%:R).
Definition regenerate (check : bool) (c : core) : res core :=
  let N := c_N c in
  if N == 0%N then Ok (Core 0 1 false (c_row c) (c_col c) (c_xs c) (c_ys c) (c_inv c) (c_nopts c) (c_kmax c))
  else
    let A := fun i j => f (nth x0 (c_xs c) i) (nth y0 (c_ys c) j) in
    let d := nda_det N A in
    if sing d then Throw
    else let R := nda_inv N A in
    if check && deviates N R (c_inv c) then Throw
    else
      let s := perm_det N (c_row c) * perm_det N (c_col c) in
      Ok (Core N d (s != 1) (c_row c) (c_col c) (c_xs c) (c_ys c) R 0 (c_kmax c)).

Definition with_core (s : state) (c : core) : state :=
  St c (s_w1 s) (s_wk s) (s_wr s) (s_newdet s) (s_newsign s) (s_last s).
(** det_manip.hpp:392-395 *)
Definition determinant (s : state) : res (F * state) :=
  let c := s_c s in
  if sing (c_det c) then
    match regenerate false c with
    | Ok c' => Ok (sg (c_sign c') * c_det c', with_core s c')
    | Throw => Throw
    | UB => UB
    end
  else Ok (sg (c_sign c) * c_det c, s).

(** ---- swaps and rolls ---- *)
Definition swap_at (l : seq nat) i j : seq nat := set_nth 0%N (set_nth 0%N l i (nth 0%N l j)) j (nth 0%N l i).
Definition with_rc (c : core) (row col : seq nat) (sgn : bool) : core :=
  Core (c_N c) (c_det c) sgn row col (c_xs c) (c_ys c) (c_inv c) (c_nopts c) (c_kmax c).
(** det_manip.hpp:441-446, 452-456; an index out of range is undefined behaviour *)
Definition swap_row i j (s : state) : res state :=
  let c := s_c s in
  if i == j then Ok s
  else if ~~ ((i < c_N c)%N && (j < c_N c)%N) then UB
  else Ok (with_core s (with_rc c (swap_at (c_row c) i j) (c_col c) (~~ c_sign c))).
Definition swap_col i j (s : state) : res state :=
  let c := s_c s in
  if i == j then Ok s
  else if ~~ ((i < c_N c)%N && (j < c_N c)%N) then UB
  else Ok (with_core s (with_rc c (c_row c) (swap_at (c_col c) i j) (~~ c_sign c))).

(** det_manip.hpp:578, 580, 715, 717, 1328, 1338 : for (i = n-2; i >= p; i--) l[i+1] = l[i] *)
Definition shift_right (l : seq nat) p n : seq nat :=
  foldl (fun l i => set_nth 0%N l i.+1 (nth 0%N l i)) l (rev (iota p (n - 1 - p))).
(** det_manip.hpp:1333, 1343 : for (i = 0; i < n-1; i++) l[i] = l[i+1] *)
Definition shift_left (l : seq nat) n : seq nat :=
  foldl (fun l i => set_nth 0%N l i (nth 0%N l i.+1)) l (iota 0 (n - 1)).
Inductive roll := RNone | RUp | RDown | RLeft | RRight.
(** det_manip.hpp:1307, 1321-1354; rolling an empty matrix is undefined behaviour *)
Definition roll_down (l : seq nat) n : seq nat := set_nth 0%N (shift_right l 0 n) 0 (nth 0%N l (n - 1)).
Definition roll_up (l : seq nat) n : seq nat := set_nth 0%N (shift_left l n) (n - 1) (nth 0%N l 0).
Definition roll_matrix (r : roll) (s : state) : res (F * state) :=
  let c := s_c s in let N := c_N c in
  match r with
  | RNone => Ok (1, s)
  | _ =>
      if N == 0%N then UB
      else
        let flip := odd (N - 1) in
        let row := match r with RDown => roll_down (c_row c) N | RUp => roll_up (c_row c) N | _ => c_row c end in
        let col := match r with RRight => roll_down (c_col c) N | RLeft => roll_up (c_col c) N | _ => c_col c end in
        Ok (sg flip, with_core s (with_rc c row col (c_sign c (+) flip)))
  end.

(** ---- single insertion, det_manip.hpp:480-513 ---- *)
Definition try_insert i j (x : X) (y : Y) (s : state) : res (F * state) :=
  let c := s_c s in let N := c_N c in let w := s_w1 s in
  match s_last s with
  | NoTry =>
      if ~~ ((i <= N)%N && (j <= N)%N) then Throw
      else if N == 0%N then
        let w := W1 x y i j (w_ir w) (w_jr w) (w_MB w) (w_MC w) (w_B w) (w_C w) (w_ksi w) in
        Ok (f x y, St c w (s_wk s) (s_wr s) (f x y) false Insert)
      else
        let B := fun l => f (nth x0 (c_xs c) l) y in
        let C := fun l => f x (nth y0 (c_ys c) l) in
        let MB := fun a => sumN N (fun l => c_inv c a l * B l) in
        let ksi := f x y - sumN N (fun l => C l * MB l) in
        let newsign := if odd (i + j) then ~~ c_sign c else c_sign c in
        let w := W1 x y i j (w_ir w) (w_jr w) MB (w_MC w) B C ksi in
        Ok (ksi * (sg newsign * sg (c_sign c)), St c w (s_wk s) (s_wr s) (c_det c * ksi) newsign Insert)
  | _ => Throw
  end.
(** det_manip.hpp:551-592 *)
Definition complete_insert (s : state) : core :=
  let c := s_c s in let w := s_w1 s in
  let xs := rcons (c_xs c) (w_x w) in let ys := rcons (c_ys c) (w_y w) in
  let row := rcons (c_row c) 0%N in let col := rcons (c_col c) 0%N in
  if c_N c == 0%N then
    Core 1 (c_det c) (c_sign c) row col xs ys (upd (c_inv c) 0%N (upd (c_inv c 0%N) 0%N (1 / s_newdet s))) (c_nopts c) (c_kmax c)
  else
    let N0 := c_N c in
    let MC := upd (fun b => sumN N0 (fun l => c_inv c l b * w_C w l)) N0 (-1) in
    let MB := upd (w_MB w) N0 (-1) in
    let N := N0.+1 in
    let row := set_nth 0%N (shift_right row (w_i w) N) (w_i w) N0 in
    let col := set_nth 0%N (shift_right col (w_j w) N) (w_j w) N0 in
    let ksi := 1 / w_ksi w in
    let Z := fun a b => if (a == N0) || (b == N0) then 0 else c_inv c a b in
    Core N (c_det c) (c_sign c) row col xs ys (fun a b => Z a b + ksi * MB a * MC b) (c_nopts c) (c_kmax c).

(** ---- single removal, det_manip.hpp:739-756 ---- *)
Definition try_remove i j (s : state) : res (F * state) :=
  let c := s_c s in let N := c_N c in let w := s_w1 s in
  match s_last s with
  | NoTry =>
      if ~~ ((i < N)%N && (j < N)%N) then Throw
      else
        let jr := nth 0%N (c_col c) j in let ir := nth 0%N (c_row c) i in
        let ksi := c_inv c jr ir in
        let newsign := if odd (i + j) then ~~ c_sign c else c_sign c in
        let w := W1 (w_x w) (w_y w) i j ir jr (w_MB w) (w_MC w) (w_B w) (w_C w) ksi in
        Ok (ksi * (sg newsign * sg (c_sign c)), St c w (s_wk s) (s_wr s) (c_det c * ksi) newsign Remove)
  | _ => Throw
  end.
Definition swp a b i : nat := if i == a then b else if i == b then a else i.
(** det_manip.hpp:770-776, 777-783 and 870-876, 877-883 : put row ir (column jr) at [target] *)
Definition move_row ir target (c : core) : core :=
  if ir == target then c
  else Core (c_N c) (c_det c) (c_sign c) (swap_at (c_row c) (index ir (c_row c)) (index target (c_row c))) (c_col c)
            (set_nth x0 (c_xs c) ir (nth x0 (c_xs c) target)) (c_ys c)
            (fun a b => c_inv c a (swp ir target b)) (c_nopts c) (c_kmax c).
Definition move_col jr target (c : core) : core :=
  if jr == target then c
  else Core (c_N c) (c_det c) (c_sign c) (c_row c) (swap_at (c_col c) (index jr (c_col c)) (index target (c_col c)))
            (c_xs c) (set_nth y0 (c_ys c) jr (nth y0 (c_ys c) target))
            (fun a b => c_inv c (swp jr target a) b) (c_nopts c) (c_kmax c).
(** det_manip.hpp:787-788, 891-892, std::remove and std::remove_if: the kept elements are moved to the front, the rest of the vector has
    unspecified values (here: what was there) *)
Definition std_remove (p : pred nat) (l : seq nat) : seq nat :=
  let k := filter (predC p) l in k ++ drop (size k) l.
Definition pop_back (A : Type) (l : seq A) : seq A := take (size l - 1) l.
(** det_manip.hpp:759-801 *)
Definition complete_remove (s : state) : core :=
  let c := s_c s in let w := s_w1 s in
  if c_N c == 1%N then clear_core c
  else
    let c := move_row (w_ir w) (c_N c - 1)%N c in
    let c := move_col (w_jr w) (c_N c - 1)%N c in
    let N := (c_N c - 1)%N in
    let row := pop_back (std_remove (pred1 N) (c_row c)) in
    let col := pop_back (std_remove (pred1 N) (c_col c)) in
    let ksi := - 1 / c_inv c N N in
    Core N (c_det c) (c_sign c) row col (pop_back (c_xs c)) (pop_back (c_ys c))
         (fun a b => c_inv c a b + ksi * c_inv c a N * c_inv c N b) (c_nopts c) (c_kmax c).

(** ---- k-fold insertion, det_manip.hpp:610-674 ---- *)
(** work_data_typek::det_ksi, det_manip.hpp:160-175 *)
Definition det_ksi k (ksi : nat -> nat -> F) : F :=
  if k == 2%N then ksi 0%N 0%N * ksi 1%N 1%N - ksi 1%N 0%N * ksi 0%N 1%N
  else if k == 3%N then
    ksi 0%N 0%N * ksi 1%N 1%N * ksi 2%N 2%N + ksi 0%N 1%N * ksi 1%N 2%N * ksi 2%N 0%N + ksi 0%N 2%N * ksi 1%N 0%N * ksi 2%N 1%N
    - ksi 2%N 0%N * ksi 1%N 1%N * ksi 0%N 2%N - ksi 2%N 1%N * ksi 1%N 2%N * ksi 0%N 0%N - ksi 2%N 2%N * ksi 1%N 0%N * ksi 0%N 1%N
  else nda_det k ksi.
(** det_manip.hpp:620-625, std::stable_sort of the positions by the values *)
Definition argsort (v : seq nat) : seq nat := sort (fun a b => (nth 0%N v a <= nth 0%N v b)%N) (iota 0 (size v)).
(** det_manip.hpp:638-641 and 826-829 : the loop does not look at the last position of the sorted list *)
Definition checked (bound : nat) (v : seq nat) : bool :=
  all (fun l => (nth 0%N v l != nth 0%N v l.+1) && (nth 0%N v l < bound)%N) (iota 0 (size v - 1)).
(** k = 0 is not modelled (UB).  With k = 1 and kmax = 1 the work arrays are empty: UB.
    The last position, which is not checked, is undefined behaviour at completion when it is
    out of range; the model reports it at the try. *)
Definition try_insert_k (i j : seq nat) (x : seq X) (y : seq Y) (s : state) : res (F * state) :=
  let c := s_c s in let N := c_N c in
  match s_last s with
  | NoTry =>
      if ~~ ((size i == size j) && (size j == size x) && (size x == size y)) then Throw
      else
        let k := size i in let kmax := maxn (c_kmax c) k in
        if (k == 0)%N || (kmax < 2)%N then UB
        else
          let idx := argsort i in let idy := argsort j in
          let wi := [seq nth 0%N i a | a <- idx] in let wx := [seq nth x0 x a | a <- idx] in
          let wj := [seq nth 0%N j a | a <- idy] in let wy := [seq nth y0 y a | a <- idy] in
          if ~~ (checked (N + k) wi && checked (N + k) wj) then Throw
          else if ~~ ((last 0%N wi < N + k)%N && (last 0%N wj < N + k)%N) then UB
          else
            let c := Core (c_N c) (c_det c) (c_sign c) (c_row c) (c_col c) (c_xs c) (c_ys c) (c_inv c) (c_nopts c) kmax in
            let D := fun a b => f (nth x0 wx a) (nth y0 wy b) in
            let wk := s_wk s in
            if N == 0%N then
              let wk := WK k wx wy wi wj (k_ir wk) (k_jr wk) (k_MB wk) (k_MC wk) (k_B wk) (k_C wk) D in
              Ok (det_ksi k D, St c (s_w1 s) wk (s_wr s) (det_ksi k D) false InsertK)
            else
              let B := fun n l => f (nth x0 (c_xs c) n) (nth y0 wy l) in
              let C := fun l n => f (nth x0 wx l) (nth y0 (c_ys c) n) in
              let MB := fun a b => sumN N (fun l => c_inv c a l * B l b) in
              let ksi := fun a b => D a b - sumN N (fun l => C a l * MB l b) in
              let dk := det_ksi k ksi in
              let newsign := if odd (\sum_(l < k) (nth 0%N wi l + nth 0%N wj l)) then ~~ c_sign c else c_sign c in
              let wk := WK k wx wy wi wj (k_ir wk) (k_jr wk) MB (k_MC wk) B C ksi in
              Ok (dk * (sg newsign * sg (c_sign c)), St c (s_w1 s) wk (s_wr s) (c_det c * dk) newsign InsertK)
  | _ => Throw
  end.
(** the loop of det_manip.hpp:713-719, for row_num or col_num *)
Fixpoint place (l : seq nat) (ps : seq nat) (n : nat) : seq nat :=
  if ps is p :: ps' then place (set_nth 0%N (shift_right l p n.+1) p n) ps' n.+1 else l.
(** det_manip.hpp:681-727 *)
Definition complete_insert_k (s : state) : core :=
  let c := s_c s in let w := s_wk s in let k := k_k w in
  let xs := c_xs c ++ k_x w in let ys := c_ys c ++ k_y w in
  let row := c_row c ++ nseq k 0%N in let col := c_col c ++ nseq k 0%N in
  if c_N c == 0%N then
    Core k (c_det c) (c_sign c)
         (foldl (fun l m => set_nth 0%N l (nth 0%N (k_i w) m) m) row (iota 0 k))
         (foldl (fun l m => set_nth 0%N l (nth 0%N (k_j w) m) m) col (iota 0 k))
         xs ys (nda_inv k (k_ksi w)) (c_nopts c) (c_kmax c)
  else
    let N0 := c_N c in let N := (N0 + k)%N in
    (* - identity in the last k columns of MC, rows of MB *)
    let MC := fun a b => if (b < N0)%N then sumN N0 (fun l => k_C w a l * c_inv c l b) else - (a == (b - N0)%N)%:R in
    let MB := fun a b => if (a < N0)%N then k_MB w a b else - ((a - N0)%N == b)%:R in
    let ksi := nda_inv k (k_ksi w) in
    let Z := fun a b => if (N0 <= a)%N || (N0 <= b)%N then 0 else c_inv c a b in
    let KMC := fun a b => sumN k (fun l => ksi a l * MC l b) in
    Core N (c_det c) (c_sign c) (place row (k_i w) N0) (place col (k_j w) N0) xs ys
         (fun a b => Z a b + sumN k (fun l => MB a l * KMC l b)) (c_nopts c) (c_kmax c).

(** ---- k-fold removal, det_manip.hpp:812-849 ---- *)
Definition try_remove_k (i j : seq nat) (s : state) : res (F * state) :=
  let c := s_c s in let N := c_N c in
  let i := sort leq i in let j := sort leq j in
  match s_last s with
  | NoTry =>
      if ~~ ((2 <= N)%N && (size i == size j)) then Throw
      else
        let k := size i in let kmax := maxn (c_kmax c) k in
        if (k == 0)%N || (kmax < 2)%N then UB
        else if ~~ (checked N i && checked N j) then Throw
        else if ~~ ((last 0%N i < N)%N && (last 0%N j < N)%N) then UB
        else
          let c := Core (c_N c) (c_det c) (c_sign c) (c_row c) (c_col c) (c_xs c) (c_ys c) (c_inv c) (c_nopts c) kmax in
          let ir := [seq nth 0%N (c_row c) a | a <- i] in let jr := [seq nth 0%N (c_col c) a | a <- j] in
          let ksi := fun a b => c_inv c (nth 0%N jr a) (nth 0%N ir b) in
          let dk := det_ksi k ksi in
          let newsign := if odd (\sum_(l < k) (nth 0%N i l + nth 0%N j l)) then ~~ c_sign c else c_sign c in
          let wk := s_wk s in
          let wk := WK k (k_x wk) (k_y wk) i j ir jr (k_MB wk) (k_MC wk) (k_B wk) (k_C wk) ksi in
          Ok (dk * (sg newsign * sg (c_sign c)), St c (s_w1 s) wk (s_wr s) (c_det c * dk) newsign RemoveK)
  | _ => Throw
  end.
(** the loop of det_manip.hpp:869-884, m = k-1 down to 0 *)
Definition move_all (ir jr : seq nat) (c : core) : core :=
  let k := size ir in
  foldl (fun c m => let target := (c_N c - k + m)%N in
                    move_col (nth 0%N jr m) target (move_row (nth 0%N ir m) target c)) c (rev (iota 0 k)).
(** det_manip.hpp:853-906 *)
Definition complete_remove_k (s : state) : core :=
  let c := s_c s in let w := s_wk s in let k := k_k w in
  if c_N c == k then clear_core c
  else
    let c := move_all (sort leq (k_ir w)) (sort leq (k_jr w)) c in
    let N := (c_N c - k)%N in
    let row := take N (std_remove (leq N) (c_row c)) in
    let col := take N (std_remove (leq N) (c_col c)) in
    let ksi := nda_inv k (fun a b => c_inv c (N + a)%N (N + b)%N) in
    Core N (c_det c) (c_sign c) row col (take N (c_xs c)) (take N (c_ys c))
         (fun a b => c_inv c a b - sumN k (fun l => c_inv c a (N + l)%N * sumN k (fun m => ksi l m * c_inv c (N + m)%N b)))
         (c_nopts c) (c_kmax c).

(** ---- change of a column, det_manip.hpp:917-938 ---- *)
Definition try_change_col j (y : Y) (s : state) : res (F * state) :=
  let c := s_c s in let N := c_N c in let w := s_w1 s in
  match s_last s with
  | NoTry =>
      if ~~ (j < N)%N then Throw
      else
        let jr := nth 0%N (c_col c) j in
        let MC := fun i => f (nth x0 (c_xs c) i) y - f (nth x0 (c_xs c) i) (nth y0 (c_ys c) jr) in
        let MB := fun a => sumN N (fun l => c_inv c a l * MC l) in
        let ksi := 1 + MB jr in
        let w := W1 (w_x w) y (w_i w) j (w_ir w) jr MB MC (w_B w) (w_C w) ksi in
        Ok (ksi, St c w (s_wk s) (s_wr s) (c_det c * ksi) (c_sign c) ChangeCol)
  | _ => Throw
  end.
(** det_manip.hpp:941-954 *)
Definition complete_change_col (s : state) : core :=
  let c := s_c s in let w := s_w1 s in let jr := w_jr w in
  let ksi := - 1 / w_ksi w in
  let MB := upd (w_MB w) jr 0 in
  let M1 := fun a b => c_inv c a b + ksi * MB a * c_inv c jr b in
  Core (c_N c) (c_det c) (c_sign c) (c_row c) (c_col c) (c_xs c) (set_nth y0 (c_ys c) jr (w_y w))
       (fun a b => if a == jr then M1 a b * - ksi else M1 a b) (c_nopts c) (c_kmax c).

(** ---- change of a row, det_manip.hpp:964-984 ---- *)
Definition try_change_row i (x : X) (s : state) : res (F * state) :=
  let c := s_c s in let N := c_N c in let w := s_w1 s in
  match s_last s with
  | NoTry =>
      if ~~ (i < N)%N then Throw
      else
        let ir := nth 0%N (c_row c) i in
        let MB := fun l => f x (nth y0 (c_ys c) l) - f (nth x0 (c_xs c) ir) (nth y0 (c_ys c) l) in
        let MC := fun b => sumN N (fun l => c_inv c l b * MB l) in
        let ksi := 1 + MC ir in
        let w := W1 x (w_y w) i (w_j w) ir (w_jr w) MB MC (w_B w) (w_C w) ksi in
        Ok (ksi, St c w (s_wk s) (s_wr s) (c_det c * ksi) (c_sign c) ChangeRow)
  | _ => Throw
  end.
(** det_manip.hpp:987-999 *)
Definition complete_change_row (s : state) : core :=
  let c := s_c s in let w := s_w1 s in let ir := w_ir w in
  let ksi := - 1 / w_ksi w in
  let MC := upd (w_MC w) ir 0 in
  let M1 := fun a b => c_inv c a b + ksi * c_inv c a ir * MC b in
  Core (c_N c) (c_det c) (c_sign c) (c_row c) (c_col c) (set_nth x0 (c_xs c) ir (w_x w)) (c_ys c)
       (fun a b => if b == ir then M1 a b * - ksi else M1 a b) (c_nopts c) (c_kmax c).

(** ---- change of a row and a column, det_manip.hpp:1009-1047 ---- *)
Definition try_change_col_row i j (x : X) (y : Y) (s : state) : res (F * state) :=
  let c := s_c s in let N := c_N c in let w := s_w1 s in
  match s_last s with
  | NoTry =>
      if ~~ ((i < N)%N && (j < N)%N) then Throw
      else
        let ir := nth 0%N (c_row c) i in let jr := nth 0%N (c_col c) j in
        let xv := nth x0 (c_xs c) in let yv := nth y0 (c_ys c) in
        let MC := upd (fun l => f (xv l) y - f (xv l) (yv jr)) ir (f x y - f (xv ir) (yv jr)) in
        let MB := upd (fun l => f x (yv l) - f (xv ir) (yv l)) jr 0 in
        let C := fun a => sumN N (fun l => c_inv c a l * MC l) in
        let B := fun b => sumN N (fun l => c_inv c l b * MB l) in
        let Z := sumN N (fun l => MB l * C l) in
        let ratio := (1 + C jr) * (1 + B ir) - c_inv c jr ir * Z in
        let w := W1 x y i j ir jr MB MC B C ratio in
        Ok (ratio, St c w (s_wk s) (s_wr s) (c_det c * ratio) (c_sign c) ChangeRowCol)
  | _ => Throw
  end.
(** det_manip.hpp:1050-1077 *)
Definition complete_change_col_row (s : state) : core :=
  let c := s_c s in let w := s_w1 s in let N := c_N c in let ir := w_ir w in let jr := w_jr w in
  let D := w_ksi w in
  let a := - (1 + w_B w ir) / D in
  let b := - (1 + w_C w jr) / D in
  let Z := sumN N (fun l => w_MB w l * w_C w l) / D in
  let Mnn := c_inv c jr ir / D in
  let MB := fun l => c_inv c jr l in
  let MC := fun l => c_inv c l ir in
  Core N (c_det c) (c_sign c) (c_row c) (c_col c) (set_nth x0 (c_xs c) ir (w_x w)) (set_nth y0 (c_ys c) jr (w_y w))
       (fun p q => c_inv c p q + (a * w_C w p * MB q + b * MC p * w_B w q + Mnn * w_C w p * w_B w q + Z * MC p * MB q))
       (c_nopts c) (c_kmax c).

(** ---- refill, det_manip.hpp:1091-1118 ---- *)
Definition try_refill (xs : seq X) (ys : seq Y) (s : state) : res (F * state) :=
  let c := s_c s in
  match s_last s with
  | NoTry =>
      if size xs != size ys then Throw
      else if size xs == 0%N then
        Ok (1 / (sg (c_sign c) * c_det c), St c (s_w1 s) (s_wk s) (WR [::] [::] (r_M (s_wr s))) (s_newdet s) (s_newsign s) Refill)
      else
        let A := fun i j => f (nth x0 xs i) (nth y0 ys j) in
        let d := nda_det (size xs) A in
        Ok (d / (sg (c_sign c) * c_det c), St c (s_w1 s) (s_wk s) (WR xs ys A) d false Refill)
  | _ => Throw
  end.
(** det_manip.hpp:1122-1144; returns the core and newdet, newsign *)
Definition complete_refill (s : state) : core * F * bool :=
  let c := s_c s in let w := s_wr s in
  let N := size (r_x w) in
  if N == 0%N then (clear_core c, 1, false)
  else (Core N (c_det c) (c_sign c) (iota 0 N) (iota 0 N) (r_x w) (r_y w) (nda_inv N (r_M w)) (c_nopts c) (c_kmax c),
        s_newdet s, s_newsign s).

(** ---- complete_operation, det_manip.hpp:1214-1233 ---- *)
Definition complete_operation (s : state) : res state :=
  let fin (c : core) (nd : F) (ns : bool) :=
    let c := Core (c_N c) nd ns (c_row c) (c_col c) (c_xs c) (c_ys c) (c_inv c) (c_nopts c).+1 (c_kmax c) in
    let done c := St c (s_w1 s) (s_wk s) (s_wr s) nd ns NoTry in
    if (max_ops < c_nopts c)%N then
      match regenerate true c with Ok c => Ok (done c) | Throw => Throw | UB => UB end
    else Ok (done c) in
  let std c := fin c (s_newdet s) (s_newsign s) in
  match s_last s with
  | NoTry => Ok s
  | Insert => std (complete_insert s)
  | Remove => std (complete_remove s)
  | ChangeCol => std (complete_change_col s)
  | ChangeRow => std (complete_change_row s)
  | ChangeRowCol => std (complete_change_col_row s)
  | InsertK => std (complete_insert_k s)
  | RemoveK => std (complete_remove_k s)
  | Refill => let '(c, nd, ns) := complete_refill s in fin c nd ns
  end.
(** det_manip.hpp:1239 *)
Definition reject_last_try (s : state) : state :=
  St (s_c s) (s_w1 s) (s_wk s) (s_wr s) (s_newdet s) (s_newsign s) NoTry.

(** ---- histories ---- *)
Inductive trial :=
| TInsert (i j : nat) (x : X) (y : Y)
| TInsertK (i j : seq nat) (x : seq X) (y : seq Y)
| TRemove (i j : nat)
| TRemoveK (i j : seq nat)
| TChangeCol (j : nat) (y : Y)
| TChangeRow (i : nat) (x : X)
| TChangeColRow (i j : nat) (x : X) (y : Y)
| TRefill (x : seq X) (y : seq Y).
Definition do_try (t : trial) : state -> res (F * state) :=
  match t with
  | TInsert i j x y => try_insert i j x y
  | TInsertK i j x y => try_insert_k i j x y
  | TRemove i j => try_remove i j
  | TRemoveK i j => try_remove_k i j
  | TChangeCol j y => try_change_col j y
  | TChangeRow i x => try_change_row i x
  | TChangeColRow i j x y => try_change_col_row i j x y
  | TRefill x y => try_refill x y
  end.
(** a try is followed by complete_operation (true) or reject_last_try (false) *)
Inductive op :=
| OTry (t : trial) (accept : bool)
| OSwapRow (i j : nat) | OSwapCol (i j : nat) | ORoll (r : roll)
| OClear | ODeterminant | ORegenerate.
Definition step (o : op) (s : state) : res (option F * state) :=
  match o with
  | OTry t accept =>
      match do_try t s with
      | Ok (r, s1) => if accept then match complete_operation s1 with Ok s2 => Ok (Some r, s2) | Throw => Throw | UB => UB end
                      else Ok (Some r, reject_last_try s1)
      | Throw => Throw
      | UB => UB
      end
  | OSwapRow i j => match swap_row i j s with Ok s' => Ok (None, s') | Throw => Throw | UB => UB end
  | OSwapCol i j => match swap_col i j s with Ok s' => Ok (None, s') | Throw => Throw | UB => UB end
  | ORoll r => match roll_matrix r s with Ok (v, s') => Ok (Some v, s') | Throw => Throw | UB => UB end
  | OClear => Ok (None, clear s)
  | ODeterminant => match determinant s with Ok (v, s') => Ok (Some v, s') | Throw => Throw | UB => UB end
  | ORegenerate => match regenerate false (s_c s) with Ok c => Ok (None, with_core s c) | Throw => Throw | UB => UB end
  end.
Fixpoint run (h : seq op) (s : state) : res (seq (option F) * state) :=
  match h with
  | [::] => Ok ([::], s)
  | o :: h' => match step o s with
               | Ok (r, s1) => match run h' s1 with Ok (rs, s2) => Ok (r :: rs, s2) | Throw => Throw | UB => UB end
               | Throw => Throw
               | UB => UB
               end
  end.
End DetManip.
