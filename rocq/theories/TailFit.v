(** Model of the fit of high-frequency expansions (c++/triqs/mesh/tail_fitter.hpp), of the functions
    that call it (c++/triqs/gfs/functions/functions2.hpp:50-56, 94-110, 136-141 and
    c++/triqs/gfs/functions/imfreq.hpp:248-290) and of the evaluation of a Matsubara Green's function
    outside its mesh (c++/triqs/gfs/evaluator.hpp:50-78).

    Simplifications: [double] is R and [dcomplex] is C (no rounding), [long] and [int] are Z.  Data and
    moments are flattened: the first index is the data index of the frequency (the order of the
    moment), the second one the component of the target (lines 215-229).  Numbers that are not finite
    (a division by a frequency that is zero) are the outcome [UB].  The least-squares solvers of nda
    (gelss_worker, gelss_worker_hermitian) are parameters: [smin] is the last singular value of the
    matrix, [solve] the solution and the error.  The first boolean tells which of the two solvers. *)
From Coq Require Import ZArith Reals List Bool Arith Lia.
From Coquelicot Require Import Complex.
From Verif Require Import Base Matsubara LinMesh Fourier.
Import ListNotations.
Local Open Scope R_scope.

(** the interface of the two meshes with a tail fitter: mesh/imfreq.hpp:128, 173-193, 230-233 and
    mesh/refreq.hpp:46-52, mesh/bases/linear.hpp:170-180 *)
Record fmesh : Type := mkFmesh { fm_size : Z; fm_first : Z; fm_last : Z; fm_value : Z -> C; fm_wmax : C; fm_pos : bool }.
Definition fm_imfreq (m : imfreq) : fmesh :=
  mkFmesh (if_size m) (if_first m) (if_last m) (fun n => (0, fr_value (if_freq m n))) (0, fr_value (if_freq m (if_last m))) (if_pos m).
Definition fm_refreq (m : linear) : fmesh :=
  mkFmesh (li_L m) 0 (li_L m - 1) (fun n => RtoC (li_value m n)) (RtoC (li_max m)) false.
Definition fm_to_data (m : fmesh) (n : Z) : nat := Z.to_nat (n - fm_first m).
Definition fm_valid (m : fmesh) (n : Z) : bool := (fm_first m <=? n)%Z && (n <=? fm_last m)%Z.

(** std::round : half away from zero *)
Definition cround (x : R) : Z := if Rle_dec 0 x then Int_part (x + 1 / 2) else (- Int_part (- x + 1 / 2))%Z.

(** a matrix: rows, columns, entries *)
Record cmat : Type := mkCmat { m_rows : nat; m_cols : nat; m_at : nat -> nat -> C }.
(** tail_fitter.hpp:34-44 : the powers of a point are accumulated *)
Fixpoint acc_mul (p : C) (n : nat) : C := match n with O => RtoC 1 | S k => Cmult (acc_mul p k) p end.
Definition vander (pts : list C) (order : Z) : cmat :=
  mkCmat (length pts) (Z.to_nat (order + 1)) (fun i n => acc_mul (nth i pts (RtoC 0)) n).
(** tail_fitter.hpp:49-64 *)
Definition tail_eval (A : rows) (om : C) (c : nat) : C :=
  fst (fold_left (fun st a => (Cplus (fst st) (Cmult (a c) (snd st)), Cdiv (snd st) om)) A (RtoC 0, RtoC 1)).

(** tail_fitter.hpp:69-85.  The two caches have one slot per number of known moments. *)
Record fitter : Type := mkFitter {
  tf_fraction : R; tf_max : Z; tf_adjust : bool; tf_order : Z;
  tf_lss : list (option cmat); tf_lssh : list (option cmat); tf_vander : option cmat; tf_idx : list Z }.
Definition max_order : Z := 9.
Definition no_lss : list (option cmat) := repeat None (Z.to_nat (max_order + 1)).
Definition make_fitter (fraction : R) (n_max : Z) (order : option Z) : fitter :=
  mkFitter fraction n_max (match order with None => true | Some _ => false end)
           (match order with None => max_order | Some e => e end) no_lss no_lss None [].
(** tail_fitter.hpp:92-95 *)
Definition default_fitter : fitter := make_fitter (2 / 10) 30 None.
(** tail_fitter.hpp:132-137 *)
Definition get_lss (f : fitter) (h : bool) : list (option cmat) := if h then tf_lssh f else tf_lss f.
Definition set_lss (f : fitter) (h : bool) (k : nat) (w : option cmat) : fitter :=
  let put l := firstn k l ++ w :: skipn (S k) l in
  mkFitter (tf_fraction f) (tf_max f) (tf_adjust f) (tf_order f)
           (if h then tf_lss f else put (tf_lss f)) (if h then put (tf_lssh f) else tf_lssh f) (tf_vander f) (tf_idx f).
Definition set_points (f : fitter) (idx : list Z) (v : option cmat) : fitter :=
  mkFitter (tf_fraction f) (tf_max f) (tf_adjust f) (tf_order f) (tf_lss f) (tf_lssh f) v idx.

(** tail_fitter.hpp:108 *)
Definition n_fit_range (f : fitter) (m : fmesh) : Z := cround (tf_fraction f * IZR (fm_size m) / 2).
(** tail_fitter.hpp:89 *)
Definition n_pts_in_tail (f : fitter) (m : fmesh) : Z := Z.min (n_fit_range f m) (tf_max f).
(** tail_fitter.hpp:120-125 : the indices are accumulated as [double], the conversion to [long] truncates *)
Fixpoint idx_loop (n : nat) (step i1 i2 : R) : list Z :=
  match n with
  | O => []
  | S k => trunc i1 :: trunc i2 :: idx_loop k step (i1 + step) (i2 + step)
  end.
(** tail_fitter.hpp:105-128.  reserve throws for a negative number of points. *)
Definition fit_indices (f : fitter) (m : fmesh) : res (list Z) :=
  let n_fit := n_fit_range f m in
  let n_tail := n_pts_in_tail f m in
  if (n_tail <? 0)%Z then Throw
  else Ok (idx_loop (Z.to_nat n_tail) (IZR n_fit / IZR n_tail) (IZR (fm_first m)) (IZR (fm_last m - n_fit))).

Section Fit.
  Variable smin : bool -> cmat -> R.
  Variable solve : bool -> cmat -> nat -> data -> option nat -> data * R.

  (** _vander(range::all, range(k, n + 1)) *)
  Definition columns (v : cmat) (k : nat) (n : Z) : cmat :=
    mkCmat (m_rows v) (Z.to_nat (n + 1) - k) (fun i j => m_at v i (k + j)%nat).
  (** tail_fitter.hpp:171-177 : n_max, n_max - 1, ..., k *)
  Definition search (h : bool) (v : cmat) (k : nat) (n_max : Z) : option cmat :=
    find (fun w => if Rlt_dec (/ 10 ^ 8) (smin h w) then true else false)
         (map (fun i => columns v k (n_max - Z.of_nat i)) (seq 0 (Z.to_nat (n_max - Z.of_nat k + 1)))).
  (** log10 of line 168 *)
  Definition log10 (x : R) : R := ln x / ln 10.

  (** tail_fitter.hpp:140-181.  The indices and the matrix are kept also when the call throws.
      An index of _lss beyond its ten slots (line 164) is undefined.  On line 168 a number above
      the range of [long] is undefined. *)
  Definition setup_lss (h : bool) (f : fitter) (m : fmesh) (k : nat) : fitter * res unit :=
    match (match tf_idx f with [] => fit_indices f m | l => Ok l end) with
    | Throw => (f, Throw)
    | UB => (f, UB)
    | Ok idx =>
      let om := Cmod (fm_wmax m) in
      if existsb (fun n => if Req_EM_T (Cmod (fm_value m n)) 0 then true else false) idx then (f, UB) else
      if Req_EM_T om 0 then (f, UB) else
      let v := match tf_vander f with
               | None => vander (map (fun n => Cdiv (RtoC om) (fm_value m n)) idx) (tf_order f)
               | Some v => if ((m_rows v =? 0) || (m_cols v =? 0))%nat
                           then vander (map (fun n => Cdiv (RtoC om) (fm_value m n)) idx) (tf_order f) else v
               end in
      let f := set_points f idx (Some v) in
      if (m_rows v / 2 <? k + 1)%nat then (f, Throw) else
      if (length (get_lss f h) <=? k)%nat then (f, UB) else
      let digits := 1 + 16 / log10 (1 + om) in
      if tf_adjust f && (if Rle_dec (2 ^ 63) digits then true else false) then (f, UB) else
      let w := if negb (tf_adjust f) then Some (columns v k (tf_order f))
               else search h v k (Z.min (Z.min max_order (trunc digits)) (Z.of_nat (m_rows v / 2))) in
      (set_lss f h k w, match w with None => Throw | Some _ => Ok tt end)
    end.

  (** the powers of om_max accumulated on lines 241-250 and 261-267 *)
  Fixpoint acc_div (om : R) (n : nat) : R := match n with O => 1 | S k => acc_div om k / om end.
  Fixpoint acc_pow (om : R) (n : nat) : R := match n with O => 1 | S k => acc_pow om k * om end.

  (** tail_fitter.hpp:192-288.  [n] and [nk] are the numbers of components of data and known moments. *)
  Definition fit (h : bool) (f : fitter) (m : fmesh) (n : nat) (g : data) (normalize : bool) (km : rows) (nk : nat) (inner : option nat)
    : fitter * res (rows * R) :=
    if h && (match inner with None => true | Some _ => false end) then (f, Throw) else
    if fm_pos m then (f, Throw) else
    let k := length km in
    if (tf_order f <? Z.of_nat k)%Z then (f, Ok (km, 0)) else
    if (length (get_lss f h) <=? k)%nat then (f, UB) else
    let (f, r) := match nth k (get_lss f h) None with
                  | Some _ => (f, Ok tt)
                  | None => setup_lss h f m k
                  end in
    (f, do _ <- r ;
        match nth k (get_lss f h) None, tf_vander f with
        | Some w, Some v =>
          if existsb (fun i => negb (fm_valid m i)) (tf_idx f) then UB else
          let om := Cmod (fm_wmax m) in
          let g_mat : data := fun i c => g (fm_to_data m (nth i (tf_idx f) 0%Z)) c in
          if (0 <? k)%nat && negb (n =? nk)%nat then Throw else
          let g_mat : data := if (0 <? k)%nat
            then fun i c => Cminus (g_mat i c)
              (fold_left (fun s o => Cplus s (Cmult (m_at v i o) (Cmult (RtoC (acc_div om o)) (row km o c)))) (seq 0 k) (RtoC 0))
            else g_mat in
          let (a, err) := solve h w n g_mat inner in
          Ok (km ++ map (fun i c => if normalize then Cmult (a i c) (RtoC (acc_pow om (k + i))) else a i c) (seq 0 (m_cols w)), err)
        | _, _ => UB
        end).

  (** tail_fitter.hpp:302-325 : the handle of a mesh *)
  Definition handle : Type := option fitter.
  Definition set_tail_fit_parameters (fraction : R) (n_max : Z) (order : option Z) : handle := Some (make_fitter fraction n_max order).
  Definition get_tail_fitter (hd : handle) : fitter := match hd with None => default_fitter | Some f => f end.
  (** functions2.hpp:50-56 *)
  Definition fit_tail (hd : handle) (m : fmesh) (n : nat) (g : data) (km : rows) (nk : nat) : handle * res (rows * R) :=
    let (f, r) := fit false (get_tail_fitter hd) m n g true km nk None in (Some f, r).
  (** functions2.hpp:94-110 : [sh] is the shape of the target *)
  Definition fit_hermitian_tail (hd : handle) (m : fmesh) (sh : list nat) (g : data) (km : rows) (nk : nat) : handle * res (rows * R) :=
    match sh with
    | [] => let (f, r) := fit true (get_tail_fitter hd) m 1 g true km nk (Some 1%nat) in (Some f, r)
    | [a; b] => if (a =? b)%nat
                then let (f, r) := fit true (get_tail_fitter hd) m (a * b) g true km nk (Some a) in (Some f, r)
                else (hd, Throw)
    | _ => (hd, Throw)
    end.
  (** functions2.hpp:136-141 *)
  Definition fit_tail_no_normalize (hd : handle) (m : fmesh) (n : nat) (g : data) : handle * res (rows * R) :=
    let (f, r) := fit false (get_tail_fitter hd) m n g false [] 0 None in (Some f, r).

  (** gfs/evaluator.hpp:52-74 : the value at a Matsubara frequency *)
  Definition eval_iw (hd : handle) (m : imfreq) (n : nat) (g : data) (f : freq) : handle * res (nat -> C) :=
    if if_valid m (fr_n f) then (hd, Ok (g (Z.to_nat (if_to_data m (fr_n f))))) else
    if if_pos m then
      let sh := if stat_eqb (if_stat m) Fermion then 1%Z else 0%Z in
      if if_valid m (- fr_n f - sh) then (hd, Ok (fun c => Cconj (g (Z.to_nat (if_to_data m (- fr_n f - sh))) c)))
      else (hd, Throw)
    else
    let (hd, r) := fit_tail_no_normalize hd (fm_imfreq m) n g in
    (hd, do p <- r ;
         if Req_EM_T (fr_value f) 0 then UB else
         let x := Cdiv (RtoC (Cmod (fm_wmax (fm_imfreq m)))) (0, fr_value f) in
         Ok (fun c => fst (fold_left (fun st a => (Cplus (fst st) (Cmult (a c) (snd st)), Cmult (snd st) x)) (fst p) (RtoC 0, RtoC 1)))).

  (** gfs/functions/imfreq.hpp:259-262 *)
  Definition replace_by_tail (m : imfreq) (g : data) (tail : rows) (n_min : Z) : data := fun d c =>
    let n := if_to_index m (Z.of_nat d) in
    if ((n_min <=? n) || (n <? - n_min))%Z then tail_eval tail (0, fr_value (if_freq m n)) c else g d c.
  (** gfs/functions/imfreq.hpp:264-268 *)
  Definition replace_by_tail_in_fit_window (hd : handle) (m : imfreq) (g : data) (tail : rows) : data :=
    replace_by_tail m g tail (if_last m - n_fit_range (get_tail_fitter hd) (fm_imfreq m)).
  (** gfs/functions/imfreq.hpp:248-257 : a view of rows idx_min .. idx_max; rows outside the data are undefined *)
  Definition restricted_view (m : imfreq) (g : data) (n_max : Z) : res (imfreq * data) :=
    let rm := mkImfreq (if_beta m) Fermion n_max false in
    let lo := if_to_data m (if_first rm) in
    let hi := if_to_data m (if_last rm) in
    if ((lo <? 0) || (hi + 1 <? lo) || (if_size m <? hi + 1))%Z then UB
    else Ok (rm, fun d => g (Z.to_nat lo + d)%nat).
  (** gfs/functions/imfreq.hpp:270-290 : the view has a mesh, and so a fitter, of its own *)
  Definition fit_tail_on_window (m : imfreq) (n : nat) (g : data) (n_min n_max : Z) (km : rows) (nk : nat) (n_tail_max order : Z) : res (rows * R) :=
    let n_max := if (n_max =? -1)%Z then if_last m else n_max in
    do v <- restricted_view m g n_max ;
    if (n_max =? 0)%Z then UB else
    snd (fit_tail (set_tail_fit_parameters (IZR (n_max - n_min) / IZR n_max) n_tail_max (Some order)) (fm_imfreq (fst v)) n (snd v) km nk).
End Fit.
