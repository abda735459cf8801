(** Model of c++/triqs/stat/histograms.hpp and histograms.cpp.

    Real numbers are exact rationals (Q).  Counters are unbounded.  The bins of [_data] are
    doubles holding counts or, after pdf and cdf, fractions.  A NaN sample is outside the model
    (it fails both comparisons of l. 41, and int(floor(NaN)) is undefined behaviour).
    Simplification: n_bins < 2^31, so that the conversion to int of l. 44 is exact. *)
From Coq Require Import ZArith QArith Qround List Bool.
From Verif Require Import Base.
Import ListNotations.
Local Open Scope Q_scope.

(** histograms.hpp:39-44 *)
Record hist : Type := mkHist { h_a : Q; h_b : Q; h_nbins : Z; h_npts : Z; h_lost : Z; h_data : list Q; h_step : Q }.

(** histogram::_init, histograms.cpp:24-27 *)
Definition init_step (a b : Q) (n_bins : Z) : res Q :=
  if Qle_bool b a then Throw else Ok (inject_Z (n_bins - 1) / (b - a)).
(** histograms.hpp:63; a negative number of bins is not modelled (nda refuses it) *)
Definition make (a b : Q) (n_bins : Z) : res hist :=
  do st <- init_step a b n_bins; Ok (mkHist a b n_bins 0 0 (repeat 0 (Z.to_nat n_bins)) st).
(** histograms.hpp:56 *)
Definition make_int (a b : Z) : res hist := make (inject_Z a) (inject_Z b) (b - a + 1).

(** ++_data[n] *)
Fixpoint incr (l : list Q) (n : nat) : list Q :=
  match l, n with
  | [], _ => []
  | x :: l', O => (x + 1) :: l'
  | x :: l', S n' => x :: incr l' n'
  end.

(** histogram::operator<<, histograms.cpp:39-49; an index outside of _data is undefined behaviour *)
Definition push (h : hist) (x : Q) : res hist :=
  if negb (Qle_bool (h_a h) x) || negb (Qle_bool x (h_b h))
  then Ok (mkHist (h_a h) (h_b h) (h_nbins h) (h_npts h) (h_lost h + 1) (h_data h) (h_step h))
  else
    let n := Qfloor ((x - h_a h) * h_step h + (1 # 2)) in
    if (n <? 0)%Z || (Z.of_nat (length (h_data h)) <=? n)%Z then UB
    else Ok (mkHist (h_a h) (h_b h) (h_nbins h) (h_npts h + 1) (h_lost h) (incr (h_data h) (Z.to_nat n)) (h_step h)).
Fixpoint push_all (h : hist) (xs : list Q) : res hist :=
  match xs with [] => Ok h | x :: xs' => do h' <- push h x; push_all h' xs' end.

(** histograms.hpp:83 *)
Definition mesh_point (h : hist) (n : Z) : Q := h_a h + inject_Z n / h_step h.
(** histograms.hpp:122-126 *)
Definition clear (h : hist) : hist :=
  mkHist (h_a h) (h_b h) (h_nbins h) 0 0 (map (fun _ => 0) (h_data h)) (h_step h).

Fixpoint add_lists (l1 l2 : list Q) : list Q :=
  match l1, l2 with x :: l1', y :: l2' => (x + y) :: add_lists l1' l2' | _, _ => [] end.
(** operator+, histograms.cpp:51-61 *)
Definition add (h1 h2 : hist) : res hist :=
  if negb (Qeq_bool (h_a h1) (h_a h2) && Qeq_bool (h_b h1) (h_b h2)) || negb (length (h_data h1) =? length (h_data h2))%nat then Throw
  else Ok (mkHist (h_a h1) (h_b h1) (h_nbins h1) (h_npts h1 + h_npts h2) (h_lost h1 + h_lost h2) (add_lists (h_data h1) (h_data h2)) (h_step h1)).
(** mpi_reduce, histograms.hpp:154-161 : the ranks must hold arrays of the same size; the
    result on a rank that gets it.  MPI sums arrays of the size of the first one. *)
Definition mpi_reduce (hs : list hist) : res hist :=
  match hs with
  | [] => UB
  | h :: hs' =>
      do st <- init_step (h_a h) (h_b h) (h_nbins h);
      Ok (mkHist (h_a h) (h_b h) (h_nbins h) (fold_left (fun n g => n + h_npts g)%Z hs' (h_npts h)) (fold_left (fun n g => n + h_lost g)%Z hs' (h_lost h))
                 (fold_left (fun d g => add_lists d (h_data g)) hs' (h_data h)) st)
  end.

(** pdf, histograms.hpp:206-210; with no data point the entries are 0/0 (NaN): None *)
Definition pdf (h : hist) : option hist :=
  if (h_npts h =? 0)%Z then None
  else Some (mkHist (h_a h) (h_b h) (h_nbins h) (h_npts h) (h_lost h) (map (fun x => x / inject_Z (h_npts h)) (h_data h)) (h_step h)).
(** cdf._data[i] += cdf._data[i - 1], histograms.hpp:218 *)
Fixpoint running (s : Q) (l : list Q) : list Q :=
  match l with [] => [] | x :: l' => (s + x) :: running (s + x) l' end.
Definition partial_sums (l : list Q) : list Q := match l with [] => [] | x :: l' => x :: running x l' end.
(** cdf, histograms.hpp:216-221 *)
Definition cdf (h : hist) : option hist :=
  if (h_npts h =? 0)%Z then None
  else Some (mkHist (h_a h) (h_b h) (h_nbins h) (h_npts h) (h_lost h) (map (fun x => x / inject_Z (h_npts h)) (partial_sums (h_data h))) (h_step h)).

(** h5_write and h5_read, histograms.cpp:63-82 : the dataset and its attributes; the step is computed again *)
Record h5_hist := mkH5 { f_data : list Q; f_a : Q; f_b : Q; f_nbins : Z; f_npts : Z; f_lost : Z }.
Definition h5_write (h : hist) : h5_hist := mkH5 (h_data h) (h_a h) (h_b h) (h_nbins h) (h_npts h) (h_lost h).
Definition h5_read (f : h5_hist) : res hist :=
  do st <- init_step (f_a f) (f_b f) (f_nbins f); Ok (mkHist (f_a f) (f_b f) (f_nbins f) (f_npts f) (f_lost f) (f_data f) st).

(** ---- specification ---- *)
(** the centre of bin n of a histogram over [a, b] with N bins *)
Definition centre (a b : Q) (N n : Z) : Q := a + inject_Z n * (b - a) / inject_Z (N - 1).
Definition in_range (a b x : Q) : bool := Qle_bool a x && Qle_bool x b.
(** x belongs to bin n: it lies within half a bin length of the centre, the right end excluded *)
Definition in_bin (a b : Q) (N n : Z) (x : Q) : bool :=
  let half := (b - a) / inject_Z (N - 1) / 2 in
  Qle_bool (centre a b N n - half) x && negb (Qle_bool (centre a b N n + half) x).
Definition count (p : Q -> bool) (xs : list Q) : Z := Z.of_nat (length (filter p xs)).
Definition total (l : list Q) : Q := fold_right Qplus 0 l.
