(** Model of c++/triqs/stat/mean_error.hpp and c++/triqs/stat/jackknife.hpp.

    Numbers are in an algebraically closed numeric field C (exact arithmetic); real data are the
    real elements of C.  A series is a list.  An MPI program over p ranks is a list of p local
    arguments; all_reduce delivers the sum over the ranks to every rank, so the result of a
    collective call is the list of the values the ranks return.

    Simplification: arrays are treated component by component (one number per datum) in
    mean_error; in jackknife a datum is a vector and f returns one number. *)
From mathcomp Require Import all_ssreflect all_algebra.
From Verif Require Import Base.
Set Implicit Arguments.
Unset Strict Implicit.
Unset Printing Implicit Defensive.
Import GRing.Theory Num.Theory.
Local Open Scope ring_scope.

Section Stat.
Variable C : numClosedFieldType.

(** mean_error.hpp:32-38 : mean_calc += (x - mean_calc) / (n + 1) *)
Definition mean_step (st : nat * C) (x : C) : nat * C := (st.1.+1, st.2 + (x - st.2) / st.1.+1%:R).
Definition mean_loop (data : seq C) : C := (foldl mean_step (0%N, 0) data).2.
(** data[0] is read first: an empty container is undefined behaviour (l. 33-34) *)
Definition mean (data : seq C) : res C := if data is [::] then UB else Ok (mean_loop data).

(** mpi::all_reduce with MPI_SUM over the values of the ranks *)
Definition all_reduce (vals : seq C) : C := \sum_(v <- vals) v.

(** mean_error.hpp:46-53 *)
Definition mean_mpi (datas : seq (seq C)) : res (seq C) :=
  if has (@nilp _) datas then UB
  else
    let N := sumn (map size datas) in
    let M := all_reduce [seq mean_loop d * ((size d)%:R / N%:R) | d <- datas] in
    Ok [seq M | d <- datas].

(** mean_error.hpp:67 and 84 : err_calc += real(conj(x - mean) * (x - mean) / (length * (length - 1))) *)
Definition err_loop (m : C) (length : nat) (data : seq C) : C :=
  foldl (fun e x => e + 'Re ((x - m)^* * (x - m) / (length * (length - 1))%:R)) 0 data.
(** mean_error.hpp:61-70; for a single datum the error is 0/0: [None] stands for NaN *)
Definition mean_and_err (data : seq C) : res (C * option C) :=
  if data is [::] then UB
  else
    let length := size data in let m := mean_loop data in
    Ok (m, if length == 1%N then None else Some (sqrtC (err_loop m length data))).
(** mean_error.hpp:78-88 *)
Definition mean_and_err_mpi (datas : seq (seq C)) : res (seq (C * option C)) :=
  match mean_mpi datas with
  | Ok Ms =>
      let length := sumn (map size datas) in
      let e := all_reduce [seq err_loop md.1 length md.2 | md <- zip Ms datas] in
      Ok [seq (m, if length == 1%N then None else Some (sqrtC e)) | m <- Ms]
  | Throw => Throw
  | UB => UB
  end.

(** details::mpi_reduce_MQ, mean_error.hpp:92-108 : every rank passes (Mi, Qi, count_i); the value
    of Q is the one the root gets *)
Definition mpi_reduce_MQ (parts : seq (C * C * nat)) : C * C * nat :=
  let count_total := sumn [seq p.2 | p <- parts] in
  let M := all_reduce [seq p.1.1 * (p.2%:R / count_total%:R) | p <- parts] in
  let Q := all_reduce [seq p.1.2 + p.2%:R * 'Re ((p.1.1 - M)^* * (p.1.1 - M)) | p <- parts] in
  (M, Q, count_total).

(** ---- jackknife ---- *)
Variable V : lmodType C.

(** jackknifed_t(V const &), jackknife.hpp:42-48 *)
Definition jk_sum (s : seq V) : V := foldl +%R (head 0 s) (behead s).
(** jackknifed_t::operator[], jackknife.hpp:61 *)
Definition jk_at (sum : V) (n_tot : nat) (s : seq V) (i : nat) : V := (n_tot - 1)%:R^-1 *: (sum - nth 0 s i).
(** jackknifed_t::average, jackknife.hpp:58 *)
Definition jk_average (sum : V) (n_tot : nat) : V := n_tot%:R^-1 *: sum.

Record jk_result := Jk { jk_avg : C; jk_err : C; jk_M : C; jk_direct : C }.

(** jackknife.hpp:85-89 : M = f(ja[0]); M += (f(ja[i]) - M) / (i + 1) *)
Definition jk_mean (g : nat -> C) (N : nat) : C := foldl (fun M i => M + (g i - M) / i.+1%:R) (g 0%N) (iota 1 (N - 1)).
(** jackknife.hpp:101-105 *)
Definition jk_Q (g : nat -> C) (M : C) (N : nat) : C := foldl (fun Q i => Q + `|g i - M| ^+ 2) 0 (iota 0 N).

(** jackknife, jackknife.hpp:141-145 with jackknife_impl 68-114 and c = nullptr.  The constructors
    of jackknifed_t read the first element of each series before the emptiness check.  With one
    datum, f is called on 0/0: the model does not say what happens (reported as UB). *)
Definition jackknife (f : seq V -> C) (aa : seq (seq V)) : res jk_result :=
  if nilp aa || has (@nilp _) aa then UB
  else
    let N := size (head [::] aa) in
    if ~~ all (fun a => size a == N) aa then Throw
    else if N == 1%N then UB
    else
      let ja i := [seq jk_at (jk_sum a) (size a) a i | a <- aa] in
      let g i := f (ja i) in
      let M := jk_mean g N in
      let Q := jk_Q g M N in
      let fa := f [seq jk_average (jk_sum a) (size a) | a <- aa] in
      Ok (Jk (N%:R * (fa - M) + M) (sqrtC ((N - 1)%:R / N%:R) * sqrtC Q) M fa).

(** jackknife_mpi, jackknife.hpp:180-182 with jackknife_impl 68-114 and the constructor 51-55.
    [ranks] lists the series of each rank (rank 0 first).  Ntot is the result of mpi::reduce (not
    all_reduce, l. 94): MPI leaves the receive buffer of the ranks other than 0 as it was, [junk]
    is the content of that buffer.  A size mismatch on a rank throws there. *)
Definition jackknife_mpi (junk : nat -> C) (f : seq V -> C) (ranks : seq (seq (seq V))) : res (seq jk_result) :=
  if has (fun aa => nilp aa || has (@nilp _) aa) ranks then UB
  else
    let N r := size (head [::] (nth [::] ranks r)) in
    if ~~ all (fun aa => all (fun a => size a == size (head [::] aa)) aa) ranks then Throw
    else
      let nser := size (head [::] ranks) in
      (* the all_reduce of l. 53-54, one per series *)
      let n_tot k := sumn [seq size (nth [::] aa k) | aa <- ranks] in
      let sum k : V := \sum_(aa <- ranks) jk_sum (nth [::] aa k) in
      if n_tot 0%N == 1%N then UB
      else
        let g r i := f [seq jk_at (sum k) (n_tot k) (nth [::] (nth [::] ranks r) k) i | k <- iota 0 nser] in
        let rs := iota 0 (size ranks) in
        let Ntot r : C := if r == 0%N then (sumn [seq N r | r <- rs])%:R else junk r in
        let M := all_reduce [seq jk_mean (g r) (N r) * ((N r)%:R / Ntot r) | r <- rs] in
        let Q := all_reduce [seq jk_Q (g r) M (N r) | r <- rs] in
        let fa := f [seq jk_average (sum k) (n_tot k) | k <- iota 0 nser] in
        Ok [seq Jk ((N r)%:R * (fa - M) + M) (sqrtC ((Ntot r - 1) / Ntot r) * sqrtC Q) M fa | r <- rs].

(** ---- specification ---- *)
Definition avg (xs : seq C) : C := (\sum_(x <- xs) x) / (size xs)%:R.
(** sum of the squared deviations from the mean *)
Definition sqdev (xs : seq C) : C := \sum_(x <- xs) `|x - avg xs| ^+ 2.
(** standard error of the mean *)
Definition std_err (xs : seq C) : C := sqrtC (sqdev xs / ((size xs)%:R * ((size xs)%:R - 1))).
(** the series without its datum number i, and its mean *)
Definition leave_out (i : nat) (s : seq V) : seq V := take i s ++ drop i.+1 s.
Definition vmean (s : seq V) : V := (size s)%:R^-1 *: \sum_(x <- s) x.
(** the values of f on the leave-one-out means of the series *)
Definition resampled (f : seq V -> C) (aa : seq (seq V)) : seq C :=
  [seq f [seq vmean (leave_out i a) | a <- aa] | i <- iota 0 (size (head [::] aa))].
(** the four estimators of the documentation, jackknife.hpp:130-139 *)
Definition jk_spec (f : seq V -> C) (aa : seq (seq V)) : jk_result :=
  let N := (size (head [::] aa))%:R in
  let fJ := avg (resampled f aa) in
  let fd := f [seq vmean a | a <- aa] in
  Jk (N * fd - (N - 1) * fJ) (sqrtC ((N - 1) * (sqdev (resampled f aa) / N))) fJ fd.
(** the series of all the ranks joined *)
Definition joined (ranks : seq (seq (seq V))) : seq (seq V) :=
  [seq flatten [seq nth [::] aa k | aa <- ranks] | k <- iota 0 (size (head [::] ranks))].
(** the data number i of all series, and the list of all of them *)
Definition row (aa : seq (seq V)) i : seq V := [seq nth 0 a i | a <- aa].
Definition rows (aa : seq (seq V)) : seq (seq V) := [seq row aa i | i <- iota 0 (size (head [::] aa))].
(** at least one series, all series of the same length, which is at least two *)
Definition regular (aa : seq (seq V)) : bool :=
  [&& ~~ nilp aa, (1 < size (head [::] aa))%N & all (fun a => size a == size (head [::] aa)) aa].
(** f is linear in its K arguments together *)
Definition lin K (f : seq V -> C) : Prop :=
  forall c u v, size u = K -> size v = K -> f [seq c *: p.1 + p.2 | p <- zip u v] = c * f u + f v.
(** f is a constant plus a linear form plus a bilinear form on the diagonal *)
Definition quad K (c : C) (L : seq V -> C) (B : seq V -> seq V -> C) (f : seq V -> C) : Prop :=
  [/\ lin K L, (forall u, size u = K -> lin K (B u)), (forall v, size v = K -> lin K (B ^~ v)) &
      forall u, size u = K -> f u = c + L u + B u u].
(** every rank passes K series of the same length; the total length *)
Definition uniform K (ranks : seq (seq (seq V))) : bool :=
  all (fun aa => (size aa == K) && all (fun a => size a == size (head [::] aa)) aa) ranks.
Definition total (ranks : seq (seq (seq V))) : nat := sumn [seq size (head [::] aa) | aa <- ranks].
(** at least one rank; every rank passes the same number of series (at least one), of a common
    non-zero length on the rank; at least two data in all *)
Definition mpi_ok (ranks : seq (seq (seq V))) : bool :=
  [&& ~~ nilp ranks, (0 < size (head [::] ranks))%N, uniform (size (head [::] ranks)) ranks,
      all (fun aa => 0 < size (head [::] aa))%N ranks & (1 < total ranks)%N].
End Stat.
