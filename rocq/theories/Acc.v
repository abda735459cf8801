(** Model of c++/triqs/stat/accumulator.hpp.

    Data are numbers of an algebraically closed numeric field (exact arithmetic); arrays are
    treated component by component.  [max_n_bins] is an integer (negative: unbounded); capacities
    and counts are natural numbers without overflow (a capacity below 1 is outside the theorems: the
    comment of l. 41 demands >= 1).  [moved] is the value std::move leaves behind in a bin. *)
From mathcomp Require Import all_ssreflect all_algebra.
From Verif Require Import Base Stat.
Set Implicit Arguments.
Unset Strict Implicit.
Unset Printing Implicit Defensive.
Import GRing.Theory Num.Theory.
Local Open Scope ring_scope.

Section Acc.
Variable C : numClosedFieldType.
Variable moved : C.

(** ---- lin_binning, accumulator.hpp:39-110 ---- *)
Record lin := Lin { l_max : int; l_cap : nat; l_last : nat; l_bins : seq C; l_count : nat }.
(** accumulator.hpp:50-56 *)
Definition lin_init (max : int) (cap : nat) : lin := Lin max cap 0 (if max == 0 then [::] else [:: 0]) 0.

(** accumulator.hpp:89-93: one round of the loop over the new bins but the last *)
Definition compress_step (f : nat) (b : seq C) (i : nat) : seq C :=
  let b := if i != 0%N then set_nth 0 (set_nth 0 b i (nth 0 b (f * i))) (f * i) moved else b in
  let b := foldl (fun b j => set_nth 0 b i (nth 0 b i + nth 0 b (f * i + j))) b (iota 1 (f - 1)) in
  set_nth 0 b i (nth 0 b i / f%:R).
(** accumulator.hpp:79-109; moving a bin onto itself (one new bin) is taken to leave it unchanged *)
Definition compress (f : nat) (s : lin) : lin :=
  if (l_max s == 0) || (f < 2)%N then s
  else
    let n := size (l_bins s) in
    let bins_left := (n %% f)%N in
    let n_new := if bins_left != 0%N then (n %/ f).+1 else (n %/ f)%N in
    let chunk := if bins_left != 0%N then bins_left else f in
    let b := foldl (compress_step f) (l_bins s) (iota 0 (n_new - 1)) in
    let new_last := (l_last s + (chunk - 1) * l_cap s)%N in
    let p := (n_new - 1)%N in let q := (f * p)%N in
    let b := if q == p then b else set_nth 0 (set_nth 0 b p (nth 0 b q)) q moved in
    let b := if (1 < chunk)%N then
               let b := foldl (fun b j => set_nth 0 b p (nth 0 b p + nth 0 b (q + j))) b (iota 1 (chunk - 2)) in
               let b := set_nth 0 b p (nth 0 b p * (l_cap s)%:R) in
               let b := set_nth 0 b p (nth 0 b p + nth 0 b (q + (chunk - 1)) * (l_last s)%:R) in
               set_nth 0 b p (nth 0 b p / new_last%:R)
             else b in
    Lin (l_max s) (l_cap s * f) new_last (take n_new b) (l_count s).
(** lin_binning::operator<<, accumulator.hpp:60-76 *)
Definition lin_push (s : lin) (x : C) : lin :=
  let s := Lin (l_max s) (l_cap s) (l_last s) (l_bins s) (l_count s).+1 in
  if l_max s == 0 then s
  else
    let s := if [&& 1 < l_max s, (size (l_bins s))%:Z == l_max s & l_last s == l_cap s] then compress 2 s else s in
    if (l_last s == l_cap s) && (l_max s != 1) then
      Lin (l_max s) (l_cap s) 1 (rcons (l_bins s) x) (l_count s)
    else
      let k := (l_last s).+1 in let back := (size (l_bins s) - 1)%N in
      Lin (l_max s) (l_cap s) k (set_nth 0 (l_bins s) back (nth 0 (l_bins s) back + (x - nth 0 (l_bins s) back) / k%:R)) (l_count s).

(** ---- log_binning, accumulator.hpp:136-232 ---- *)
Record log := Log { g_max : int; g_M : seq C; g_Q : seq C; g_acc : seq C; g_ac : seq nat; g_count : nat }.
(** accumulator.hpp:150-168 *)
Definition log_init (max : int) : log :=
  if max == 0 then Log max [::] [::] [::] [::] 0
  else Log max [:: 0] [:: 0] (if max != 1 then [:: 0] else [::]) (if max != 1 then [:: 0%N] else [::]) 0.
(** the loop of accumulator.hpp:185-194; returns acc, acc_count and the final n *)
Fixpoint up (prev : C) (acc : seq C) (ac : seq nat) : seq C * seq nat * nat :=
  match acc, ac with
  | a :: acc', k :: ac' =>
      let a' := a + prev in
      if (k.+1 < 2)%N then (a' :: acc', k.+1 :: ac', 0%N)
      else let '(r, rc, n) := up a' acc' ac' in (a' :: r, k.+1 :: rc, n.+1)
  | _, _ => (acc, ac, 0%N)
  end.
(** the value of the int expression 1 << s (accumulator.hpp:198) equals count: s = 31 gives a negative
    number, a larger s is undefined behaviour *)
Definition is_shifted (s count : nat) : res bool := if (s < 31)%N then Ok (count == 2 ^ s)%N else if s == 31%N then Ok false else UB.
(** one round of the loop of accumulator.hpp:213-221 *)
Definition down_step (count : nat) (t : res (seq C * seq C * seq C * seq nat)) (n : nat) : res (seq C * seq C * seq C * seq nat) :=
  match t with
  | Ok (M, Q, acc, ac) =>
      if (size M <= n.+1)%N then UB
      else
        let cap := (2 ^ n.+1)%N in
        let x_m := nth 0 acc n / cap%:R - nth 0 M n.+1 in
        let k := (count %/ cap)%N in
        Ok (set_nth 0 M n.+1 (nth 0 M n.+1 + x_m / k%:R),
            set_nth 0 Q n.+1 (nth 0 Q n.+1 + (k%:R - 1) / k%:R * 'Re (x_m^* * x_m)),
            set_nth 0 acc n 0, set_nth 0%N ac n 0%N)
  | Throw => Throw
  | UB => UB
  end.
(** log_binning::operator<<, accumulator.hpp:172-231 *)
Definition log_push (s : log) (x : C) : res log :=
  if g_max s == 0 then Ok s
  else
    let count := (g_count s).+1 in
    let fin M Q acc ac :=
      let x_m := x - nth 0 M 0 in
      Ok (Log (g_max s) (set_nth 0 M 0 (nth 0 M 0 + x_m / count%:R))
              (set_nth 0 Q 0 (nth 0 Q 0 + (count%:R - 1) / count%:R * 'Re (x_m^* * x_m))) acc ac count) in
    if g_max s == 1 then fin (g_M s) (g_Q s) (g_acc s) (g_ac s)
    else
      let '(acc, ac, n) := up x (g_acc s) (g_ac s) in
      match is_shifted (size acc) count with
      | Ok full =>
          let n_bins := (size (g_Q s))%:Z in
          let grow := full && ((g_max s < 0) || (n_bins < g_max s)) in
          let more := grow && ((g_max s < 0) || (n_bins < g_max s - 1)) in
          let last_acc := last 0 acc in
          let acc := if more then rcons acc last_acc else acc in
          let ac := if more then rcons ac 1%N else ac in
          let M := if grow then rcons (g_M s) last_acc else g_M s in
          let Q := if grow then rcons (g_Q s) 0 else g_Q s in
          match foldl (down_step count) (Ok (M, Q, acc, ac)) (rev (iota 0 n)) with
          | Ok (M, Q, acc, ac) => fin M Q acc ac
          | Throw => Throw
          | UB => UB
          end
      | Throw => Throw
      | UB => UB
      end.

(** ---- accumulator ---- *)
Record accumulator := Accu { a_log : log; a_lin : lin; a_count : nat }.
(** accumulator.hpp:347-349 *)
Definition acc_init (nlog nlin : int) (cap : nat) : accumulator := Accu (log_init nlog) (lin_init nlin cap) 0.
(** accumulator.hpp:392-397 *)
Definition acc_push (a : accumulator) (x : C) : res accumulator :=
  match log_push (a_log a) x with
  | Ok g => Ok (Accu g (lin_push (a_lin a) x) (a_count a).+1)
  | Throw => Throw
  | UB => UB
  end.
(** compress_linear_bins, accumulator.hpp:500 *)
Definition acc_compress (f : nat) (a : accumulator) : accumulator := Accu (a_log a) (compress f (a_lin a)) (a_count a).
Inductive op := Push (x : C) | Compress (f : nat).
Fixpoint run (h : seq op) (a : accumulator) : res accumulator :=
  match h with
  | [::] => Ok a
  | Push x :: h' => match acc_push a x with Ok a' => run h' a' | Throw => Throw | UB => UB end
  | Compress f :: h' => run h' (acc_compress f a)
  end.

(** log_bin_errors, accumulator.hpp:402-420 *)
Definition log_bin_errors (a : accumulator) : seq C * seq nat :=
  let counts := [seq (g_count (a_log a) %/ 2 ^ n)%N | n <- iota 0 (size (g_Q (a_log a)))] in
  ([seq let c := nth 0%N counts n in
        if (c <= 1)%N then 0 else sqrtC (nth 0 (g_Q (a_log a)) n / (c * (c - 1))%:R) | n <- iota 0 (size (g_Q (a_log a)))],
   counts).
(** log_bin_errors_all_reduce, accumulator.hpp:427-483, as seen by every rank: level n is merged over
    the ranks that have it (the two loops differ only in the communicator) *)
Definition log_bin_errors_all_reduce (accs : seq accumulator) : seq C * seq nat :=
  let nb (a : accumulator) := size (g_Q (a_log a)) in
  let max_n := foldr maxn 0%N (map nb accs) in
  let merged n := mpi_reduce_MQ [seq (nth 0 (g_M (a_log a)) n, nth 0 (g_Q (a_log a)) n, (g_count (a_log a) %/ 2 ^ n)%N)
                                | a <- accs & (n < nb a)%N] in
  ([seq let '(_, q, c) := merged n in if (c <= 1)%N then 0 else sqrtC (q / (c * (c - 1))%:R) | n <- iota 0 max_n],
   [seq (merged n).2 | n <- iota 0 max_n]).

(** h5_write and h5_read, accumulator.hpp:112-126, 235-251, 297-309 : [h5_roundtrip t a] is the
    accumulator [t] after reading what was written from [a]; max_n_bins of the logarithmic part
    and the count of the linear part are not in the file *)
Definition h5_roundtrip (t a : accumulator) : accumulator :=
  Accu (Log (g_max (a_log t)) (g_M (a_log a)) (g_Q (a_log a)) (g_acc (a_log a)) (g_ac (a_log a)) (g_count (a_log a)))
       (Lin (l_max (a_lin a)) (l_cap (a_lin a)) (l_last (a_lin a)) (l_bins (a_lin a)) (l_count (a_lin t)))
       (a_count a).
(** the default constructor, accumulator.hpp:314 with the member initialisers 40-44, 138-144 *)
Definition acc_default : accumulator := Accu (Log 0 [::] [::] [::] [::] 0) (Lin 0 1 0 [::] 0) 0.

(** ---- specification ---- *)
Definition data (h : seq op) : seq C := pmap (fun o => if o is Push x then Some x else None) h.
(** the block number i of length c of the data *)
Definition block (c i : nat) (xs : seq C) : seq C := take c (drop (c * i) xs).
(** the smallest number of blocks of length c that hold n data (one block if there are none) *)
Definition n_blocks (c n : nat) : nat := maxn 1 ((n + (c - 1)) %/ c).
(** the means of the completed blocks of length c *)
Definition full_means (c : nat) (xs : seq C) : seq C := [seq avg (block c i xs) | i <- iota 0 (size xs %/ c)].
(** number of levels the logarithmic binning must have *)
Definition n_levels (max : int) (n : nat) : nat :=
  if max == 0 then 0%N
  else let l := if n == 0%N then 1%N else (trunc_log 2 n).+1 in
       if max < 0 then l else minn (absz max) l.
End Acc.
