(** Model of python/triqs/operators/util/U_matrix.py : interaction matrices.

    Arrays are functions of their indices (a matrix of size n is only read at indices
    below n), floats are real or complex numbers, math.sqrt is the real square root.
    Integers are Z where the code computes with signed integers. *)
From Coq Require Import ZArith String List Bool Reals Factorial.
From Coquelicot Require Import Complex.
From Verif Require Import Base.
Import ListNotations.
Local Open Scope Z_scope.

(** python range(a, b) on integers *)
Definition zrange (a b : Z) : list Z := map (fun k => a + Z.of_nat k) (seq 0 (Z.to_nat (b - a))).
(** sum of a list of reals (an accumulation loop starting at 0) *)
Definition rsum {A} (l : list A) (f : A -> R) : R := fold_left (fun acc x => (acc + f x)%R) l 0%R.

(** line 24 : fact = scipy.special.factorial, as an exact number; never called on a negative
    integer here *)
Definition fact (z : Z) : R := INR (Factorial.fact (Z.to_nat z)).

(** -1.0 if z % 2 else 1.0 *)
Definition par (z : Z) : R := if Z.odd z then (-1)%R else 1%R.

(** lines 550-599  three_j_symbol *)
Definition three_j (j1 m1 j2 m2 j3 m3 : Z) : R :=
  (* 579-585 *)
  if negb (m1 + m2 + m3 =? 0) || (m1 <? - j1) || (j1 <? m1) || (m2 <? - j2) || (j2 <? m2)
     || (m3 <? - j3) || (j3 <? m3) || (j1 + j2 <? j3) || (j3 <? Z.abs (j1 - j2))
  then 0%R
  else
    (* 587-589 *)
    let sign := par (j1 - j2 - m3) in
    let pre := (sign * sqrt (fact (j1 + j2 - j3) * fact (j1 - j2 + j3) * fact (- j1 + j2 + j3) / fact (j1 + j2 + j3 + 1))
                * sqrt (fact (j1 - m1) * fact (j1 + m1) * fact (j2 - m2) * fact (j2 + m2) * fact (j3 - m3) * fact (j3 + m3)))%R in
    (* 591-592 *)
    let t_min := Z.max (Z.max (j2 - j3 - m1) (j1 - j3 + m2)) 0 in
    let t_max := Z.min (Z.min (j1 - m1) (j2 + m2)) (j1 + j2 - j3) in
    (* 594-599 *)
    (pre * rsum (zrange t_min (t_max + 1)) (fun t =>
       par t / (fact t * fact (j3 - j2 + m1 + t) * fact (j3 - j1 - m2 + t) * fact (j1 + j2 - j3 - t) * fact (j1 - m1 - t) * fact (j2 + m2 - t))))%R.

(** lines 601-628  clebsch_gordan.  Line 627 tests [jm1[0]-jm2[0]+jm3[1] % 2]; in Python %
    binds tighter than + and -, so the tested integer is j1 - j2 + (m3 % 2). *)
Definition clebsch_gordan (j1 m1 j2 m2 j3 m3 : Z) : R :=
  (sqrt (IZR (2 * j3 + 1)) * (if negb (j1 - j2 + m3 mod 2 =? 0)%Z then -1 else 1) * three_j j1 m1 j2 m2 j3 (- m3))%R.

(** lines 509-548  angular_matrix_element *)
Definition angular_matrix_element (l k m1 m2 m3 m4 : Z) : R :=
  (rsum (zrange (- k) (k + 1)) (fun q => three_j l (- m1) k q l m3 * three_j l (- m2) k (- q) l m4 * par (m1 + q + m2))
   * (IZR ((2 * l + 1) ^ 2) * three_j l 0 k 0 l 0 ^ 2))%R.

(** lines 439-474  U_J_to_radial_integrals *)
Definition U_J_to_radial_integrals (l : nat) (U_int J_hund : R) : res (list R) :=
  match l with
  | 1%nat => Ok [U_int; 5 * J_hund]%R
  | 2%nat => let F1 := (J_hund * 14 / (1 + 63 / 100))%R in Ok [U_int; F1; 630 / 1000 * F1]%R
  | 3%nat => let F1 := (6435 * J_hund / (286 + 195 * 451 / 675 + 250 * 1001 / 2025))%R in
             Ok [U_int; F1; 451 * F1 / 675; 1001 * F1 / 2025]%R
  | _ => Throw (* ValueError *)
  end.

(** lines 476-506  radial_integrals_to_U_J (an index outside the list is an IndexError) *)
Definition radial_integrals_to_U_J (l : nat) (F : list R) : res (R * R) :=
  match l with
  | 1%nat | 2%nat | 3%nat =>
      match F with
      | F0 :: F1 :: _ =>
          Ok (F0, match l with
                  | 1%nat => (F1 / 5)%R
                  | 2%nat => (F1 * (1 + 63 / 100) / 14)%R
                  | _ => (F1 * (286 + 195 * 451 / 675 + 250 * 1001 / 2025) / 6435)%R
                  end)
      | _ => Throw (* IndexError *)
      end
  | _ => Throw (* ValueError *)
  end.

(** the conventions of lines 339-343 *)
Inductive convention : Type := Triqs | Vasp | Wien2k | Wannier90 | Qe.

(** a matrix filled with zeros, then with the listed entries *)
Definition entries (l : list (nat * nat * C)) : nat -> nat -> C :=
  fold_left (fun T e => let '(i, j, x) := e in
               fun a b => if (a =? i)%nat && (b =? j)%nat then x else T a b) l (fun _ _ => RtoC 0).
Definition rs2 : C := RtoC (1 / sqrt 2).
Definition is2 : C := Cmult Ci (RtoC (1 / sqrt 2)).

(** lines 327-407  spherical_to_cubic : the entries set by the code; for l = 0 it sets none
    (lines 359-360).  The result is a square matrix of size 2l+1. *)
Definition spherical_to_cubic (l : nat) (c : convention) : res (nat -> nat -> C) :=
  match l with
  | 0%nat => Ok (entries [])
  | 1%nat => match c with
       | Wannier90 | Qe =>
           Ok (entries [(1, 0, rs2); (1, 2, Copp rs2); (2, 0, is2); (2, 2, is2); (0, 1, RtoC 1)])%nat
       | _ => Ok (entries [(0, 0, rs2); (0, 2, Copp rs2); (1, 0, is2); (1, 2, is2); (2, 1, RtoC 1)])%nat
       end
  | 2%nat => match c with
       | Wien2k =>
           Ok (entries [(0, 2, RtoC 1); (1, 0, rs2); (1, 4, rs2); (2, 0, Copp rs2); (2, 4, rs2);
                        (3, 1, rs2); (3, 3, Copp rs2); (4, 1, rs2); (4, 3, rs2)])%nat
       | Wannier90 | Qe =>
           Ok (entries [(0, 2, RtoC 1); (1, 1, rs2); (1, 3, Copp rs2); (2, 1, is2); (2, 3, is2);
                        (3, 0, rs2); (3, 4, rs2); (4, 0, is2); (4, 4, Copp is2)])%nat
       | _ => Ok (entries [(0, 0, is2); (0, 4, Copp is2); (1, 1, is2); (1, 3, is2); (2, 2, RtoC 1);
                           (3, 1, rs2); (3, 3, Copp rs2); (4, 0, rs2); (4, 4, rs2)])%nat
       end
  | 3%nat => match c with
       | Wien2k | Wannier90 | Qe => Throw (* ValueError *)
       | _ => Ok (entries [(0, 0, rs2); (0, 6, Copp rs2); (1, 1, rs2); (1, 5, rs2); (2, 2, rs2); (2, 4, Copp rs2);
                           (3, 3, RtoC 1); (4, 2, is2); (4, 4, is2); (5, 1, is2); (5, 5, Copp is2);
                           (6, 0, is2); (6, 6, is2)])%nat
       end
  | _ => Throw (* ValueError *)
  end.

(** sum over 0, ..., n-1 of complex numbers *)
Definition csum_n (n : nat) (f : nat -> C) : C := fold_right (fun i s => Cplus (f i) s) (RtoC 0) (seq 0 n).

Definition tensor4 : Type := nat -> nat -> nat -> nat -> C.

(** lines 303-325  transform_U_matrix : einsum("ij,kl,jlmo,mn,op", conj T, conj T, U, T^t, T^t);
    with no explicit output the result indices are the letters met once, in alphabetical
    order: i, k, n, p. *)
Definition transform_U_matrix (n : nat) (U : tensor4) (T : nat -> nat -> C) : tensor4 := fun i k nn p =>
  csum_n n (fun j => csum_n n (fun l => csum_n n (fun m => csum_n n (fun o =>
    Cmult (Cmult (Cmult (Cmult (Cconj (T i j)) (Cconj (T k l))) (U j l m o)) (T nn m)) (T p o))))).

(** basis argument of U_matrix_slater and L_op *)
Inductive basis_t : Type := Spherical | Cubic | Other.

(** lines 29-112  U_matrix_slater with radial_integrals given (line 92 only prints a
    warning), or with U_int and J_hund given.  Giving exactly one of U_int and J_hund and no
    integrals reaches line 101 with None: TypeError. *)
Definition slater_spherical (l : nat) (F : list R) : tensor4 := fun a1 a2 a3 a4 =>
  let z a := Z.of_nat a - Z.of_nat l in
  RtoC (rsum (combine (seq 0 (length F)) F) (fun nF =>
          snd nF * angular_matrix_element (Z.of_nat l) (2 * Z.of_nat (fst nF)) (z a1) (z a2) (z a3) (z a4)))%R.
Definition U_matrix_slater (l : nat) (radial : option (list R)) (U_int J_hund : option R)
    (basis : basis_t) (T : option (nat -> nat -> C)) : res tensor4 :=
  (* 85-93 *)
  do F <- match radial, U_int, J_hund with
          | None, None, None => Throw (* ValueError *)
          | None, Some U, Some J => U_J_to_radial_integrals l U J
          | None, _, _ => Throw (* TypeError *)
          | Some F, Some U, Some J =>
              if (length F =? l + 1)%nat then do _ <- U_J_to_radial_integrals l U J ; Ok F
              else Throw (* ValueError *)
          | Some F, _, _ => Ok F
          end ;
  let U := slater_spherical l F in
  (* 107-112 *)
  do T' <- match basis with
           | Cubic => do M <- spherical_to_cubic l Triqs ; Ok (Some M)
           | Other => match T with None => Throw (* ValueError *) | Some M => Ok (Some M) end
           | Spherical => Ok T
           end ;
  match T' with
  | Some M => Ok (transform_U_matrix (2 * l + 1) U M)
  | None => Ok U
  end.

(** lines 115-142  reduce_4index_to_2index : (U, Uprime) *)
Definition reduce_4index (U4 : tensor4) : (nat -> nat -> R) * (nat -> nat -> R) :=
  (fun m mp => (fst (U4 m mp m mp) - fst (U4 m mp mp m))%R, fun m mp => fst (U4 m mp m mp)).

(** lines 196-218  U_matrix_kanamori, two-index form *)
Definition kanamori_2 (U_int J_hund : R) (Up_int : option R) : (nat -> nat -> R) * (nat -> nat -> R) :=
  let Up := match Up_int with Some u => u | None => (U_int - 2 * J_hund)%R end in
  (fun m mp => if (m =? mp)%nat then 0%R else (Up - J_hund)%R,
   fun m mp => if (m =? mp)%nat then U_int else Up).
(** lines 200-203, 219-231  U_matrix_kanamori, full_Uijkl=True *)
Definition kanamori_4 (U_int J_hund : R) (Up_int Jc_hund : option R) : tensor4 :=
  let Up := match Up_int with Some u => u | None => (U_int - 2 * J_hund)%R end in
  let Jc := match Jc_hund with Some j => j | None => J_hund end in
  fun i j k l =>
    RtoC (if ((i =? j) && (j =? k) && (k =? l))%nat then U_int
          else if ((i =? k) && (j =? l))%nat then Up
          else if ((i =? l) && (j =? k))%nat then J_hund
          else if ((i =? j) && (k =? l))%nat then Jc
          else 0%R).

(** lines 258-265, 292-300  t2g_submatrix and eg_submatrix : subarray (lines 653-655) keeps the
    listed indices of every axis *)
Definition t2g_indices (c : convention) : list nat :=
  match c with Wien2k => [2; 3; 4] | Wannier90 | Qe => [1; 2; 4] | _ => [0; 1; 3] end%nat.
Definition eg_indices (c : convention) : list nat :=
  match c with Wien2k => [0; 1] | Wannier90 | Qe => [0; 3] | _ => [2; 4] end%nat.
Definition sub2 {X} (idx : list nat) (U : nat -> nat -> X) : nat -> nat -> X :=
  fun i j => U (nth i idx 0%nat) (nth j idx 0%nat).
Definition sub4 {X} (idx : list nat) (U : nat -> nat -> nat -> nat -> X) : nat -> nat -> nat -> nat -> X :=
  fun i j k l => U (nth i idx 0%nat) (nth j idx 0%nat) (nth k idx 0%nat) (nth l idx 0%nat).
(** names of the cubic harmonics, lines 362-368, 376, 383, 390 *)
Definition d_names (c : convention) : list string :=
  match c with
  | Wien2k => ["z^2"; "x^2-y^2"; "xy"; "yz"; "xz"]
  | Wannier90 | Qe => ["z^2"; "xz"; "yz"; "x^2-y^2"; "xy"]
  | _ => ["xy"; "yz"; "z^2"; "xz"; "x^2-y^2"]
  end%string.
