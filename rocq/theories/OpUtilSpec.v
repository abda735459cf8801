(** Specification of the operator utilities (python/triqs/operators/util): the documented
    formulas, written with sums of products of c, c_dag and n, and the usual notions of
    quantum mechanics for operators. *)
From Coq Require Import ZArith String List Bool Reals.
From Coquelicot Require Import Complex.
From Verif Require Import Base Indices Scalar Fock OpModel OpExpr RealAtom UMatrix OpUtil.
Import ListNotations.

Notation oper := (expr CS).
Notation orbitals n := (seq 0 n).

(** equality of operators: (a - b).is_zero() *)
Definition same_op (a b : oper) : Prop := eval a = eval b.
Definition commute (a b : oper) : Prop := same_op (EMul a b) (EMul b a).
Definition hermitian (a : oper) : Prop := same_op (EDag a) a.
(** [a, b] *)
Definition bracket_op (a b : oper) : oper := ESub (EMul a b) (EMul b a).
Definition times (x : C) (a : oper) : oper := EMulS a (x : CS).
Definition osum {A} (l : list A) (f : A -> oper) : oper := fold_right (fun x e => EAdd (f x) e) (EScal (RtoC 0 : CS)) l.
Definition osum_if {A} (l : list A) (p : A -> bool) (f : A -> oper) : oper := osum (filter p l) f.

Section Formulas.
  (** label of the operators of a spin and an orbital *)
  Variable lab : string -> nat -> indices.
  Variable spins : list string.
  Variable n_orb : nat.
  Let c s a : oper := EC (lab s a).
  Let c_dag s a : oper := ECdag (lab s a).
  Let n s a : oper := EN (lab s a).

  (** hamiltonians.py:43 *)
  Definition slater_formula (U : nat -> nat -> nat -> nat -> C) : oper :=
    osum spins (fun s => osum spins (fun s' =>
      osum (orbitals n_orb) (fun i => osum (orbitals n_orb) (fun j => osum (orbitals n_orb) (fun k => osum (orbitals n_orb) (fun l =>
        times (Cmult (RtoC (1 / 2)) (U i j k l))
          (EMul (c_dag s i) (EMul (c_dag s' j) (EMul (c s' l) (c s k)))))))))).

  (** hamiltonians.py:206 : half the sum over (i s) <> (j s') of U_ij^{s s'} n_is n_js' *)
  Definition density_formula (U Uprime : nat -> nat -> C) : oper :=
    osum_if (list_prod (list_prod spins (orbitals n_orb)) (list_prod spins (orbitals n_orb)))
      (fun pq => negb (String.eqb (fst (fst pq)) (fst (snd pq)) && (snd (fst pq) =? snd (snd pq))%nat))
      (fun pq => let s := fst (fst pq) in let i := snd (fst pq) in let s' := fst (snd pq) in let j := snd (snd pq) in
         times (Cmult (RtoC (1 / 2)) (if String.eqb s s' then U i j else Uprime i j)) (EMul (n s i) (n s' j))).

  (** hamiltonians.py:105-107, for the spins up and down *)
  Definition kanamori_formula (up down : string) (U Uprime : nat -> nat -> C) (J : C) : oper :=
    let distinct := filter (fun ij => negb (fst ij =? snd ij)%nat) (list_prod (orbitals n_orb) (orbitals n_orb)) in
    EAdd (EAdd (density_formula U Uprime)
      (times (Copp (RtoC 1)) (osum distinct (fun ij => let (i, j) := (ij : nat * nat) in
         times J (EMul (c_dag up i) (EMul (c down i) (EMul (c_dag down j) (c up j))))))))
      (osum distinct (fun ij => let (i, j) := (ij : nat * nat) in
         times J (EMul (c_dag up i) (EMul (c_dag down i) (EMul (c down j) (c up j)))))).

  (** the one-body terms U_ii^{ss} n_is / 2 *)
  Definition self_term (U : nat -> nat -> C) : oper :=
    osum spins (fun s => osum (orbitals n_orb) (fun i => times (Cmult (RtoC (1 / 2)) (U i i)) (n s i))).

  (** observables.py:49 *)
  Definition number_formula : oper := osum spins (fun s => osum (orbitals n_orb) (fun i => EMul (c_dag s i) (c s i))).
  (** a one-body operator acting on spins only: sum over i, s, s' of c_dag_is tau_ss' c_is' *)
  Definition spin_operator (tau : string -> string -> C) : oper :=
    osum (orbitals n_orb) (fun i => osum spins (fun s => osum spins (fun s' => times (tau s s') (EMul (c_dag s i) (c s' i))))).
  (** a one-body operator acting on orbitals only (observables.py:156) *)
  Definition orbital_operator (M : nat -> nat -> C) : oper :=
    osum spins (fun s => osum (orbitals n_orb) (fun i => osum (orbitals n_orb) (fun i' => times (M i i') (EMul (c_dag s i) (c s i'))))).
End Formulas.

(** the labels of the spins and orbitals are different *)
Definition distinct_labels (lab : string -> nat -> indices) (spins : list string) (n_orb : nat) : Prop :=
  NoDup spins /\
  forall s a s' a', In s spins -> In s' spins -> (a < n_orb)%nat -> (a' < n_orb)%nat ->
    lab s a = lab s' a' -> s = s' /\ a = a'.

(** the columns of a square matrix are orthonormal *)
Definition unitary (n : nat) (T : nat -> nat -> C) : Prop :=
  forall j k, (j < n)%nat -> (k < n)%nat ->
    csum_n n (fun b => Cmult (Cconj (T b j)) (T b k)) = if (j =? k)%nat then RtoC 1 else RtoC 0.

(** spin matrices: half the Pauli matrices between spin up and spin down; S+ and S- raise and
    lower *)
Definition spin_matrix (up down : string) (c : component) (s s' : string) : C :=
  let u := String.eqb s up in let d := String.eqb s down in let u' := String.eqb s' up in let d' := String.eqb s' down in
  match c with
  | CX => if (u && d' || d && u')%bool then RtoC (1 / 2) else RtoC 0
  | CY => if (u && d')%bool then Copp (Cmult Ci (RtoC (1 / 2))) else if (d && u')%bool then Cmult Ci (RtoC (1 / 2)) else RtoC 0
  | CZ => if (u && u')%bool then RtoC (1 / 2) else if (d && d')%bool then Copp (RtoC (1 / 2)) else RtoC 0
  | CP => if (u && d')%bool then RtoC 1 else RtoC 0
  | CM => if (d && u')%bool then RtoC 1 else RtoC 0
  end.

(** an angular momentum: the commutation relations, the ladder operators and hermiticity *)
Definition angular_momentum (J : component -> oper) : Prop :=
  same_op (bracket_op (J CX) (J CY)) (times Ci (J CZ)) /\
  same_op (bracket_op (J CY) (J CZ)) (times Ci (J CX)) /\
  same_op (bracket_op (J CZ) (J CX)) (times Ci (J CY)) /\
  same_op (J CP) (EAdd (J CX) (times Ci (J CY))) /\
  same_op (J CM) (ESub (J CX) (times Ci (J CY))) /\
  hermitian (J CX) /\ hermitian (J CY) /\ hermitian (J CZ).
Definition sum_of_squares (J : component -> oper) : oper :=
  EAdd (EAdd (EMul (J CX) (J CX)) (EMul (J CY) (J CY))) (EMul (J CZ) (J CZ)).
Definition scalar_product (A B : component -> oper) : oper :=
  EAdd (EAdd (EMul (A CX) (B CX)) (EMul (A CY) (B CY))) (EMul (A CZ) (B CZ)).

(** the labels the builders use for these arguments *)
Definition labelled (off_diag : option bool) (mapping : option dict) (spins : list string) (n_orb : nat)
    (lab : string -> nat -> indices) : Prop :=
  (exists mk, get_mkind off_diag mapping = Ok mk /\
     forall s a, In s spins -> (a < n_orb)%nat -> mk s a = Ok (lab s a)) /\
  distinct_labels lab spins n_orb.

(** h_int_slater accepts a matrix that is real up to 1e-10, or any matrix with complex=True;
    without complex=True it uses the real parts *)
Definition accepted (cpx : bool) (U : tensor4) (n : nat) : Prop :=
  cpx = true \/ forall a b c d, (a < n)%nat -> (b < n)%nat -> (c < n)%nat -> (d < n)%nat -> (Rabs (snd (U a b c d)) <= / 10 ^ 10)%R.
Definition used (cpx : bool) (U : tensor4) : tensor4 := fun a b c d => if cpx then U a b c d else RtoC (fst (U a b c d)).

(** a usable basis argument: unitary T, or the cubic harmonics of p, d and f orbitals *)
Definition good_basis (n : nat) (b : basis_t) (T : option (nat -> nat -> C)) : Prop :=
  match b with
  | Spherical => match T with None => True | Some M => unitary n M end
  | Cubic => n = 3%nat \/ n = 5%nat \/ n = 7%nat
  | Other => exists M, T = Some M /\ unitary n M
  end.

(** ---- cubic harmonics and Clebsch-Gordan coefficients ---- *)
(** position of a name in a list of names *)
Definition position (x : string) (l : list string) : option nat := 
  (fix go k l := match l with [] => None | y :: l' => if String.eqb x y then Some k else go (Datatypes.S k) l' end) 0%nat l.
(** names of the t2g and eg harmonics of a d shell *)
Definition t2g_names : list string := ["xy"; "yz"; "xz"]%string.
Definition eg_names : list string := ["z^2"; "x^2-y^2"]%string.
(** the row of a named harmonic *)
Definition named_row (c : convention) (T : nat -> nat -> C) (x : string) : option (nat -> C) :=
  match position x (d_names c) with Some i => Some (T i) | None => None end.
Definition same_up_to_phase (r r' : nat -> C) : Prop := exists ph : C, Cmod ph = 1%R /\ forall m, (m < 5)%nat -> r m = Cmult ph (r' m).
(** <j1 m1 j2 m2 | j3 m3> = (-1)^(j1 - j2 + m3) sqrt(2 j3 + 1) (j1 j2 j3; m1 m2 -m3) *)
Definition cg_formula (j1 m1 j2 m2 j3 m3 : Z) : R := (par (j1 - j2 + m3) * sqrt (IZR (2 * j3 + 1)) * three_j j1 m1 j2 m2 j3 (- m3))%R.

(** the matrices of L_z, L_+ and L_- between the states m = -l, ..., l of 2l+1 orbitals *)
Definition orbital_matrix (n : nat) (c : component) (i j : nat) : C :=
  let l := ((INR n - 1) / 2)%R in let m := (INR j - l)%R in
  match c with
  | CZ => RtoC (if (i =? j)%nat then m else 0)
  | CP => RtoC (if (i =? j + 1)%nat then sqrt (l * (l + 1) - m * (m + 1)) else 0)
  | CM => RtoC (if (i + 1 =? j)%nat then sqrt (l * (l + 1) - m * (m - 1)) else 0)
  | _ => RtoC 0
  end.
