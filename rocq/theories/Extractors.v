(** Model of c++/triqs/operators/util/extractors.hpp : coefficients of an operator as dictionaries,
    matrices and block matrices. *)
From Coq Require Import ZArith List Bool String.
From Verif Require Import Base Indices Scalar Fock OpModel Hilbert.
Import ListNotations.

Section Extractors.
  Context (S : scalar_ops).
  Local Open Scope K_scope.

  (** lines 39 and 41 : std::map from tuples of indices (here lists of length 2 or 4), kept in key order *)
  Definition key : Type := list indices.
  Definition dict : Type := list (key * S).
  Definition kcmp : key -> key -> comparison := lex_cmp icmp.

  (** std::map::insert : keeps an existing element *)
  Fixpoint d_insert (k : key) (x : S) (d : dict) : dict :=
    match d with
    | [] => [(k, x)]
    | (k', x') :: d' =>
        match kcmp k k' with
        | Eq => d
        | Lt => (k, x) :: d
        | Gt => (k', x') :: d_insert k x d'
        end
    end.

  (** scalar_t(0.5) *)
  Variable half : S.

  (** lines 63-76, one term: the entries inserted, or None for a term of another form *)
  Definition h_entries (m : monomial) (c : S) : option (list (key * S)) :=
    match m with
    | [a; b] => if negb (dag a && negb (dag b)) then None else Some [([ind a; ind b], c)]
    | _ => None
    end.
  (** lines 99-113 *)
  Definition U2_entries (m : monomial) (c : S) : option (list (key * S)) :=
    match m with
    | [a; b; x; y] =>
        if negb (dag a && dag b && negb (dag x) && negb (dag y)) || negb (ieqb (ind a) (ind y)) || negb (ieqb (ind b) (ind x)) then None
        else Some [([ind a; ind b], c); ([ind b; ind a], c)]
    | _ => None
    end.
  (** lines 136-152 *)
  Definition U4_entries (m : monomial) (c : S) : option (list (key * S)) :=
    match m with
    | [a; b; x; y] =>
        if negb (dag a && dag b && negb (dag x) && negb (dag y)) then None
        else Some [([ind a; ind b; ind y; ind x], half * c); ([ind b; ind a; ind x; ind y], half * c);
                   ([ind a; ind b; ind x; ind y], - half * c); ([ind b; ind a; ind y; ind x], - half * c)]
    | _ => None
    end.

  (** the loop over the terms (lines 63, 99, 136); a term of another form throws unless ignored *)
  Section Loop.
    Variable entries : monomial -> S -> option (list (key * S)).
    Variable ignore_irrelevant : bool.
    Fixpoint extract_loop (h : omap S) (d : dict) : res dict :=
      match h with
      | [] => Ok d
      | (m, c) :: h' =>
          match entries m c with
          | Some es => extract_loop h' (fold_left (fun d kx => d_insert (fst kx) (snd kx) d) es d)
          | None => if ignore_irrelevant then extract_loop h' d else Throw
          end
      end.
  End Loop.
  (** lines 59-79 *)
  Definition extract_h_dict (ignore : bool) (h : omap S) : res dict := extract_loop h_entries ignore h [].
  (** lines 95-116 *)
  Definition extract_U_dict2 (ignore : bool) (h : omap S) : res dict := extract_loop U2_entries ignore h [].
  (** lines 132-155 *)
  Definition extract_U_dict4 (ignore : bool) (h : omap S) : res dict := extract_loop U4_entries ignore h [].

  (** lines 176-195 : dict_to_matrix.  An array of rank N is a function of N positions below fs.size() (other
      positions are never asked for); the loop over the dictionary assigns one element per key, a key with an
      index missing from fs throws *)
  Fixpoint positions (fs : fops) (k : key) : res (list nat) :=
    match k with
    | [] => Ok []
    | i :: k' => do p <- fops_at fs i ; do ps <- positions fs k' ; Ok (p :: ps)
    end.
  Fixpoint nats_eqb (a b : list nat) : bool :=
    match a, b with
    | [], [] => true
    | x :: a', y :: b' => Nat.eqb x y && nats_eqb a' b'
    | _, _ => false
    end.
  Fixpoint assign_all (fs : fops) (d : dict) (mat : list nat -> S) : res (list nat -> S) :=
    match d with
    | [] => Ok mat
    | (k, x) :: d' => do ps <- positions fs k ; assign_all fs d' (fun q => if nats_eqb q ps then x else mat q)
    end.
  Definition dict_to_matrix (d : dict) (fs : fops) : res (list nat -> S) := assign_all fs d (fun _ => k0).

  (** lines 224-233 : filter_op; += of a term is += of the normalised term (many_body_operator.hpp:141) *)
  Fixpoint filter_loop (len : nat) (h acc : omap S) : option (omap S) :=
    match h with
    | [] => Some acc
    | (m, c) :: h' =>
        if Nat.eqb (List.length m) len
        then match op_term m c with Some t => filter_loop len h' (op_add acc t) | None => None end
        else filter_loop len h' acc
    end.
  Definition filter_op (h : omap S) (len : nat) : option (omap S) := filter_loop len h [].

  (** ---- block matrices: lists of square matrices, each a list of rows ---- *)
  Definition gf_struct : Type := list (string * nat).
  Definition bmat : Type := list (list (list S)).
  (** lines 272-277 *)
  Definition bzeros (gs : gf_struct) : bmat := map (fun bs => repeat (repeat k0 (snd bs)) (snd bs)) gs.
  (** lines 279-283 : the position of the first block with this name, the number of blocks if there is none *)
  Fixpoint name_to_bl (gs : gf_struct) (name : string) : nat :=
    match gs with
    | [] => O
    | bs :: gs' => if String.eqb name (fst bs) then O else Datatypes.S (name_to_bl gs' name)
    end.
  (** assignment of an element; out of range is undefined behaviour *)
  Fixpoint set_nth {A : Type} (k : nat) (f : A -> res A) (l : list A) : res (list A) :=
    match l, k with
    | [], _ => UB
    | x :: l', O => do y <- f x ; Ok (y :: l')
    | x :: l', Datatypes.S k' => do r <- set_nth k' f l' ; Ok (x :: r)
    end.
  Definition set_elem (b i j : nat) (x : S) (M : bmat) : res bmat :=
    set_nth b (set_nth i (set_nth j (fun _ => Ok x))) M.
  (** v[k] of a vector of labels, out of range undefined *)
  Definition at_lbl (v : indices) (k : nat) : res lbl := match nth_error v k with Some x => Ok x | None => UB end.
  (** std::get<std::string>, std::get<long> : throw std::bad_variant_access *)
  Definition get_string (x : lbl) : res string := match x with LStr s => Ok s | LInt _ => Throw end.
  Definition get_long (x : lbl) : res Z := match x with LInt z => Ok z | LStr _ => Throw end.
  (** an element index: a negative one is out of range *)
  Definition to_index (z : Z) : res nat := if (z <? 0)%Z then UB else Ok (Z.to_nat z).
  Definition lbl_eqb (a b : lbl) : bool := cmp_eqb lbl_cmp a b.

  (** lines 289-290 : "A and B and C and D and E or F" reads "(A and B and C and D and E) or F";
      m[0], m[1] and indices[0] out of range are undefined *)
  Definition block_test (m : monomial) : res bool :=
    let second := match m with _ :: b :: _ => Ok (Nat.eqb (List.length (ind b)) 2) | _ => UB end in
    match m with
    | [a; b] =>
        if dag a && negb (dag b) then
          do x <- at_lbl (ind a) 0 ; do y <- at_lbl (ind b) 0 ;
          if lbl_eqb x y && Nat.eqb (List.length (ind a)) 2 then Ok true else second
        else second
    | _ => second
    end.
  (** lines 285-300 *)
  Fixpoint block_loop (gs : gf_struct) (ignore : bool) (h : omap S) (M : bmat) : res bmat :=
    match h with
    | [] => Ok M
    | (m, c) :: h' =>
        do ok <- block_test m ;
        if ok then
          match m with
          | a :: b :: _ =>
              do l0 <- at_lbl (ind a) 0 ; do name <- get_string l0 ;
              do l1 <- at_lbl (ind a) 1 ; do z1 <- get_long l1 ;
              do l2 <- at_lbl (ind b) 1 ; do z2 <- get_long l2 ;
              do i <- to_index z1 ; do j <- to_index z2 ;
              do M' <- set_elem (name_to_bl gs name) i j c M ; block_loop gs ignore h' M'
          | _ => UB
          end
        else if ignore then block_loop gs ignore h' M else Throw
    end.
  (** lines 269-303 *)
  Definition block_matrix_from_op (gs : gf_struct) (ignore : bool) (h : omap S) : res bmat :=
    block_loop gs ignore h (bzeros gs).

  (** lines 323-330 : bl_mat(i,j) * c_dag(bl,i) * c(bl,j), accumulated; None stands for the (proved absent) exhaustion of the
      fuel of the normal ordering *)
  Definition bl_index (name : string) (i : nat) : indices := [LStr name; LInt (Z.of_nat i)].
  Definition add_elem (name : string) (i j : nat) (x : S) (acc : option (omap S)) : option (omap S) :=
    match acc with
    | None => None
    | Some h =>
        match op_mul (op_mul_scalar (op_c_dag S (bl_index name i)) x) (op_c S (bl_index name j)) with
        | Some t => Some (op_add h t)
        | None => None
        end
    end.
  Fixpoint add_row (name : string) (i j : nat) (row : list S) (acc : option (omap S)) : option (omap S) :=
    match row with
    | [] => acc
    | x :: row' => add_row name i (Datatypes.S j) row' (add_elem name i j x acc)
    end.
  Fixpoint add_rows (name : string) (i : nat) (rows : list (list S)) (acc : option (omap S)) : option (omap S) :=
    match rows with
    | [] => acc
    | r :: rows' => add_rows name (Datatypes.S i) rows' (add_row name i 0 r acc)
    end.
  Fixpoint add_blocks (gs : gf_struct) (M : bmat) (acc : option (omap S)) : option (omap S) :=
    match gs, M with
    | bs :: gs', rows :: M' => add_blocks gs' M' (add_rows (fst bs) 0 rows acc)
    | _, _ => acc
    end.
  (** lines 316-333; a shape that does not agree with gf_struct violates EXPECTS (lines 318, 327): undefined *)
  Definition shape_ok (gs : gf_struct) (M : bmat) : bool :=
    Nat.eqb (List.length gs) (List.length M) &&
    forallb (fun p : (string * nat) * list (list S) => Nat.eqb (List.length (snd p)) (snd (fst p)) &&
      forallb (fun r => Nat.eqb (List.length r) (snd (fst p))) (snd p)) (combine gs M).
  Definition op_from_block_matrix (gs : gf_struct) (M : bmat) : res (option (omap S)) :=
    if shape_ok gs M then Ok (add_blocks gs M (Some [])) else UB.
End Extractors.
