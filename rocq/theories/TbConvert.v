(** Model of python/triqs/lattice/utils.py:27-123, 169-171, 174-214 and 216-258 : k_space_path, TB_from_wannier90 and TB_from_pythTB.

    Simplifications: floating point numbers are real numbers.  The text of the Wannier90 file is not parsed: the model
    starts from its numbers.  A pythTB model is its list of hoppings and its (real) on-site energies, without spin.
    The lattice vectors and orbital positions do not enter the hoppings. *)
From Coq Require Import ZArith Reals List Bool Arith.
From Coquelicot Require Import Complex.
From Verif Require Import Base Lattice TightBinding.
Import ListNotations.
Local Open Scope nat_scope.

(** a Python dict, in the order of insertion: displacement -> matrix *)
Definition elements : Type := nat -> nat -> C.
Definition dict : Type := list (list Z * elements).
Fixpoint d_get (d : dict) (R : list Z) : option elements :=
  match d with
  | [] => None
  | (R', m) :: d' => if list_eq_dec Z.eq_dec R R' then Some m else d_get d' R
  end.
Fixpoint d_set (d : dict) (R : list Z) (m : elements) : dict :=
  match d with
  | [] => [(R, m)]
  | (R', m') :: d' => if list_eq_dec Z.eq_dec R R' then (R', m) :: d' else (R', m') :: d_set d' R m
  end.
Definition m_zero : elements := fun _ _ => RtoC 0.
(** TBLattice(units, hoppings) : the dict is flattened into two vectors (lattice_tools_desc.py, tight_binding.cpp:29-55) *)
Definition tb_of_dict (ndim norb : nat) (d : dict) : res tb := tb_make ndim norb (map fst d) (map (fun x => mkHop norb norb (snd x)) d).

(** d[R][i, j] += c *)
Definition d_add (d : dict) (R : list Z) (i j : nat) (c : C) : res dict :=
  match d_get d R with
  | None => Throw
  | Some m => Ok (d_set d R (fun a b => if (a =? i) && (b =? j) then (m a b + c)%C else m a b))
  end.
(** an element of ptb._hoppings *)
Record phop : Type := mkPhop { p_t : C; p_from : nat; p_to : nat; p_R : list Z }.
(** lines 242-252 : one turn of the loop.  An orbital out of range: IndexError *)
Definition pyth_step (norb : nat) (r : res dict) (h : phop) : res dict :=
  do d <- r ;
  if (norb <=? p_from h) || (norb <=? p_to h) then Throw else
  let mR := map Z.opp (p_R h) in
  let d1 := match d_get d (p_R h) with Some _ => d | None => d_set (d_set d (p_R h) m_zero) mR m_zero end in
  do d2 <- d_add d1 (p_R h) (p_from h) (p_to h) (p_t h) ;
  d_add d2 mR (p_to h) (p_from h) (Cconj (p_t h)).
(** lines 235-239 : np.eye(n) * energies *)
Definition pyth_init (E : nat -> R) : dict := [([0; 0; 0]%Z, fun a b => if a =? b then RtoC (E b) else RtoC 0)].
(** lines 232-258 *)
Definition tb_from_pyth (ndim norb : nat) (E : nat -> R) (hops : list phop) : res tb :=
  do d <- fold_left (pyth_step norb) hops (Ok (pyth_init E)) ; tb_of_dict ndim norb d.

(** a line of the file *_hr.dat : R, m, n, and the complex number *)
Record hr_row : Type := mkRow { w_R : list Z; w_m : nat; w_n : nat; w_val : C }.
(** lines 99-123 : reshape(nrpts, num_wann, num_wann, 7); the columns m and n are not looked at *)
Definition w_el (rows : list hr_row) (k : nat) : C := match nth_error rows k with Some r => w_val r | None => RtoC 0 end.
Definition w_key (rows : list hr_row) (k : nat) : list Z := match nth_error rows k with Some r => w_R r | None => [] end.
Definition wannier_dict (nw nr : nat) (deg : list Z) (rows : list hr_row) : res dict :=
  if negb (length deg =? nr) then Throw else
  if negb (length rows =? nr * nw * nw) then Throw else
  if (nw =? 0) && negb (nr =? 0) then Throw else
  Ok (fold_left (fun d i => d_set d (w_key rows (i * nw * nw)) (fun a b => (w_el rows ((i * nw + a) * nw + b) / RtoC (IZR (nth i deg 1%Z)))%C)) (seq 0 nr) []).
(** lines 169-171 : np.kron(np.eye(2), v) *)
Definition kron2 (n : nat) (m : elements) : elements := fun a b => if a / n =? b / n then m (a mod n) (b mod n) else RtoC 0.
Definition extend_to_spin (n : nat) (d : dict) : dict := map (fun x => (fst x, kron2 n (snd x))) d.
(** lines 201-214 *)
Definition tb_from_wannier (nw nr : nat) (deg : list Z) (rows : list hr_row) (spin : bool) (local : option elements) : res tb :=
  do d <- wannier_dict nw nr deg rows ;
  let d := if spin then extend_to_spin nw d else d in
  do d <- match local with
          | None => Ok d
          | Some l => match d_get d [0; 0; 0]%Z with None => Throw | Some m => Ok (d_set d [0; 0; 0]%Z (fun a b => (m a b + l a b)%C)) end
          end ;
  tb_of_dict 3 (if spin then 2 * nw else nw) d.

(** lines 54-74.  np.linspace(0, 1, num); k @ cell is a row vector times a matrix *)
Definition linspace (num i : nat) : R := match num with 0 | 1 => 0%R | _ => (INR i / INR (num - 1))%R end.
Definition times_cell (cell : mat) (k : vec) : vec := mvec (transpose cell) k.
Definition segment_points (num : nat) (s : vec * vec) : list vec := map (fun i => vadd (fst s) (vscal (linspace num i) (vsub (snd s) (fst s)))) (seq 0 num).
(** lines 66-70, one turn: the distances so far and cur_dist; an empty segment has no kvec_abs[0] *)
Definition path_step (st : res (list R * R)) (abs : list vec) : res (list R * R) :=
  do s <- st ;
  match abs with
  | [] => Throw
  | k0 :: _ => let new := map (fun k => (norm (vsub k k0) + snd s)%R) abs in
               let dist := fst s ++ new in Ok (dist, last dist 0%R)
  end.
(** l[n::step], the first element after n others, then after every step - 1 others *)
Fixpoint every {A} (n step : nat) (l : list A) : list A :=
  match l with
  | [] => []
  | x :: l' => match n with 0 => x :: every (step - 1) step l' | S n' => every n' step l' end
  end.
(** np.vstack of an empty list throws *)
Definition k_space_path (cell : mat) (segments : list (vec * vec)) (num : nat) (relative : bool) : res (list vec * list R * list R) :=
  let kvecs := map (segment_points num) segments in
  let kabs := map (map (times_cell cell)) kvecs in
  do s <- fold_left path_step kabs (Ok ([], 0%R)) ;
  match segments with
  | [] => Throw
  | _ => Ok (concat (if relative then kvecs else kabs), fst s, 0%R :: every (num - 1) num (fst s))
  end.
