(** Model of python/triqs/gf/tools.py:120-175 : read_gf_from_txt and write_gf_to_txt.

    Simplifications: floating point numbers are real numbers, so savetxt and genfromtxt lose nothing (the format %.18e of savetxt is exact for
    doubles).  A file is its list of rows.  A file of the name '%s_%s_%s.dat' is the key (name, i, j), names are numbers. *)
From Coq Require Import Reals List Bool Arith.
From Coquelicot Require Import Complex.
From Verif Require Import Base.
Import ListNotations.
Local Open Scope nat_scope.

Definition key : Type := (nat * nat * nat)%type.
Definition key_dec (a b : key) : {a = b} + {a <> b}.
Proof. repeat decide equality. Defined.
Record txt_row : Type := mkTxt { t_x : R; t_re : R; t_im : R }.
(** the directory: file name -> rows *)
Definition dir : Type := key -> option (list txt_row).
Definition put (d : dir) (k : key) (rows : list txt_row) : dir := fun k' => if key_dec k' k then Some rows else d k'.

(** MeshReFreq(window, n_points), the Matsubara frequencies of a MeshImFreq, any other mesh *)
Inductive tmesh : Type := MeshRe (a b : R) (n : nat) | MeshIm (values : list R) | MeshElse.
(** MeshReFreq: the points a + k (b - a) / (n - 1) *)
Definition re_values (a b : R) (n : nat) : list R := map (fun k => (a + INR k * ((b - a) / INR (n - 1)))%R) (seq 0 n).
Record tgf : Type := mkTgf { g_mesh : tmesh; g_rows : nat; g_cols : nat; g_name : nat; g_at : nat -> nat -> nat -> C }.
Definition pairs (n1 n2 : nat) : list (nat * nat) := flat_map (fun i => map (fun j => (i, j)) (seq 0 n2)) (seq 0 n1).
(** lines 164-169 *)
Definition mesh_column (m : tmesh) : res (list R) := match m with MeshRe a b n => Ok (re_values a b n) | MeshIm v => Ok v | MeshElse => Throw end.
(** lines 171-175 : np.hstack((mesh, redata, imdata)) *)
Definition file_rows (x : list R) (g : tgf) (i j : nat) : list txt_row := map (fun p => mkTxt (snd p) (fst (g_at g (fst p) i j)) (snd (g_at g (fst p) i j))) (combine (seq 0 (length x)) x).
Definition write_gf (d : dir) (g : tgf) : res dir :=
  do x <- mesh_column (g_mesh g) ;
  Ok (fold_left (fun d p => put d (g_name g, fst p, snd p) (file_rows x g (fst p) (snd p))) (pairs (g_rows g) (g_cols g)) d).

(** np.genfromtxt of a file that exists.  One row gives arrays of one dimension less, for which len(mesh) and data[:,0] raise *)
Definition load (d : dir) (k : key) : res (list txt_row) := match d k with Some (r :: r' :: l) => Ok (r :: r' :: l) | _ => Throw end.
(** line 145-146 : a list of lists of different lengths has no two-dimensional shape *)
Definition shape (files : list (list key)) : res (nat * nat) :=
  match files with
  | [] => Throw
  | f :: l => if forallb (fun f' => length f' =? length f) l then Ok (length files, length f) else Throw
  end.
Definition file_at (files : list (list key)) (i j : nat) : key := nth j (nth i files []) (0, 0, 0).
(** lines 149-151 : g is N1 x N1, the column j must exist and the lengths agree *)
Definition read_step (d : dir) (files : list (list key)) (n1 n : nat) (r : res (nat -> nat -> nat -> C)) (p : nat * nat) : res (nat -> nat -> nat -> C) :=
  do f <- r ;
  do rows <- load d (file_at files (fst p) (snd p)) ;
  if (n1 <=? snd p) || negb (length rows =? n) then Throw else
  Ok (fun w i j => if (i =? fst p) && (j =? snd p) then (t_re (nth w rows (mkTxt 0 0 0)), t_im (nth w rows (mkTxt 0 0 0))) else f w i j).
(** lines 145-152 *)
Definition read_gf (d : dir) (files : list (list key)) (name : nat) : res tgf :=
  do s <- shape files ;
  if snd s =? 0 then Throw else
  do rows <- load d (file_at files 0 0) ;
  let x := map t_x rows in
  let lo := fold_left Rmin (tl x) (hd 0%R x) in
  let hi := fold_left Rmax (tl x) (hd 0%R x) in
  do f <- fold_left (read_step d files (fst s) (length x)) (pairs (fst s) (snd s)) (Ok (fun _ _ _ => RtoC 0)) ;
  Ok (mkTgf (MeshRe lo hi (length x)) (fst s) (fst s) name f).
