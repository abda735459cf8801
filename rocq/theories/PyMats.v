(** Model of python/triqs/gf/matsubara_freq.py:44-101 and mesh_point.py:38-66 on Matsubara meshes: arithmetic of Python's Matsubara frequencies,
    mesh points and numbers.

    Simplifications: floating point numbers are real and complex numbers; "Fermion" and "Boson" are the only strings for the statistic.
    A method that Python tries first and that returns NotImplemented is not shown, only the one that answers. *)
From Coq Require Import ZArith Reals List Bool.
From Coquelicot Require Import Complex.
From Verif Require Import Base Matsubara.
Local Open Scope Z_scope.

(** a MatsubaraFreq, a MeshPoint of a MeshImFreq (its value is a MatsubaraFreq), a number *)
Inductive pyval : Type := VF (x : freq) | VP (x : freq) | VN (c : C).
(** matsubara_freq.py:48, 51 : a bool used as a number *)
Definition is_fermion (x : freq) : bool := match fr_stat x with Fermion => true | Boson => false end.
Definition b2z (b : bool) : Z := if b then 1 else 0.
Definition to_complex (x : freq) : C := (0, IZR (2 * fr_n x + b2z (is_fermion x)) * PI / fr_beta x)%R.
(** matsubara_freq.py:68-76.  With a mesh point: complex + MeshPoint is MeshPoint.__radd__, then number + MatsubaraFreq is __radd__ (line 81) *)
Definition freq_add (x : freq) (o : pyval) : res pyval :=
  match o with
  | VF y => if Req_EM_T (fr_beta x) (fr_beta y) then
              Ok (VF (mkFreq (fr_n x + fr_n y + b2z (is_fermion x && is_fermion y)) (fr_beta x) (if xorb (is_fermion x) (is_fermion y) then Fermion else Boson)))
            else Throw
  | VP y => Ok (VN (to_complex y + to_complex x)%C)
  | VN c => Ok (VN (to_complex x + c)%C)
  end.
(** lines 78-79, and mesh_point.py:53-54 *)
Definition freq_neg (x : freq) : freq := mkFreq (- fr_n x - b2z (is_fermion x)) (fr_beta x) (fr_stat x).
Definition py_neg (o : pyval) : pyval := match o with VF y | VP y => VF (freq_neg y) | VN c => VN (- c)%C end.
(** lines 84-89 *)
Definition freq_sub (x : freq) (o : pyval) : res pyval := freq_add x (py_neg o).
Definition freq_rsub (x : freq) (c : C) : res pyval := freq_add (freq_neg x) (VN c).
(** mesh_point.py:38-39 : a MatsubaraFreq has a property value, which is a complex number *)
Definition get_val (o : pyval) : pyval := match o with VF y => VN (to_complex y) | VP y => VF y | VN c => VN c end.
(** mesh_point.py:41-51 *)
Definition py_add (a b : pyval) : res pyval :=
  match a, b with
  | VF x, _ => freq_add x b
  | VP x, _ => freq_add x (get_val b)
  | VN c, VF y => freq_add y (VN c)
  | VN c, VP y => freq_add y (VN c)
  | VN c, VN d => Ok (VN (c + d)%C)
  end.
Definition py_sub (a b : pyval) : res pyval :=
  match a, b with
  | VF x, _ => freq_sub x b
  | VP x, _ => freq_sub x (get_val b)
  | VN c, VF y => freq_rsub y c
  | VN c, VP y => freq_rsub y c
  | VN c, VN d => Ok (VN (c - d)%C)
  end.
(** complex(o) *)
Definition cval (o : pyval) : C := match o with VF x | VP x => to_complex x | VN c => c end.
(** matsubara_freq.py:91-101, mesh_point.py:56-66 : by conversion to complex numbers.  Division by zero: ZeroDivisionError *)
Definition py_mul (a b : pyval) : res pyval := Ok (VN (cval a * cval b)%C).
Definition py_div (a b : pyval) : res pyval := if Ceq_dec (cval b) (RtoC 0) then Throw else Ok (VN (cval a / cval b)%C).
