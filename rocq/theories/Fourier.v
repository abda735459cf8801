(** Model of the Fourier transforms of Green's functions: c++/triqs/gfs/transform/
    fourier_common.cpp, fourier_lattice.cpp, fourier_real.cpp, fourier_matsubara.cpp,
    c++/triqs/mesh/adjoint.hpp, and the application to one mesh of a product, fourier.hpp:59-114.

    Simplifications: [double] is R and [dcomplex] is C (no rounding); sizes are exact.  FFTW
    is modelled by what its manual says it computes, the unnormalised discrete Fourier
    transform of row-major data, with the strides that _fourier_base passes: column c of the
    output is the transform of column c of the input.  nda arrays of complex numbers are
    zero-initialised.  The data of a tensor_valued<1> Green's function is a function of row
    (the data index of the mesh point) and column.  A matrix of moments is the list of its
    rows.  The warnings on std::cerr are not modelled. *)
From Coq Require Import ZArith QArith Qreals Reals List Bool Arith Lia.
From Coquelicot Require Import Complex.
From Verif Require Import Base Matsubara LinMesh Mesh Lattice ThermalSpec GfSym Flatten.
Import ListNotations.
Local Open Scope R_scope.

Definition data : Type := nat -> nat -> C.
Definition rows : Type := list (nat -> C).
(** std::exp(I * x) *)
Definition expi (x : R) : C := (cos x, sin x).

(** ---- FFTW ---- *)
Fixpoint prodn (dims : list nat) : nat := match dims with [] => 1 | d :: ds => d * prodn ds end%nat.
(** sum_i j_i k_i / n_i for the positions j, k of row-major arrays of shape dims *)
Fixpoint turns (dims : list nat) (j k : nat) : R :=
  match dims with
  | [] => 0
  | d :: ds => let s := prodn ds in INR (j / s * (k / s)) / INR d + turns ds (j mod s) (k mod s)
  end.
Definition dft (sgn : R) (dims : list nat) (inp : nat -> C) (k : nat) : C :=
  csum (seq 0 (prodn dims)) (fun j => Cmult (inp j) (expi (sgn * (2 * PI * turns dims j k)))).
Definition FFTW_FORWARD : R := -1.
Definition FFTW_BACKWARD : R := 1.
(** fourier_common.cpp:25-45 : [out] has [nout] rows and is zero before the call.  Reading or
    writing past the end of an array, and executing the null plan that FFTW returns for an
    empty transform, are undefined. *)
Definition fourier_base (sgn : R) (dims : list nat) (nin nout : nat) (inp : data) : res data :=
  if (prodn dims =? 0)%nat || (nin <? prodn dims)%nat || (nout <? prodn dims)%nat then UB
  else Ok (fun k c => if (k <? prodn dims)%nat then dft sgn dims (fun j => inp j c) k else RtoC 0).

(** ---- lattices ---- *)
Definition dims_of (m : cyc) : list nat := [Z.to_nat (cy_d0 m); Z.to_nat (cy_d1 m); Z.to_nat (cy_d2 m)].
Definition cy_rows (m : cyc) : nat := Z.to_nat (cy_size m).
(** fourier_lattice.cpp:30-47 *)
Definition lattice_impl (sgn : R) (out_mesh in_mesh : cyc) (g : data) : res data :=
  fourier_base sgn (dims_of in_mesh) (cy_rows in_mesh) (cy_rows out_mesh) g.
(** fourier_lattice.cpp:51-55 and 59 *)
Definition fourier_k_to_r (r_mesh k_mesh : cyc) (gk : data) : res data :=
  do gr <- lattice_impl FFTW_FORWARD r_mesh k_mesh gk ;
  Ok (fun i c => Cdiv (gr i c) (RtoC (IZR (cy_size k_mesh)))).
Definition fourier_r_to_k (k_mesh r_mesh : cyc) (gr : data) : res data := lattice_impl FFTW_BACKWARD k_mesh r_mesh gr.
(** cyclat.hpp:187-190 with bravais_lattice::point_t : the value of the mesh point r *)
Definition cl_value (l : lattice) (i : idx) : vec := la_to_real l (vec_of i).

(** ---- real times and frequencies ---- *)
(** max_element(abs(v)) over n >= 1 columns *)
Definition max_abs (n : nat) (v : nat -> C) : R := fold_right (fun c s => Rmax (Cmod (v c)) s) 0 (seq 0 n).
Definition zero_tail (n : nat) : rows := repeat (fun _ => RtoC 0) n.
Definition row (km : rows) (k : nat) : nat -> C := nth k km (fun _ => RtoC 0).
Definition vanishing (n : nat) (v : nat -> C) : bool := if Rlt_dec (max_abs n v) (/ 10 ^ 8) then true else false.
(** fourier_real.cpp:27-30 *)
Definition th_expo (t a : R) : C :=
  if Rlt_dec 0 t then Cmult (Copp Ci) (RtoC (exp (- a * t)))
  else if Rlt_dec t 0 then RtoC 0 else Cmult (Copp (Cmult (RtoC (1 / 2)) Ci)) (RtoC (exp (- a * t))).
Definition th_expo_neg (t a : R) : C :=
  if Rlt_dec t 0 then Cmult Ci (RtoC (exp (a * t)))
  else if Rlt_dec 0 t then RtoC 0 else Cmult (Cmult (RtoC (1 / 2)) Ci) (RtoC (exp (a * t))).
Definition th_expo_inv (w a : R) : C := Cinv (Cplus (RtoC w) (Cmult Ci (RtoC a))).
Definition th_expo_neg_inv (w a : R) : C := Cinv (Cminus (RtoC w) (Cmult Ci (RtoC a))).
(** fourier_real.cpp:61-67, 108-119 : the broadening and the weights of the two poles *)
Definition real_a (wm : linear) : R := li_delta wm * sqrt (IZR (li_L wm)).
Definition real_a1 (a : R) (m1 m2 : C) : C := Cdiv (Cplus m1 (Cdiv (Cmult Ci m2) (RtoC a))) (RtoC 2).
Definition real_a2 (a : R) (m1 m2 : C) : C := Cdiv (Cminus m1 (Cdiv (Cmult Ci m2) (RtoC a))) (RtoC 2).
Definition real_tail_t (a : R) (m1 m2 : C) (t : R) : C :=
  Cplus (Cmult (real_a1 a m1 m2) (th_expo t a)) (Cmult (real_a2 a m1 m2) (th_expo_neg t a)).
Definition real_tail_w (a : R) (m1 m2 : C) (w : R) : C :=
  Cplus (Cmult (real_a1 a m1 m2) (th_expo_inv w a)) (Cmult (real_a2 a m1 m2) (th_expo_neg_inv w a)).
(** lines 38-47, 87-98; without columns the moments stay empty and the recursion never ends *)
Definition real_moments (n : nat) (km : rows) : res ((nat -> C) * (nat -> C)) :=
  if (n =? 0)%nat then UB else
  let km := match km with [] => zero_tail 3 | _ => km end in
  if (length km <? 3)%nat then Throw else
  if vanishing n (row km 0) then Ok (row km 1, row km 2) else Throw.
(** lines 49-52, 100-103 *)
Definition real_compatible (wm tm : linear) : bool :=
  (li_L wm =? li_L tm)%Z &&
  (if Rlt_dec (/ 10 ^ 10) (Rabs (li_delta tm * li_delta wm * IZR (li_L tm) / (2 * PI) - 1)) then false else true).
Definition li_rows (m : linear) : nat := Z.to_nat (li_L m).
Definition li_pt (m : linear) (i : nat) : R := li_value m (Z.of_nat i).
(** fourier_real.cpp:35-79 *)
Definition fourier_t_to_w (wm tm : linear) (n : nat) (gt : data) (km : rows) : res data :=
  do mom <- real_moments n km ;
  if negb (real_compatible wm tm) then Throw else
  let L := li_rows tm in
  let tmin := li_min tm in let wmin := li_min wm in let a := real_a wm in
  let gin : data := fun j c => Cmult (Cminus (gt j c) (real_tail_t a (fst mom c) (snd mom c) (li_pt tm j))) (expi (li_pt tm j * wmin)) in
  do gout <- fourier_base FFTW_BACKWARD [L] L L gin ;
  Ok (fun k c => Cplus (Cmult (Cmult (RtoC (li_delta tm)) (expi ((li_pt wm k - wmin) * tmin))) (gout k c))
                       (real_tail_w a (fst mom c) (snd mom c) (li_pt wm k))).
(** fourier_real.cpp:83-131 *)
Definition fourier_w_to_t (tm wm : linear) (n : nat) (gw : data) (km : rows) : res data :=
  do mom <- real_moments n km ;
  if negb (real_compatible wm tm) then Throw else
  let L := li_rows wm in
  let tmin := li_min tm in let wmin := li_min wm in let a := real_a wm in
  let gin : data := fun k c => Cmult (Cminus (gw k c) (real_tail_w a (fst mom c) (snd mom c) (li_pt wm k))) (expi (- (li_pt wm k * tmin))) in
  do gout <- fourier_base FFTW_FORWARD [L] L L gin ;
  let corr := 1 / (li_delta tm * IZR (li_L wm)) in
  Ok (fun j c => Cplus (Cmult (Cmult (RtoC corr) (expi (wmin * (tmin - li_pt tm j)))) (gout j c))
                       (real_tail_t a (fst mom c) (snd mom c) (li_pt tm j))).

(** ---- imaginary times and Matsubara frequencies ---- *)
(** fourier_matsubara.cpp:28-34 *)
Definition one_fermion (a : C) (b tau beta : R) : C :=
  Cmult (Copp a) (RtoC (if Rle_dec 0 b then exp (- b * tau) / (1 + exp (- beta * b)) else exp (b * (beta - tau)) / (1 + exp (beta * b)))).
Definition one_boson (a : C) (b tau beta : R) : C :=
  Cmult a (RtoC (if Rle_dec 0 b then exp (- b * tau) / (exp (- beta * b) - 1) else exp (b * (beta - tau)) / (1 - exp (b * beta)))).
(** lines 151-169 and 238-252 : positions and weights of the three poles that stand for the tail *)
Definition pole (s : statistic) (i : nat) : R :=
  match s, i with
  | Fermion, 0%nat => 0 | Fermion, 1%nat => 1 | Fermion, _ => -1
  | Boson, 0%nat => - (1 / 2) | Boson, 1%nat => -1 | Boson, _ => 1
  end.
Definition weight (s : statistic) (m1 m2 m3 : C) (i : nat) : C :=
  match s, i with
  | Fermion, 0%nat => Cminus m1 m3
  | Fermion, 1%nat => Cdiv (Cplus m2 m3) (RtoC 2)
  | Fermion, _ => Cdiv (Cminus m3 m2) (RtoC 2)
  | Boson, 0%nat => Cdiv (Cmult (RtoC 4) (Cminus m1 m3)) (RtoC 3)
  | Boson, 1%nat => Cminus m3 (Cdiv (Cplus m1 m2) (RtoC 2))
  | Boson, _ => Cplus (Cplus (Cdiv m1 (RtoC 6)) (Cdiv m2 (RtoC 2))) (Cdiv m3 (RtoC 3))
  end.
Definition one_pole (s : statistic) : C -> R -> R -> R -> C := match s with Fermion => one_fermion | Boson => one_boson end.
Definition tail_tau (s : statistic) (beta : R) (m1 m2 m3 : C) (tau : R) : C :=
  Cplus (Cplus (one_pole s (weight s m1 m2 m3 0) (pole s 0) tau beta) (one_pole s (weight s m1 m2 m3 1) (pole s 1) tau beta))
        (one_pole s (weight s m1 m2 m3 2) (pole s 2) tau beta).
Definition tail_iw (s : statistic) (m1 m2 m3 : C) (z : C) : C :=
  Cplus (Cplus (Cdiv (weight s m1 m2 m3 0) (Cminus z (RtoC (pole s 0)))) (Cdiv (weight s m1 m2 m3 1) (Cminus z (RtoC (pole s 1)))))
        (Cdiv (weight s m1 m2 m3 2) (Cminus z (RtoC (pole s 2)))).
(** the mesh point n of an imfreq mesh as a complex number, matsubara.hpp:54 *)
Definition iw_pt (m : imfreq) (n : Z) : C := Cmult Ci (RtoC (fr_value (mkFreq n (if_beta m) (if_stat m)))).
Definition it_pt (m : imtime) (j : nat) : R := li_pt (it_lin m) j.
Definition it_rows (m : imtime) : nat := li_rows (it_lin m).
(** (n + L) % L as a row: % of C++ *)
Definition wrap (n : Z) (L : nat) : Z := Z.rem (n + Z.of_nat L) (Z.of_nat L).

(** fourier_matsubara.cpp:116-186 with moments given.  A negative row number is undefined. *)
Definition fourier_tau_to_iw_known (iwm : imfreq) (tm : imtime) (n : nat) (gt : data) (km : rows) : res data :=
  if negb (vanishing n (row km 0)) then Throw else
  let tail k := if (k <? 4)%nat then row km k else (fun _ => RtoC 0) in
  let beta := it_beta tm in
  let L := (it_rows tm - 1)%nat in
  if (Z.of_nat L <? 2 * (if_last iwm + 1))%Z then Throw else
  let s := if_stat iwm in
  let fact := beta / INR L in
  let m1 := tail 1%nat in let m2 := tail 2%nat in let m3 := tail 3%nat in
  let ph tau := match s with Fermion => expi (PI / beta * tau) | Boson => RtoC 1 end in
  let gin : data := fun j c => Cmult (Cmult (RtoC fact) (ph (it_pt tm j))) (Cminus (gt j c) (tail_tau s beta (m1 c) (m2 c) (m3 c) (it_pt tm j))) in
  do gout <- fourier_base FFTW_BACKWARD [L] (L + 1) L gin ;
  let corr c := Cmult (RtoC (- (1 / 2) * fact)) (Cplus (Cplus (gt 0%nat c) (m1 c)) (Cmult (RtoC (match s with Fermion => 1 | Boson => -1 end)) (gt L c))) in
  Ok (fun d c =>
        let w := if_to_index iwm (Z.of_nat d) in
        Cplus (Cplus (gout (Z.to_nat (wrap w L)) c) (corr c)) (tail_iw s (m1 c) (m2 c) (m3 c) (iw_pt iwm w))).

(** lines 52-67 *)
Definition V_inv : list (list Q) := (
  [[8.000000000008853; -28.000000000055913; 56.000000000151815; -70.00000000021936; 56.00000000020795; -28.000000000115904; 8.00000000003683; -1.0000000000049232];
   [-13.742857142879107; 62.10000000013776; -133.5333333337073; 172.75000000055635; -141.00000000052023; 71.43333333362274; -20.600000000091182; 2.592857142869304];
   [9.694444444465196; -50.98055555568518; 119.55000000035201; -161.8888888894241; 135.86111111160685; -70.12500000027573; 20.494444444530682; -2.6055555555670558];
   [-3.6555555555654573; 21.23472222228416; -53.60000000016842; 76.34027777803497; -66.27777777801586; 35.03750000013273; -10.422222222263619; 1.3430555555610917];
   [0.7986111111137331; -4.97222222223865; 13.312500000044732; -19.888888888957325; 17.923611111174495; -9.750000000035401; 2.9652777777888164; -0.38888888889036743];
   [-0.1013888888892789; 0.6638888888913357; -1.862500000006671; 2.902777777787997; -2.71527777778725; 1.5250000000052975; -0.47638888889054154; 0.06388888888911043];
   [0.0069444444444749; -0.047222222222413485; 0.13750000000052204; -0.22222222222302282; 0.2152777777785205; -0.12500000000041575; 0.04027777777790756; -0.00555555555557296];
   [-0.0001984126984136688; 0.0013888888888949882; -0.00416666666668333; 0.006944444444470023; -0.006944444444468193; 0.004166666666679969; -0.0013888888888930434; 0.00019841269841325577]])%Q.
Definition vinv (i m : nat) : R := Q2R (nth m (nth i V_inv []) 0%Q).
(** lines 39-92.  gt[8] is out of range for fewer than 9 points: undefined. *)
Definition fit_tail_tau (tm : imtime) (gt : data) : res rows :=
  let n_tau := it_rows tm in
  if (n_tau <? 9)%nat then UB else
  let left m c := Cdiv (Cminus (gt m c) (gt 0%nat c)) (RtoC (it_pt tm m)) in
  let right m c := Cdiv (Cminus (gt (n_tau - 1)%nat c) (gt (n_tau - 1 - m)%nat c)) (RtoC (it_pt tm m)) in
  let g (d : nat -> nat -> C) (i c : nat) : C := csum (seq 0 8) (fun m => Cmult (RtoC (vinv i m)) (d (m + 1)%nat c)) in
  let sign := RtoC (match it_stat tm with Fermion => -1 | Boson => 1 end) in
  Ok [ (fun _ => RtoC 0);
       (fun c => Copp (Cminus (gt 0%nat c) (Cmult sign (gt (n_tau - 1)%nat c))));
       (fun c => Cminus (g left 0%nat c) (Cmult sign (g right 0%nat c)));
       (fun c => Cdiv (Cmult (Copp (Cplus (g left 1%nat c) (Cmult sign (g right 1%nat c)))) (RtoC 2)) (RtoC (li_delta (it_lin tm)))) ].
(** lines 101-108 : is the data too noisy to deduce the moments? *)
Definition noisy (tm : imtime) (n : nat) (gt : data) : bool :=
  let n_tau := it_rows tm in
  let spread k := fold_right (fun c s => Rmax (Cmod (Cminus (gt k c) (gt 0%nat c)) + Cmod (Cminus (gt (n_tau - 1 - k)%nat c) (gt (n_tau - 1)%nat c))) s) 0 (seq 0 n) in
  let der_1 := spread 1%nat / li_delta (it_lin tm) in
  let der_2 := 1 / 2 * spread 2%nat / li_delta (it_lin tm) in
  if Rlt_dec der_1 (95 / 100 * der_2) then true else if Rlt_dec (105 / 100 * der_2) der_1 then true else false.
(** lines 96-186.  The noise test reads the rows 2 and n_tau - 3. *)
Definition fourier_tau_to_iw (iwm : imfreq) (tm : imtime) (n : nat) (gt : data) (km : rows) : res data :=
  if (n =? 0)%nat then UB else
  match km with
  | [] =>
      if (it_rows tm <? 3)%nat then UB else
      if noisy tm n gt then fourier_tau_to_iw_known iwm tm n gt (zero_tail 4)
      else do t <- fit_tail_tau tm gt ; fourier_tau_to_iw_known iwm tm n gt t
  | _ => fourier_tau_to_iw_known iwm tm n gt km
  end.

(** lines 216-271 with at least four moments given *)
Definition fourier_iw_to_tau_known (tm : imtime) (iwm : imfreq) (n : nat) (gw : data) (km : rows) : res data :=
  if negb (vanishing n (row km 0)) then Throw else
  let beta := it_beta tm in
  let L := (it_rows tm - 1)%nat in
  if (Z.of_nat L <? 2 * (if_last iwm + 1))%Z then Throw else
  let s := if_stat iwm in
  let fact := 1 / beta in
  let m1 := row km 1 in let m2 := row km 2 in let m3 := row km 3 in
  (* line 254: the loop over the mesh assigns the rows (n + L) % L; the other rows stay zero *)
  let value w c := Cmult (RtoC fact) (Cminus (gw (Z.to_nat (if_to_data iwm w)) c) (tail_iw s (m1 c) (m2 c) (m3 c) (iw_pt iwm w))) in
  let gin : data := fold_left (fun (g : data) d => let w := if_to_index iwm (Z.of_nat d) in
                                 fun r c => if (Z.of_nat r =? wrap w L)%Z then value w c else g r c)
                              (seq 0 (Z.to_nat (if_size iwm))) (fun _ _ => RtoC 0) in
  do gout <- fourier_base FFTW_FORWARD [L] L (L + 1) gin ;
  let ph tau := match s with Fermion => expi (- (PI / beta * tau)) | Boson => RtoC 1 end in
  let gt : data := fun j c => Cplus (Cmult (gout j c) (ph (it_pt tm j))) (tail_tau s beta (m1 c) (m2 c) (m3 c) (it_pt tm j)) in
  let pm := match s with Fermion => -1 | Boson => 1 end in
  Ok (fun j c => if (j =? L)%nat then Cmult (RtoC pm) (Cplus (gt 0%nat c) (m1 c)) else gt j c).
(** lines 190-214.  [fit] is the least-squares tail fitter of the mesh (mesh/tail_fitter.hpp), an
    external function here: moments and error. *)
Definition fourier_iw_to_tau (fit : data -> rows -> rows * R) (tm : imtime) (iwm : imfreq) (n : nat) (gw : data) (km : rows) : res data :=
  if if_pos iwm then Throw else
  if (n =? 0)%nat then UB else
  let km := match km with [] => zero_tail 1 | _ => km end in
  if negb (vanishing n (row km 0)) then Throw else
  if (length km <? 4)%nat then
    let (t, err) := fit gw km in
    if Rlt_dec err (/ 10 ^ 2) then
      if (3 <? length t)%nat then fourier_iw_to_tau_known tm iwm n gw t else Throw
    else Throw
  else fourier_iw_to_tau_known tm iwm n gw km.

(** ---- mesh/adjoint.hpp ---- *)
(** lines 31-38; -1 stands for the default; / of C++ *)
Definition adjoint_tau (m : imtime) (n_iw : Z) : imfreq :=
  mkImfreq (it_beta m) (it_stat m) (if (n_iw =? -1)%Z then Z.quot (li_L (it_lin m) - 1) 6 else n_iw) false.
Definition adjoint_iw (m : imfreq) (n_tau : Z) : imtime :=
  it_make (if_beta m) (if_stat m) (if (n_tau =? -1)%Z then 6 * (if_last m + 1) + 1 else n_tau)%Z.
(** lines 43-54 : the same code for retime and refreq *)
Definition adjoint_real (m : linear) (shift_half_bin : bool) : linear :=
  let L := li_L m in
  let wmax := PI * (IZR L - 1) / (IZR L * li_delta m) in
  if shift_half_bin then li_make (- wmax + PI / IZR L / li_delta m) (wmax + PI / IZR L / li_delta m) L
  else li_make (- wmax) wmax L.
(** lines 56-57 *)
Definition adjoint_r (l : lattice) (dims : cyc) : res brz := do z <- bz_make l ; Ok (br_make z dims).
Definition adjoint_k (m : brz) : lattice * cyc := (bz_lat (br_bz m), br_dims m).

(** ---- fourier.hpp:59-85 : one mesh of a product, all other subscripts together ---- *)
Definition to_data (b : arr C) : data := fun i c => match a_sh b with [_; n] => nth (i * n + c) (a_dat b) (RtoC 0) | _ => RtoC 0 end.
Definition of_data (nrows ncols : nat) (d : data) : arr C :=
  mkArr [nrows; ncols] (flat_map (fun i => map (d i) (seq 0 ncols)) (seq 0 nrows)).
Definition transform (N : nat) (nout : nat) (impl : nat -> data -> res data) (a : arr C) : res (arr C) :=
  do b <- flatten_2d N a ;
  match a_sh b with
  | [_; n] => do d <- impl n (to_data b) ; unflatten_2d N (upd (a_sh a) N nout) (of_data nout n d)
  | _ => UB
  end.
