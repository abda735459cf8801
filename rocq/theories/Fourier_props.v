(** Properties C72-C75: Fourier transforms of Green's functions. *)
From Coq Require Import ZArith Reals List Bool Arith Lia Lra.
From Coquelicot Require Import Coquelicot.
From Verif Require Import Base Matsubara LinMesh Mesh Mesh_proofs Lattice Lattice_proofs Lattice_props ThermalSpec Csum GfSym GfSymSpec Flatten FlattenSpec Fourier FourierSpec Fourier_dft Fourier_lat Fourier_real Fourier_riemann Fourier_mats Fourier_tail Fourier_fit Fourier_adj Fourier_proofs.
Import ListNotations.
Local Open Scope R_scope.

(** ---- C72 : lattice Green's functions ---- *)
(** G(k) = sum over the sites R of exp(i k.R) G(R) *)
Theorem C72_r_to_k d u l z m gr : la_make d u = Ok l -> bz_make l = Ok z -> fits l m ->
  exists gk, fourier_r_to_k m m gr = Ok gk /\
    forall k c, cy_valid m k = true ->
      at_index m gk k c = csum (ms_points (cyc_mesh m)) (fun r => Cmult (expi (dot (br_value (br_make z m) k) (cl_value l r))) (at_index m gr r c)).
Proof. exact (thm_r_to_k d u l z m gr). Qed.
Print Assumptions C72_r_to_k.
(** G(R) = 1/N sum over k of exp(-i k.R) G(k) *)
Theorem C72_k_to_r d u l z m gk : la_make d u = Ok l -> bz_make l = Ok z -> fits l m ->
  exists gr, fourier_k_to_r m m gk = Ok gr /\
    forall r c, cy_valid m r = true ->
      at_index m gr r c = Cdiv (csum (ms_points (cyc_mesh m)) (fun k => Cmult (expi (- dot (br_value (br_make z m) k) (cl_value l r))) (at_index m gk k c))) (RtoC (IZR (cy_size m))).
Proof. exact (thm_k_to_r d u l z m gk). Qed.
Print Assumptions C72_k_to_r.
Theorem C72_round_trip_r m gr : cyc_ok m -> exists gk gr', fourier_r_to_k m m gr = Ok gk /\ fourier_k_to_r m m gk = Ok gr' /\ same_rows (cy_rows m) gr gr'.
Proof. exact (thm_round_r m gr). Qed.
Print Assumptions C72_round_trip_r.
Theorem C72_round_trip_k m gk : cyc_ok m -> exists gr gk', fourier_k_to_r m m gk = Ok gr /\ fourier_r_to_k m m gr = Ok gk' /\ same_rows (cy_rows m) gk gk'.
Proof. exact (thm_round_k m gk). Qed.
Print Assumptions C72_round_trip_k.
Example C72_example : exists l z, la_make 2 skew_units = Ok l /\ bz_make l = Ok z /\ fits l (mkCyc 4 3 1) /\ cyc_ok (mkCyc 4 3 1) /\ cy_valid (mkCyc 4 3 1) [3; 2; 0]%Z = true.
Proof.
  destruct skew_lattice as (l & z & Hl & Hz & _). exists l, z. split; [exact Hl|]. split; [exact Hz|]. destruct (la_make_inv _ _ _ Hl) as [_ El]. split; [|split; [repeat split; cbn; lia|reflexivity]].
  unfold fits. rewrite El. cbn [la_dim cy_d0 cy_d1 cy_d2]. lia.
Qed.
(** finding: the meshes of input and output are not compared.  A smaller output mesh is written past its end ... *)
Theorem C72_smaller_mesh_rejected_refuted rm km g : cyc_ok km -> (cy_size rm < cy_size km)%Z -> fourier_k_to_r rm km g = UB /\ fourier_r_to_k rm km g = UB.
Proof. exact (thm_small_mesh rm km g). Qed.
Print Assumptions C72_smaller_mesh_rejected_refuted.
(** ... and for a mesh of another shape with as many points the values are not those of its points: G(R) = 1 at the site (1,0,0) of a
    4x1x1 lattice gives i at the point (0,1,0) of a 2x2x1 mesh, where k.R is a multiple of pi *)
Theorem C72_other_shape_rejected_refuted : exists rm km g gk, cy_size rm = cy_size km /\ fourier_r_to_k km rm g = Ok gk /\ gk 1%nat 0%nat = Ci /\ rm = mkCyc 4 1 1 /\ km = mkCyc 2 2 1.
Proof. exact thm_shapes. Qed.
Print Assumptions C72_other_shape_rejected_refuted.
(** one mesh of a product: each line of the array along that mesh is transformed on its own *)
Theorem C72_one_mesh_of_a_product N nout impl (Fc : (nat -> C) -> nat -> C) (a : arr C) nrows :
  full a -> nth_error (a_sh a) N = Some nrows -> (0 < nrows)%nat -> (0 < nout)%nat -> (0 < size (others N (a_sh a)))%nat ->
  (forall n g, (0 < n)%nat -> exists d, impl n g = Ok d /\ forall i c, (i < nout)%nat -> (c < n)%nat -> d i c = Fc (fun j => g j c) i) ->
  exists a', transform N nout impl a = Ok a' /\ a_sh a' = upd (a_sh a) N nout /\ full a' /\
    forall q i, subscript (upd (a_sh a) N nout) q -> nth_error q N = Some i ->
      exists line, (forall j, (j < nrows)%nat -> a_at a (upd q N j) = Ok (line j)) /\ a_at a' q = Ok (Fc line i).
Proof. intros F En Hr Ho Hs HI. exact (transform_columns N nout impl Fc a nrows F En Hr Ho HI Hs). Qed.
Print Assumptions C72_one_mesh_of_a_product.
Example C72_product_example : let m := mkCyc 2 1 1 in let a := mkArr [2; 2; 1]%nat [RtoC 1; RtoC 2; RtoC 3; RtoC 4] in
  full a /\ nth_error (a_sh a) 1 = Some 2%nat /\ cy_rows m = 2%nat /\ (0 < size (others 1 (a_sh a)))%nat /\ subscript (upd (a_sh a) 1 2%nat) [1; 0; 0]%nat /\
  (forall n g, (0 < n)%nat -> exists d, (fun _ => fourier_r_to_k m m) n g = Ok d /\ forall i c, (i < 2)%nat -> (c < n)%nat -> d i c = dft FFTW_BACKWARD (dims_of m) (fun j => g j c) i).
Proof.
  cbv zeta. split; [reflexivity|]. split; [reflexivity|]. split; [reflexivity|]. split; [cbn; lia|]. split; [repeat constructor|]. intros n g Hn.
  apply (lattice_columns FFTW_BACKWARD (mkCyc 2 1 1) ltac:(repeat split; cbn; lia) n g Hn).
Qed.

(** ---- C73 : real times and real frequencies ---- *)
(** G(w) = dt sum_t exp(i w t) (G(t) - tail(t)) + tail(w) *)
Theorem C73_direct wm tm n gt km : li_built tm -> li_built wm -> conjugate_meshes wm tm -> (0 < n)%nat -> km = [] \/ moments_given 3 n km ->
  exists gw, fourier_t_to_w wm tm n gt km = Ok gw /\ forall k c, (k < li_rows tm)%nat ->
    gw k c = Cplus (Cmult (RtoC (li_delta tm)) (total (li_rows tm) (fun j => Cmult (expi (li_pt wm k * li_pt tm j)) (Cminus (gt j c) (real_tail_t (real_a wm) (moment km 1 c) (moment km 2 c) (li_pt tm j))))))
                   (real_tail_w (real_a wm) (moment km 1 c) (moment km 2 c) (li_pt wm k)).
Proof.
  intros Ht Hw Hx Hn Hm. apply (direct_sum wm tm n km (row km 1, row km 2)); try assumption; [destruct Hx; lia|apply conjugate_compatible; exact Hx|exact (real_moments_ok n km Hn Hm)].
Qed.
Print Assumptions C73_direct.
(** G(t) = dw/2pi sum_w exp(-i w t) (G(w) - tail(w)) + tail(t) *)
Theorem C73_inverse wm tm n gw km : li_built tm -> li_built wm -> conjugate_meshes wm tm -> (0 < n)%nat -> km = [] \/ moments_given 3 n km ->
  exists gt, fourier_w_to_t tm wm n gw km = Ok gt /\ forall j c, (j < li_rows tm)%nat ->
    gt j c = Cplus (Cmult (RtoC (li_delta wm / (2 * PI))) (total (li_rows tm) (fun k => Cmult (expi (- (li_pt wm k * li_pt tm j))) (Cminus (gw k c) (real_tail_w (real_a wm) (moment km 1 c) (moment km 2 c) (li_pt wm k))))))
                   (real_tail_t (real_a wm) (moment km 1 c) (moment km 2 c) (li_pt tm j)).
Proof.
  intros Ht Hw Hx Hn Hm. apply (inverse_sum wm tm n km (row km 1, row km 2)); try assumption; [destruct Hx; lia|apply conjugate_compatible; exact Hx|exact (real_moments_ok n km Hn Hm)].
Qed.
Print Assumptions C73_inverse.
Theorem C73_round_trip wm tm n km : (0 < li_L tm)%Z -> li_L wm = li_L tm -> Rabs (li_delta tm * li_delta wm * IZR (li_L tm) / (2 * PI) - 1) <= / 10 ^ 10 ->
  (0 < n)%nat -> km = [] \/ moments_given 3 n km ->
  (forall gt, exists gw gt', fourier_t_to_w wm tm n gt km = Ok gw /\ fourier_w_to_t tm wm n gw km = Ok gt' /\ same_rows (li_rows tm) gt gt') /\
  (forall gw, exists gt gw', fourier_w_to_t tm wm n gw km = Ok gt /\ fourier_t_to_w wm tm n gt km = Ok gw' /\ same_rows (li_rows tm) gw gw').
Proof.
  intros HL E D Hn Hm. pose proof (real_moments_ok n km Hn Hm) as M. assert (Hc : real_compatible wm tm = true).
  { unfold real_compatible. rewrite E, Z.eqb_refl. cbn [andb]. destruct (Rlt_dec _ _) as [Q|_]; [exfalso; apply (Rlt_not_le _ _ Q D)|reflexivity]. }
  split; [exact (round_t wm tm n km _ HL Hc M)|exact (round_w wm tm n km _ HL Hc M)].
Qed.
Print Assumptions C73_round_trip.
(** the tail in frequency is the integral of the tail in time, up to what lies outside the time window ... *)
Theorem C73_tail_integral a m1 m2 w T : 0 < a -> 0 < T ->
  exists z, cintegral (fun t => Cmult (expi (w * t)) (real_tail_t a m1 m2 t)) (- T) T z /\
    Cmod (Cminus z (real_tail_w a m1 m2 w)) <= exp (- a * T) / a * (Cmod (real_a1 a m1 m2) + Cmod (real_a2 a m1 m2)).
Proof. exact (real_tail_int a m1 m2 w T). Qed.
Print Assumptions C73_tail_integral.
(** ... and has the given moments *)
Theorem C73_tail_values a m1 m2 t : let right := Copp (Cmult Ci (real_a1 a m1 m2)) in let left := Cmult Ci (real_a2 a m1 m2) in
  real_tail_t a m1 m2 t = if Rlt_dec 0 t then Cmult right (RtoC (exp (- a * t))) else if Rlt_dec t 0 then Cmult left (RtoC (exp (a * t))) else Cmult (RtoC (1 / 2)) (Cplus right left).
Proof. exact (thm_tail_values a m1 m2 t). Qed.
Print Assumptions C73_tail_values.
(** ... (which is exp(-pi sqrt L) at the ends of the window) ... *)
Theorem C73_window wm tm : conjugate_meshes wm tm -> real_a wm * (IZR (li_L tm) * li_delta tm / 2) = PI * sqrt (IZR (li_L tm)).
Proof. exact (thm_window wm tm). Qed.
Print Assumptions C73_window.
Theorem C73_tail_moments a m1 m2 : a <> 0 ->
  exists K, forall w, 1 <= Rabs w -> Cmod (Cminus (real_tail_w a m1 m2 w) (Cplus (Cdiv m1 (RtoC w)) (Cdiv m2 (RtoC (w * w))))) <= K / Rabs w ^ 3.
Proof. exact (real_tail_moments a m1 m2). Qed.
Print Assumptions C73_tail_moments.
(** one or two moments, a zeroth moment that does not vanish, and meshes that do not match are refused *)
Theorem C73_rejects wm tm n km g : (0 < n)%nat ->
  (km <> [] /\ (length km < 3)%nat) \/ (exists c, (c < n)%nat /\ / 10 ^ 8 <= Cmod (moment km 0 c)) \/ li_L wm <> li_L tm \/
  / 10 ^ 10 < Rabs (li_delta tm * li_delta wm * IZR (li_L tm) / (2 * PI) - 1) ->
  fourier_t_to_w wm tm n g km = Throw /\ fourier_w_to_t tm wm n g km = Throw.
Proof. intros Hn H. exact (real_rejects wm tm n km Hn H g). Qed.
Print Assumptions C73_rejects.
Example C73_example : let tm := li_make (-5) 5 11 in let wm := adjoint_real tm true in
  li_built tm /\ li_built wm /\ conjugate_meshes wm tm /\ moments_given 3 1 [fun _ => RtoC 0; fun _ => RtoC 1; fun _ => RtoC 2].
Proof.
  cbv zeta. assert (B : li_built (li_make (-5) 5 11)) by (exists (-5), 5, 11%Z; split; [lia|split; [lra|reflexivity]]).
  split; [exact B|]. split; [apply (adj_delta _ true B)|]. split; [apply (adj_conjugate _ true B)|]. split; [lia|]. split; [cbn; lia|]. intros c _. change (row _ 0 c) with (RtoC 0). rewrite Cmod_0. apply Rinv_0_lt_compat, pow_lt. lra.
Qed.

(** ---- C74 : imaginary times and Matsubara frequencies ---- *)
(** G(i w_n) = trapezoidal sum over tau of exp(i w_n tau) (G(tau) - tail(tau)) + tail(i w_n) *)
Theorem C74_direct iwm s' L beta n gt km : 0 < beta -> if_beta iwm = beta -> tau_fits iwm L -> moments_given 1 n km ->
  exists gw, fourier_tau_to_iw iwm (tau_mesh beta s' L) n gt km = Ok gw /\
    forall d c, (d < Z.to_nat (if_size iwm))%nat ->
      let s := if_stat iwm in let w := if_to_index iwm (Z.of_nat d) in
      gw d c = Cplus (trapezoid beta L (fun j => Cmult (matsubara_wave beta s w (tau_pt beta L j)) (Cminus (gt j c) (tail_tau s beta (moment km 1 c) (moment km 2 c) (moment km 3 c) (tau_pt beta L j)))))
                     (tail_iw s (moment km 1 c) (moment km 2 c) (moment km 3 c) (i_omega beta s w)).
Proof. exact (thm_direct iwm s' L beta n gt km). Qed.
Print Assumptions C74_direct.
(** G(tau) = 1/beta sum over the frequencies of exp(-i w_n tau) (G(i w_n) - tail(i w_n)) + tail(tau), and
    G(beta) = -+ (G(0) + m1) *)
Theorem C74_inverse fit iwm s' L beta n gw km : 0 < beta -> if_beta iwm = beta -> if_pos iwm = false -> tau_fits iwm L -> moments_given 4 n km ->
  exists gt, fourier_iw_to_tau fit (tau_mesh beta s' L) iwm n gw km = Ok gt /\
    let s := if_stat iwm in
    (forall j c, (j < L)%nat -> gt j c = Cplus (Cmult (RtoC (1 / beta)) (total (Z.to_nat (if_size iwm)) (fun d =>
        Cmult (Cconj (matsubara_wave beta s (if_to_index iwm (Z.of_nat d)) (tau_pt beta L j)))
              (Cminus (gw d c) (tail_iw s (moment km 1 c) (moment km 2 c) (moment km 3 c) (i_omega beta s (if_to_index iwm (Z.of_nat d))))))))
        (tail_tau s beta (moment km 1 c) (moment km 2 c) (moment km 3 c) (tau_pt beta L j))) /\
    (forall c, gt L c = Cmult (RtoC (pm s)) (Cplus (gt 0%nat c) (moment km 1 c))).
Proof. exact (thm_inverse fit iwm s' L beta n gw km). Qed.
Print Assumptions C74_inverse.
(** with the same moments, from frequencies to times and back is the identity *)
Theorem C74_round_trip fit iwm s' L beta n gw km : 0 < beta -> if_beta iwm = beta -> if_pos iwm = false -> tau_fits iwm L -> moments_given 4 n km ->
  exists gt gw', fourier_iw_to_tau fit (tau_mesh beta s' L) iwm n gw km = Ok gt /\ fourier_tau_to_iw iwm (tau_mesh beta s' L) n gt km = Ok gw' /\
    same_rows (Z.to_nat (if_size iwm)) gw gw'.
Proof. exact (thm_round fit iwm s' L beta n gw km). Qed.
Print Assumptions C74_round_trip.
(** on finer and finer time meshes the transform of an integrable function tends to its Fourier integral, whatever the moments given *)
Theorem C74_limit iwm s' beta n km (g : nat -> R -> C) d c I : 0 < beta -> if_beta iwm = beta -> (0 <= if_n iwm)%Z -> moments_given 1 n km -> (d < Z.to_nat (if_size iwm))%nat ->
  cintegral (fun t => Cmult (matsubara_wave beta (if_stat iwm) (if_to_index iwm (Z.of_nat d)) t) (g c t)) 0 beta I ->
  forall eps, 0 < eps -> exists N, forall L, (N <= L)%nat ->
    exists gw, fourier_tau_to_iw iwm (tau_mesh beta s' L) n (fun j c => g c (tau_pt beta L j)) km = Ok gw /\ Cmod (Cminus (gw d c) I) < eps.
Proof. exact (thm_limit iwm s' beta n km g d c I). Qed.
Print Assumptions C74_limit.
(** the tail in frequency is the Fourier integral of the tail in time ... *)
Theorem C74_tail_integral beta s n m1 m2 m3 : 0 < beta ->
  cintegral (fun t => Cmult (matsubara_wave beta s n t) (tail_tau s beta m1 m2 m3 t)) 0 beta (tail_iw s m1 m2 m3 (i_omega beta s n)).
Proof. exact (tail_int beta s n m1 m2 m3). Qed.
Print Assumptions C74_tail_integral.
(** ... and has the given moments *)
Theorem C74_tail_moments s m1 m2 m3 :
  exists K, forall z, 2 <= Cmod z -> Cmod (Cminus (tail_iw s m1 m2 m3 z) (expansion m1 m2 m3 z)) <= K / Cmod z ^ 4.
Proof. exact (tail_moments s m1 m2 m3). Qed.
Print Assumptions C74_tail_moments.
Theorem C74_exact_for_the_tail iwm s' L beta n km : 0 < beta -> if_beta iwm = beta -> tau_fits iwm L -> moments_given 1 n km ->
  exists gw, fourier_tau_to_iw iwm (tau_mesh beta s' L) n (fun j c => tail_tau (if_stat iwm) beta (moment km 1 c) (moment km 2 c) (moment km 3 c) (tau_pt beta L j)) km = Ok gw /\
    forall d c, (d < Z.to_nat (if_size iwm))%nat -> gw d c = tail_iw (if_stat iwm) (moment km 1 c) (moment km 2 c) (moment km 3 c) (i_omega beta (if_stat iwm) (if_to_index iwm (Z.of_nat d))).
Proof. exact (thm_exact iwm s' L beta n km). Qed.
Print Assumptions C74_exact_for_the_tail.
(** without moments, and if the data is smooth, the transform uses those of the fit ... *)
Theorem C74_default iwm tm n gt t : (0 < n)%nat -> (9 <= it_rows tm)%nat -> noisy tm n gt = false -> fit_tail_tau tm gt = Ok t ->
  fourier_tau_to_iw iwm tm n gt [] = fourier_tau_to_iw iwm tm n gt t.
Proof. exact (thm_default iwm tm n gt t). Qed.
Print Assumptions C74_default.
(** ... where smooth means that the slopes at the ends over one and over two steps agree within 5 percent ... *)
Theorem C74_noise beta s L n gt D1 D2 : 0 < beta -> (2 <= L)%nat -> (0 < n)%nat -> greatest n (end_slopes beta L gt 1) D1 -> greatest n (end_slopes beta L gt 2) D2 ->
  (noisy (tau_mesh beta s L) n gt = false <-> 95 / 100 * D2 <= D1 <= 105 / 100 * D2).
Proof. exact (thm_noise beta s L n gt D1 D2). Qed.
Print Assumptions C74_noise.
(** ... and otherwise zero *)
Theorem C74_default_noisy iwm tm n gt : (0 < n)%nat -> (3 <= it_rows tm)%nat -> noisy tm n gt = true ->
  fourier_tau_to_iw iwm tm n gt [] = fourier_tau_to_iw iwm tm n gt (repeat (fun _ => RtoC 0) 4).
Proof. exact (thm_default_noisy iwm tm n gt). Qed.
Print Assumptions C74_default_noisy.
(** the fit: where G is a polynomial of degree 8 near 0 and near beta (coefficients a around 0 in tau, b around beta in beta - tau),
    the first moment is exact and the next two are the jumps of G' and G'' across the period, up to 1e-6 *)
Theorem C74_fit beta s L gt a b : 0 < beta -> (8 <= L)%nat ->
  (forall m c, (m <= 8)%nat -> gt m c = poly (a c) (tau_pt beta L m) /\ gt (L - m)%nat c = poly (b c) (tau_pt beta L m)) ->
  exists t, fit_tail_tau (tau_mesh beta s L) gt = Ok t /\ forall c, let delta := beta / INR L in let p := RtoC (pm s) in
    moment t 0 c = RtoC 0 /\ moment t 1 c = Cminus (Cmult p (b c 0%nat)) (a c 0%nat) /\
    Cmod (Cminus (moment t 2 c) (Cplus (a c 1%nat) (Cmult p (b c 1%nat)))) <= / 10 ^ 6 * (size_of (a c) delta + size_of (b c) delta) /\
    Cmod (Cminus (moment t 3 c) (Cmult (RtoC 2) (Cminus (Cmult p (b c 2%nat)) (a c 2%nat)))) <= 2 / delta * (/ 10 ^ 6 * (size_of (a c) delta + size_of (b c) delta)).
Proof. exact (fit_poly beta s L gt a b). Qed.
Print Assumptions C74_fit.
(** from frequencies, with fewer than four moments: those of the tail fitter *)
Theorem C74_fitted fit iwm tm n gw km t err : (0 < n)%nat -> if_pos iwm = false -> (length km < 4)%nat -> (forall c, (c < n)%nat -> Cmod (moment km 0 c) < / 10 ^ 8) ->
  fit gw (match km with [] => [fun _ => RtoC 0] | _ => km end) = (t, err) -> err < / 10 ^ 2 -> (4 <= length t)%nat -> (forall c, (c < n)%nat -> Cmod (moment t 0 c) < / 10 ^ 8) ->
  fourier_iw_to_tau fit tm iwm n gw km = fourier_iw_to_tau fit tm iwm n gw t.
Proof. exact (thm_fitted fit iwm tm n gw km t err). Qed.
Print Assumptions C74_fitted.
Theorem C74_inverse_rejects fit iwm tm n gw km : (0 < n)%nat ->
  if_pos iwm = true \/ (exists c, (c < n)%nat /\ / 10 ^ 8 <= Cmod (moment km 0 c)) \/
  ((length km < 4)%nat /\ / 10 ^ 2 <= snd (fit gw (match km with [] => [fun _ => RtoC 0] | _ => km end))) \/
  ((4 <= length km)%nat /\ (Z.of_nat (it_rows tm - 1) < 2 * if_n iwm)%Z) ->
  fourier_iw_to_tau fit tm iwm n gw km = Throw.
Proof. exact (thm_iw_rejects fit iwm tm n gw km). Qed.
Print Assumptions C74_inverse_rejects.
Theorem C74_direct_rejects iwm tm n gt km : (0 < n)%nat -> km <> [] ->
  (exists c, (c < n)%nat /\ / 10 ^ 8 <= Cmod (moment km 0 c)) \/ (Z.of_nat (it_rows tm - 1) < 2 * if_n iwm)%Z -> fourier_tau_to_iw iwm tm n gt km = Throw.
Proof. exact (thm_tau_rejects iwm tm n gt km). Qed.
Print Assumptions C74_direct_rejects.
(** finding: without moments, smooth data on fewer than nine times is read out of range *)
Theorem C74_few_points_refuted : exists iwm tm gt, it_rows tm = 8%nat /\ fourier_tau_to_iw iwm tm 1 gt [] = UB.
Proof. exact thm_few_points. Qed.
Print Assumptions C74_few_points_refuted.
(** finding: meshes with different temperatures and statistics are accepted *)
Theorem C74_temperatures_compared_refuted : exists iwm tm gt gw, if_beta iwm <> it_beta tm /\ if_stat iwm <> it_stat tm /\ fourier_tau_to_iw iwm tm 1 gt (repeat (fun _ => RtoC 0) 4) = Ok gw.
Proof. exact thm_beta_not_compared. Qed.
Print Assumptions C74_temperatures_compared_refuted.
Example C74_example : let iwm := mkImfreq 10 Fermion 3 false in tau_fits iwm 8 /\ (5 < Z.to_nat (if_size iwm))%nat /\ if_to_index iwm 5 = 2%Z /\
  moments_given 4 1 [fun _ => RtoC 0; fun _ => RtoC 1; fun _ => RtoC 2; fun _ => RtoC 3] /\
  (forall n, cintegral (fun t => Cmult (matsubara_wave 10 Fermion n t) (one_pole Fermion (RtoC 1) 2 t 10)) 0 10 (Cdiv (RtoC 1) (Cminus (i_omega 10 Fermion n) (RtoC 2)))) /\
  noisy (tau_mesh 10 Fermion 8) 1 (fun _ _ => RtoC 1) = false /\ (forall m, RtoC 1 = poly (fun j => if (j =? 0)%nat then RtoC 1 else RtoC 0) (tau_pt 10 8 m)).
Proof.
  cbv zeta. split; [unfold tau_fits; cbn; lia|]. split; [cbn; lia|]. split; [reflexivity|]. split.
  { split; [lia|]. split; [cbn; lia|]. intros c _. change (row _ 0 c) with (RtoC 0). rewrite Cmod_0. apply Rinv_0_lt_compat, pow_lt. lra. }
  split; [intros n; apply pole_int; [lra|exact I]|]. split; [apply noisy_const; [cbn; lia|reflexivity]|]. intros m. unfold poly. rewrite (csum_single _ 9 0); [cbn; ring|lia|]. intros i _ Hi. destruct (Nat.eqb_spec i 0); [contradiction|ring].
Qed.

(** ---- C75 : the mesh of the transform ---- *)
(** retime <-> refreq: the meshes match, with or without the shift *)
Theorem C75_real m shift : li_built m -> li_built (adjoint_real m shift) /\ conjugate_meshes (adjoint_real m shift) m /\ conjugate_meshes m (adjoint_real m shift).
Proof. intros H. destruct (adj_delta m shift H) as (_ & _ & B). destruct (adj_conjugate m shift H) as [A D]. split; [exact B|]. split; assumption. Qed.
Print Assumptions C75_real.
(** twice: the same number of points at the same distance; the same mesh exactly if that was symmetric around zero *)
Theorem C75_real_twice m shift : li_built m -> let m' := adjoint_real (adjoint_real m shift) false in
  li_L m' = li_L m /\ li_delta m' = li_delta m /\ (m' = m <-> li_min m = - li_max m).
Proof. exact (adj_twice m shift). Qed.
Print Assumptions C75_real_twice.
(** the mesh contains zero: without shift for an odd number of points, with shift for an even one *)
Theorem C75_real_zero m k : li_built m ->
  (li_L m = (2 * Z.of_nat k + 1)%Z -> li_pt (adjoint_real m false) k = 0) /\ (li_L m = (2 * Z.of_nat k)%Z -> li_pt (adjoint_real m true) (k - 1) = 0).
Proof. intros H. split; [exact (adj_zero_odd m k H)|exact (adj_zero m k H)]. Qed.
Print Assumptions C75_real_zero.
(** imtime <-> imfreq with default sizes: the length check of the transform passes *)
Theorem C75_matsubara m beta s L : (1 <= if_n m)%Z -> (0 < L)%nat ->
  (exists L', adjoint_iw m (-1) = tau_mesh (if_beta m) (if_stat m) L' /\ tau_fits m L') /\
  (tau_fits (adjoint_tau (tau_mesh beta s L) (-1)) L /\ if_beta (adjoint_tau (tau_mesh beta s L) (-1)) = beta /\ if_stat (adjoint_tau (tau_mesh beta s L) (-1)) = s).
Proof. intros H1 H2. split; [exact (adj_tau_fits m H1)|exact (adj_iw_fits beta s L H2)]. Qed.
Print Assumptions C75_matsubara.
Theorem C75_matsubara_round_trip m : (0 <= if_n m)%Z -> if_pos m = false -> adjoint_tau (adjoint_iw m (-1)) (-1) = m.
Proof. intros H Hp. rewrite (adj_iw_round m H). destruct m as [b s n p]. cbn in *. subst. reflexivity. Qed.
Print Assumptions C75_matsubara_round_trip.
(** lattice <-> Brillouin zone *)
Theorem C75_lattice l dims z : bz_make l = Ok z -> exists m, adjoint_r l dims = Ok m /\ adjoint_k m = (l, dims).
Proof. exact (adj_lattice l dims z). Qed.
Print Assumptions C75_lattice.
Theorem C75_brillouin_zone m : brz_built m -> adjoint_r (fst (adjoint_k m)) (snd (adjoint_k m)) = Ok m.
Proof. exact (adj_brz m). Qed.
Print Assumptions C75_brillouin_zone.
Example C75_example : li_built (li_make (-5) 5 10) /\ li_L (li_make (-5) 5 10) = (2 * Z.of_nat 5)%Z /\ (1 <= if_n (mkImfreq 10 Boson 4 false))%Z.
Proof. split; [exists (-5), 5, 10%Z; split; [lia|split; [lra|reflexivity]]|]. split; [reflexivity|cbn; lia]. Qed.
