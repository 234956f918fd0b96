(** Properties C20-C24 and C59: deformable-mirror surfaces and commands. *)
From Coq Require Import ZArith Bool List Reals Lra Lia String.
From Flocq Require Import Core.
From Verif.Base Require Import Py Arr Vec Sums.
From Verif.Model Require Import Dm.
From Verif.Spec Require Import MathSpec ZernikeSpec DmSpec.
From Verif.Proofs Require Import DmP.
Import ListNotations.
Open Scope Z_scope.

(** C20. *)
Theorem C20_heights_recovered : forall g h lam v h', (forall i j, in_arr g i j -> at2 g i j <> 0%R) ->
  dmh_to_volts g h lam = Ok v -> volts_to_dmh g v lam = Ok h' -> aeq h' h.
Proof. exact dmh_volts_dmh. Qed.
Print Assumptions C20_heights_recovered.
Theorem C20_volts_recovered : forall g v lam h v', (forall i j, in_arr g i j -> at2 g i j <> 0%R) ->
  volts_to_dmh g v lam = Ok h -> dmh_to_volts g h lam = Ok v' -> aeq v' v.
Proof. exact volts_dmh_volts. Qed.
Print Assumptions C20_volts_recovered.
(** C20. Units: a height of one wavelength is 2 pi radians; gain is height per volt. *)
Theorem C20_units : forall g v lam h, volts_to_dmh g v lam = Ok h ->
  nr h = nr v /\ nc h = nc v /\ forall i j, in_arr v i j ->
  (at2 h i j * lam = 2 * PI * (at2 g i j * at2 v i j))%R.
Proof. exact volts_scale. Qed.
Print Assumptions C20_units.
Theorem C20_defined : forall g h lam,
  (is_ok (dmh_to_volts g h lam) <-> (0 < lam)%R /\ nr h = nr g /\ nc h = nc g) /\
  (is_ok (volts_to_dmh g h lam) <-> (0 < lam)%R /\ nr h = nr g /\ nc h = nc g) /\
  (forall e, dmh_to_volts g h lam = Err e -> e = TypeError) /\
  (forall e, volts_to_dmh g h lam = Err e -> e = TypeError).
Proof. exact conversions_defined. Qed.
Print Assumptions C20_defined.
Example C20_ex : is_ok (dmh_to_volts (afull 2 3 2%R) (afull 2 3 5%R) 1).
Proof. apply conversions_defined. repeat split; lra. Qed.

(** C21. The poke array. *)
Theorem C21_poke_array : forall nact p dmin, 0 < nact -> 0 < p -> nr dmin = nact -> nc dmin = nact ->
  exists a, poke_array nact p dmin = Ok a /\ nr a = (nact - 1) * p + 1 /\ nc a = (nact - 1) * p + 1 /\
  (forall i j, 0 <= i < nact -> 0 <= j < nact -> at2 a (i * p) (j * p) = at2 dmin i j) /\
  (forall u v, in_arr a u v -> (~ exists i j, u = i * p /\ v = j * p) -> at2 a u v = 0%R).
Proof. exact poke_ok. Qed.
Print Assumptions C21_poke_array.
(** C21. At the design sampling with no rotation or shift, the output is the superposition of influence
    functions, centre of the DM at pixel (nrow//2, ncol//2), mirrored left-right when flipx is set. *)
Theorem C21_design_grid : forall ops nrow ncol dmin nact inf ppd fx out, wf inf -> still ops -> interpolates ops ->
  Z.Even ((nact - 1) * ppd) ->
  dmhtoph ops nrow ncol dmin nact inf ppd (IZR ppd) (IZR ppd) 0 0 0 fx = Ok out ->
  nr out = nrow /\ nc out = ncol /\
  forall i j, in_arr out i j ->
    let m := ((nact - 1) * ppd + nr inf - 1) / 2 in
    at2 out i j = superposition nact ppd dmin inf (m + (i - nrow / 2))
                    (m + (if fx then - (j - ncol / 2) else j - ncol / 2)).
Proof. exact dmhtoph_design. Qed.
Print Assumptions C21_design_grid.
(** C21. At any camera sampling: pixel (i,j) samples the spline through the superposition at its
    coordinates in actuators (x = column offset / ppact_cx, y = row offset / ppact_cy), zero outside. *)
Theorem C21_camera_sampling : forall ops nrow ncol dmin nact inf ppd cx cy fx out, wf inf -> still ops ->
  dmhtoph ops nrow ncol dmin nact inf ppd cx cy 0 0 0 fx = Ok out ->
  let n := (nact - 1) * ppd + nr inf in
  let hw := ((IZR n - 1) / 2 / IZR ppd)%R in
  exists design, nr design = n /\ nc design = n /\
    (forall i j, at2 design i j = superposition nact ppd dmin inf i j) /\
    nr out = nrow /\ nc out = ncol /\
    forall i j, in_arr out i j ->
      let X := (IZR (if fx then - (j - ncol / 2) else j - ncol / 2) / cx)%R in
      let Y := (IZR (i - nrow / 2) / cy)%R in
      ((Rabs X <= hw /\ Rabs Y <= hw)%R -> at2 out i j = sp_interp ops n ppd design Y X) /\
      (~ (Rabs X <= hw /\ Rabs Y <= hw)%R -> at2 out i j = 0%R).
Proof. exact dmhtoph_sampling. Qed.
Print Assumptions C21_camera_sampling.
(** C21. Linearity, for every registration (rotation, shift, flip, sampling). *)
Theorem C21_linear : forall ops nrow ncol a b d x y nact inf ppd cx cy dx dy th fx oa ob od,
  wf inf -> linear_ops ops -> lin_rel x y a b d ->
  dmhtoph ops nrow ncol a nact inf ppd cx cy dx dy th fx = Ok oa ->
  dmhtoph ops nrow ncol b nact inf ppd cx cy dx dy th fx = Ok ob ->
  dmhtoph ops nrow ncol d nact inf ppd cx cy dx dy th fx = Ok od -> lin_rel x y oa ob od.
Proof. exact dmhtoph_linear. Qed.
Print Assumptions C21_linear.
Theorem C21_zero_heights : forall ops nrow ncol d nact inf ppd cx cy dx dy th fx out,
  wf inf -> linear_ops ops -> (forall i j, in_arr d i j -> at2 d i j = 0%R) ->
  dmhtoph ops nrow ncol d nact inf ppd cx cy dx dy th fx = Ok out ->
  forall i j, in_arr out i j -> at2 out i j = 0%R.
Proof. exact dmhtoph_zero. Qed.
Print Assumptions C21_zero_heights.
Theorem C21_shape : forall ops nrow ncol d nact inf ppd cx cy dx dy th fx out,
  wf inf -> shape_preserving ops ->
  dmhtoph ops nrow ncol d nact inf ppd cx cy dx dy th fx = Ok out -> nr out = nrow /\ nc out = ncol.
Proof. exact dmhtoph_shape. Qed.
Print Assumptions C21_shape.
(** C21. When it succeeds, and what it raises otherwise. *)
Theorem C21_defined : forall ops nrow ncol dmin nact inf ppd cx cy dx dy th fx,
  shape_preserving ops -> dm_args nrow ncol dmin nact inf ppd cx cy -> 4 <= (nact - 1) * ppd + nr inf ->
  exists out, dmhtoph ops nrow ncol dmin nact inf ppd cx cy dx dy th fx = Ok out.
Proof. exact dmhtoph_defined. Qed.
Print Assumptions C21_defined.
Theorem C21_errors : forall ops nrow ncol d nact inf ppd cx cy dx dy th fx e, wf inf -> shape_preserving ops ->
  dmhtoph ops nrow ncol d nact inf ppd cx cy dx dy th fx = Err e ->
  (e = TypeError /\ ~ dm_args nrow ncol d nact inf ppd cx cy) \/
  (e = Custom "fitpack" /\ dm_args nrow ncol d nact inf ppd cx cy /\ (nact - 1) * ppd + nr inf < 4).
Proof. exact dmhtoph_err. Qed.
Print Assumptions C21_errors.
(** scipy-like operations meeting every hypothesis above exist, and a 3x3 DM run meets the rest. *)
Example C21_ops_ex : interpolates ops_ref /\ shape_preserving ops_ref /\ linear_ops ops_ref /\ still ops_ref.
Proof. exact ops_ref_ok. Qed.
Example C21_ex : Z.Even ((3 - 1) * 5) /\ exists out,
  dmhtoph ops_ref 20 31 (afull 3 3 1%R) 3 (afull 7 7 1%R) 5 (IZR 5) (IZR 5) 0 0 0 true = Ok out.
Proof.
  split; [exists 5; reflexivity|]. apply dmhtoph_defined; [apply ops_ref_ok| |cbn; lia].
  unfold dm_args. cbn. repeat split; try lia; lra.
Qed.

(** C22. In general the fitted command reproduces the surface for the point-reflected kernel. *)
Theorem C22_reflected_kernel : forall solve sp surf inf ppa k A x, is_solver solve ->
  build_prefilter sp (nr surf) (nc surf) inf ppa = Ok A -> nonsingular (sdim A) (sat A) ->
  resample_inf_func sp inf ppa 1 = Ok k ->
  fit_surf_to_dm solve surf A = Ok x ->
  nr x = nr surf /\ nc x = nc surf /\
  forall r c, in_arr surf r c ->
    rsum2 (fun a b => at2 x a b * at0 k (a - r + nr k / 2) (b - c + nc k / 2))%R (nr surf) (nc surf) = at2 surf r c.
Proof. exact fit_reflected. Qed.
Print Assumptions C22_reflected_kernel.
(** C22, part: exact for point-symmetric kernels (the resampled kernel is odd-sized and inherits the
    symmetry of the influence function, next theorem). Missing: non-symmetric influence functions,
    for which the claim is false (refuted below). *)
Theorem C22_fit_inverts_partial : forall solve sp surf inf ppa k A x, is_solver solve ->
  build_prefilter sp (nr surf) (nc surf) inf ppa = Ok A -> nonsingular (sdim A) (sat A) ->
  resample_inf_func sp inf ppa 1 = Ok k -> nr k mod 2 = 1 -> nc k mod 2 = 1 -> point_symmetric k ->
  fit_surf_to_dm solve surf A = Ok x ->
  nr x = nr surf /\ nc x = nc surf /\
  forall r c, in_arr surf r c -> dm_surface k x r c = at2 surf r c.
Proof. exact fit_symmetric. Qed.
Print Assumptions C22_fit_inverts_partial.
Theorem C22_resampled_kernel : forall sp inf ppa k, spline_symmetric sp -> point_symmetric inf ->
  resample_inf_func sp inf ppa 1 = Ok k ->
  (ppa <> 1%R -> nr k mod 2 = 1 /\ nc k mod 2 = 1 /\
     nr k = 2 * Zfloor (IZR (nr inf) / 2 / ppa) + 1 /\ nc k = 2 * Zfloor (IZR (nc inf) / 2 / ppa) + 1) /\
  (ppa = 1%R -> k = inf) /\ point_symmetric k.
Proof. exact resample_symmetric. Qed.
Print Assumptions C22_resampled_kernel.
Theorem C22_nonsymmetric_refuted : forall solve sp, is_solver solve -> exists A x,
  build_prefilter sp 1 2 k_bad 1 = Ok A /\ nonsingular (sdim A) (sat A) /\
  resample_inf_func sp k_bad 1 1 = Ok k_bad /\
  fit_surf_to_dm solve surf_bad A = Ok x /\ dm_surface k_bad x 0 0 <> at2 surf_bad 0 0.
Proof. exact fit_nonsymmetric_wrong. Qed.
Print Assumptions C22_nonsymmetric_refuted.
Theorem C22_size_check : forall solve surf A,
  (sdim A = nr surf * nc surf -> exists x, fit_surf_to_dm solve surf A = Ok x) /\
  (forall e, fit_surf_to_dm solve surf A = Err e -> e = TypeError /\ sdim A <> nr surf * nc surf).
Proof. intros. split; [apply fit_defined|apply fit_err]. Qed.
Print Assumptions C22_size_check.
Example C22_ex : forall sp, exists A x, build_prefilter sp 1 2 k_good 1 = Ok A /\ nonsingular (sdim A) (sat A) /\
  resample_inf_func sp k_good 1 1 = Ok k_good /\ nr k_good mod 2 = 1 /\ nc k_good mod 2 = 1 /\
  point_symmetric k_good /\ fit_surf_to_dm solve_ref surf_bad A = Ok x.
Proof. exact fit_example. Qed.
Example C22_solver_ex : is_solver solve_ref.
Proof. exact solve_ref_ok. Qed.

(** C23. *)
Theorem C23_grid : forall nact xs ys xo yo poke,
  0 < nact -> 0 < xs <= nact -> 0 < ys <= nact -> 0 <= xo < xs -> 0 <= yo < ys ->
  exists d, grid nact xs ys xo yo poke = Ok d /\ nr d = nact /\ nc d = nact /\
  forall r c, in_arr d r c ->
    (r mod ys = yo /\ c mod xs = xo -> at2 d r c = poke) /\
    (~ (r mod ys = yo /\ c mod xs = xo) -> at2 d r c = 0%R).
Proof. exact grid_ok. Qed.
Print Assumptions C23_grid.
Theorem C23_partition : forall nact xs ys poke r c,
  0 < nact -> 0 < xs <= nact -> 0 < ys <= nact -> (poke <> 0)%R -> 0 <= r < nact -> 0 <= c < nact ->
  exists xo yo, (0 <= xo < xs /\ 0 <= yo < ys /\
     exists d, grid nact xs ys xo yo poke = Ok d /\ at2 d r c = poke) /\
  forall xo' yo', 0 <= xo' < xs -> 0 <= yo' < ys -> (xo', yo') <> (xo, yo) ->
     exists d, grid nact xs ys xo' yo' poke = Ok d /\ at2 d r c = 0%R.
Proof. exact grid_partition. Qed.
Print Assumptions C23_partition.
Theorem C23_errors : forall nact xs ys xo yo poke e, grid nact xs ys xo yo poke = Err e ->
  (e = TypeError /\ (nact <= 0 \/ xs <= 0 \/ ys <= 0 \/ xo < 0 \/ yo < 0)) \/
  (e = ValueError /\ (xs <= xo \/ ys <= yo \/ nact < xs \/ nact < ys)).
Proof. exact grid_err. Qed.
Print Assumptions C23_errors.
Example C23_ex : exists d, grid 5 2 3 1 2 7 = Ok d /\ at2 d 2 3 = 7%R /\ at2 d 3 3 = 0%R.
Proof.
  destruct (C23_grid 5 2 3 1 2 7) as (d & E & R & C & V); try lia.
  exists d. split; auto. split; apply V; try (split; lia); cbn; lia.
Qed.

(** C24. *)
Theorem C24_sine_bound : forall nact dact amp ph fx fy d, sine nact dact amp ph fx fy = Ok d ->
  nr d = nact /\ nc d = nact /\ forall r c, (Rabs (at2 d r c) <= amp)%R.
Proof. exact sine_bound. Qed.
Print Assumptions C24_sine_bound.
Theorem C24_sine_flip : forall nact dact amp ph fx fy d d', sine nact dact amp ph fx fy = Ok d ->
  sine nact dact amp (ph + 180) fx fy = Ok d' -> forall r c, at2 d' r c = (- at2 d r c)%R.
Proof. exact sine_flip. Qed.
Print Assumptions C24_sine_flip.
(** C24. freqx cycles per dact columns and freqy cycles per dact rows: whole cycles repeat the value. *)
Theorem C24_sine_period : forall nact dact amp ph fx fy d (k l m : Z), sine nact dact amp ph fx fy = Ok d ->
  (IZR k * fx + IZR l * fy = IZR m * dact)%R -> forall r c, at2 d (r + l) (c + k) = at2 d r c.
Proof. exact sine_period. Qed.
Print Assumptions C24_sine_period.
Theorem C24_sine_centre : forall nact dact amp ph fx fy d m, sine nact dact amp ph fx fy = Ok d -> nact = 2 * m + 1 ->
  at2 d m m = (amp * sin (ph * PI / 180))%R.
Proof. exact sine_centre. Qed.
Print Assumptions C24_sine_centre.
Theorem C24_probe_bound : forall nact dact xc yc cl h x0 x1 e0 e1 ph d,
  probe nact dact xc yc cl h x0 x1 e0 e1 ph = Ok d -> nr d = nact /\ nc d = nact /\
  forall r c, (Rabs (at2 d r c) <= 2 * h * (x1 - x0) * (e1 - e0) / dact ^ 2)%R.
Proof. exact probe_bound. Qed.
Print Assumptions C24_probe_bound.
Theorem C24_probe_bound_reached : forall nact dact xc yc cl h x0 x1 e0 e1 d r c,
  probe nact dact xc yc cl h x0 x1 e0 e1 90 = Ok d ->
  (IZR c - (IZR nact - 1) / 2 = xc)%R -> (IZR r - (IZR nact - 1) / 2 = yc)%R ->
  at2 d r c = (2 * h * (x1 - x0) * (e1 - e0) / dact ^ 2)%R.
Proof. exact probe_peak. Qed.
Print Assumptions C24_probe_bound_reached.
Theorem C24_probe_flip : forall nact dact xc yc cl h x0 x1 e0 e1 ph d d',
  probe nact dact xc yc cl h x0 x1 e0 e1 ph = Ok d ->
  probe nact dact xc yc cl h x0 x1 e0 e1 (ph + 180) = Ok d' -> forall r c, at2 d' r c = (- at2 d r c)%R.
Proof. exact probe_flip. Qed.
Print Assumptions C24_probe_flip.
(** C24. The centre arguments translate the command; 90 degrees of clocking is a quarter turn of it. *)
Theorem C24_probe_translate : forall nact dact xc yc cl h x0 x1 e0 e1 ph d d' (k l : Z),
  probe nact dact xc yc cl h x0 x1 e0 e1 ph = Ok d ->
  probe nact dact (xc + IZR k) (yc + IZR l) cl h x0 x1 e0 e1 ph = Ok d' ->
  forall r c, at2 d' (r + l) (c + k) = at2 d r c.
Proof. exact probe_translate. Qed.
Print Assumptions C24_probe_translate.
Theorem C24_probe_quarter_turn : forall nact dact xc yc cl h x0 x1 e0 e1 ph d d',
  probe nact dact xc yc cl h x0 x1 e0 e1 ph = Ok d ->
  probe nact dact yc (- xc) (cl + 90) h x0 x1 e0 e1 ph = Ok d' ->
  forall r c, at2 d' (nact - 1 - c) r = at2 d r c.
Proof. exact probe_quarter_turn. Qed.
Print Assumptions C24_probe_quarter_turn.
Example C24_ex : (exists d, sine 5 4 1 0 2 1 = Ok d) /\ exists d, probe 5 4 0 0 30 1 1 3 (-2) 2 90 = Ok d.
Proof.
  split; [destruct (sine_ok 5 4 1 0 2 1) as (d & E & _); try lra; try lia; eauto|].
  apply probe_defined; lra || lia.
Qed.

(** C59. dmshapes.zernike is [zernsize] times the Noll mode about the DM centre, unit disk of diameter dact. *)
Theorem C59_dm_zernike : forall nact dact size j, 0 < nact -> (0 < dact)%R -> 1 <= j ->
  exists d, dm_zernike nact dact size j = Ok d /\ nr d = nact /\ nc d = nact /\
  forall r c n m rho th, in_arr d r c -> noll_index j n m ->
    polar_of (IZR c - (IZR nact - 1) / 2) (IZR r - (IZR nact - 1) / 2) rho th ->
    at2 d r c = (size * noll_zernike j n m (rho / (dact / 2)) th)%R.
Proof. exact dm_zernike_ok. Qed.
Print Assumptions C59_dm_zernike.
Example C59_ex : exists d, dm_zernike 6 5 2 4 = Ok d.
Proof. destruct (C59_dm_zernike 6 5 2 4) as (d & E & _); try lia; try lra. eauto. Qed.
