(** Model of coralign/conjugate/conjugate.py. *)
From Coq Require Import ZArith Bool List Reals String.
From Flocq Require Import Core.
From Verif.Base Require Import Py Arr Vec Sums.
From Verif.Model Require Import PadCrop Math Noll Fits Fresnel Dm.
Import ListNotations.
Open Scope string_scope.
Open Scope Z_scope.

(** ** gen_split_wfe *)

(** conjugate.py:339-344 *)
Definition resize_coef (maxNoll : Z) (zernCoef : list R) : list R :=
  let size := Z.of_nat (List.length zernCoef) in
  if size <? maxNoll then (zernCoef ++ repeat 0%R (Z.to_nat (maxNoll - size)))%list    (* 340-342 *)
  else if maxNoll <? size then firstn (Z.to_nat maxNoll) zernCoef                     (* 344 *)
  else zernCoef.
(** numpy.arange(lo, hi) for integers. *)
Definition arange (lo hi : Z) : list Z := map (fun k => lo + k) (zrange (hi - lo)).
(** conjugate.py:285-371. [wfeShape] is a pair of integers (h, w); types are the Coq types. *)
Definition gen_split_wfe (flagUseFCM : bool) (maxNoll : Z) (zernCoef0 : list R) (diamPupil : R) (h w : Z)
    (xOffset yOffset : R) : res (arr R * arr R * arr R) :=
  check 0 <? maxNoll else ValueError;                                       (* 324 *)
  check pos_real diamPupil else ValueError;                                 (* 330 *)
  let zernCoef := resize_coef maxNoll zernCoef0 in                          (* 339-344 *)
  let nArray := Z.max h w in                                                (* 346 *)
  let gen inds coefs := gen_zernikes inds coefs xOffset yOffset diamPupil nArray in
  let zCoef := if flagUseFCM then skipn 4 zernCoef else skipn 3 zernCoef in (* 349, 357 *)
  let zSetDM1 := if flagUseFCM then arange 5 (maxNoll + 1) else arange 4 (maxNoll + 1) in   (* 351, 359 *)
  do wfeZ4 <-
    (if flagUseFCM then
       match nth_error zernCoef 3 with                                      (* 350 *)
       | None => Err IndexError
       | Some Z4coef => do z <- gen [4] [Z4coef]; pad_crop z [h; w] 0%R     (* 353-355 *)
       end
     else check (0 <=? h) && (0 <=? w) else ValueError; Ok (afull h w 0%R));   (* 361 *)
  do z <- gen [1; 2; 3] (firstn 3 zernCoef);                                (* 363 *)
  do wfeZ1to3 <- pad_crop z [h; w] 0%R;                                     (* 365 *)
  do z <- gen zSetDM1 zCoef;                                                (* 367 *)
  do wfeZ4or5toZmax <- pad_crop z [h; w] 0%R;                               (* 369 *)
  Ok (wfeZ1to3, wfeZ4, wfeZ4or5toZmax).

(** ** phase_cost_function: conjugate.py:502-553. The cost is NaN (None) when no pixel is usable.
    The map is an array of booleans (an integer map of zeros and ones passes line 540 and is then used as
    a list of row numbers; not modelled). *)
Definition phase_cost_function (alpha : R) (wfeZ wfeAbove : arr R) (usable : arr bool) : res (option R) :=
  check negb (Rltb alpha 0 || Rltb 1 alpha) else ValueError;                (* 533 *)
  check same_shape wfeZ usable else ValueError;                             (* 542 *)
  check same_shape wfeAbove usable else ValueError;                         (* 545 *)
  let a := select usable wfeAbove in let z := select usable wfeZ in
  Ok (match rms (map (fun p => fst p + alpha * snd p)%R (List.combine a z)),     (* 549-551 *)
            rms (map (fun v => (1 - alpha) * v)%R z) with
      | Some r1, Some r2 => Some ((r1 - r2) ^ 2)%R
      | _, _ => None
      end).

(** ** smooth_surface: conjugate.py:374-399. [box_kernel w] is astropy's Box2DKernel(w) after the
    normalisation done by astropy's convolve (boundary filled with zeros). *)
Definition kernel_fun := R -> arr R.
Definition smooth_surface (box_kernel : kernel_fun) (arrayIn : arr R) (windowWidth : R) : res (arr R) :=
  check pos_real windowWidth else ValueError;                               (* 394 *)
  pad_crop (convolve_same arrayIn (box_kernel windowWidth)) [nr arrayIn; nc arrayIn] 0%R.   (* 396-397 *)

(** ** conv_surf_to_dm_cmd *)

(** The entries of the DM calibration YAML that are used, with the FITS files they name already read
    (missing keys and unreadable files are not modelled). *)
Record dm_config := DmConfig {
  c_nact : Z; c_ppact_cx : R; c_ppact_cy : R; c_dx : R; c_dy : R; c_thact : R; c_ppact_d : R;
  c_flipx : bool; c_pitch : R; c_inf : arr R; c_tie : arr Z; c_gain : arr R }.
(** scipy.ndimage.rotate(a, t, reshape=False); RectBivariateSpline(ys, xs, a)(y, x), which needs at least
    4 samples per axis; RectBivariateSpline of resample_inf_func; scipy.sparse.linalg.spsolve. *)
Record conv_ops := ConvOps {
  co_rotate : arr R -> R -> arr R;
  co_bispline : (Z -> R) -> (Z -> R) -> arr R -> R -> R -> R;
  co_spline2 : spline2_fun;
  co_solve : spsolve_fun }.
(** conjugate.py:477-485: numpy.linspace on the integers from -n/2 (even n) or -(n-1)/2 (odd n). *)
Definition surf_axis (n : Z) (ppact : R) (i : Z) : R :=
  (if n mod 2 =? 0 then (- IZR n / 2 + IZR i) / ppact else (- (IZR n - 1) / 2 + IZR i) / ppact)%R.
(** conjugate.py:402-499 *)
Definition conv_surf_to_dm_cmd (ops : conv_ops) (surfaceToFit : arr R) (dm : dm_config) : res (arr R) :=
  check pos_real (c_pitch dm) else ValueError;                              (* 448 *)
  check pos_real (c_ppact_cx dm) else ValueError;                           (* 451 *)
  check pos_real (c_ppact_cy dm) else ValueError;                           (* 452 *)
  check 0 <? c_nact dm else ValueError;                                     (* 454 *)
  check pos_real (c_ppact_d dm) else ValueError;                            (* 455 *)
  check nr (c_inf dm) =? nc (c_inf dm) else ValueError;                     (* 461 *)
  let dx_inf0 := (c_pitch dm / c_ppact_d dm)%R in                           (* 465 *)
  let actres1 := (c_pitch dm / dx_inf0)%R in                                (* 466 *)
  let s := if c_flipx dm then fliplr surfaceToFit else surfaceToFit in      (* 469-470 *)
  let s := co_rotate ops s (c_thact dm) in                                  (* 473 *)
  let nY := nr s in let nX := nc s in                                       (* 476 *)
  check (4 <=? nY) && (4 <=? nX) else Custom "fitpack";                     (* 492 *)
  let nB := c_nact dm in                                                    (* 488 *)
  let xsB k := (- (IZR nB - 1) / 2 + IZR k)%R in                            (* 489 *)
  let grid := Arr nB nB (fun r c =>
    co_bispline ops (surf_axis nY (c_ppact_cy dm)) (surf_axis nX (c_ppact_cx dm)) s
      (xsB r + c_dy dm / c_ppact_cy dm)%R (xsB c + c_dx dm / c_ppact_cx dm)%R) in   (* 493 *)
  do sparseMat <- build_prefilter (co_spline2 ops) (nr grid) (nc grid) (c_inf dm) actres1;   (* 495 *)
  fit_surf_to_dm (co_solve ops) grid sparseMat.                             (* 497 *)

(** ** flatten *)

(** conjugate.py:243-263: reassignment of the heights of dead actuators. The tie maps hold integers; -1
    marks a dead actuator. Height maps are nact x nact. *)
Definition dead_map (nact : Z) (tie : arr Z) : res (arr R) :=
  check (nr tie =? nact) && (nc tie =? nact) else IndexError;               (* 248: boolean index *)
  Ok (amap (fun t => if t =? -1 then 1%R else 0%R) tie).                    (* 247-248 *)
Definition zero_where (dead h : arr R) : arr R :=
  amap2 (fun d v => if Req_EM_T d 1 then 0%R else v) dead h.                (* 262 *)
Definition reassign_dead (nact1 nact2 : Z) (tie1 tie2 : arr Z) (hdm1 hdm2 : arr R)
    : res (arr R * arr R) :=
  do isdead1 <- dead_map nact1 tie1;                                        (* 245-248 *)
  let h1to2 := amap2 Rmult isdead1 hdm1 in                                  (* 249 *)
  check (nact1 =? nact2) || (nact1 =? 1) else ValueError;                   (* 250: broadcast *)
  let hdm2 := Arr (nr hdm2) (nc hdm2) (fun i j =>
    at2 hdm2 i j + at2 h1to2 (bc_idx nact1 i) (bc_idx nact1 j))%R in        (* 250 *)
  do isdead2 <- dead_map nact2 tie2;                                        (* 254-257 *)
  let h2to1 := amap2 Rmult isdead2 hdm2 in                                  (* 258 *)
  check (nact2 =? nact1) || (nact2 =? 1) else ValueError;                   (* 259: broadcast *)
  let hdm1 := amap2 Rplus hdm1 h2to1 in                                     (* 259 *)
  Ok (zero_where isdead1 hdm1, zero_where isdead2 hdm2).                    (* 262-263 *)

(** conjugate.py:169-194: phases sent to the DMs. [fmin f lo hi] is scipy.optimize.fminbound. *)
Definition fmin_fun := (R -> res (option R)) -> R -> R -> R.
Definition above_zmax (wfeIn wfeZ wfeZ4 wfeZ1to3 : arr R) (usable : arr bool) : arr R :=
  Arr (nr wfeIn) (nc wfeIn) (fun i j =>
    (at2 wfeIn i j - at2 wfeZ i j - at2 wfeZ4 i j - at2 wfeZ1to3 i j)
    * (if at2 usable i j then 1 else 0))%R.                                 (* 169 *)
Definition split_fraction (fmin : fmin_fun) (wfeZ above : arr R) (usable : arr bool) : R :=
  match rms (select usable wfeZ), rms (select usable above) with            (* 173-174 *)
  | Some rmsZ, Some rmsAbove =>
      if Rltb rmsAbove rmsZ                                                 (* 177 *)
      then fmin (fun alpha => phase_cost_function alpha wfeZ above usable) 0%R 1%R   (* 178 *)
      else 0%R                                                              (* 182 *)
  | _, _ => 0%R
  end.
Definition dm_phases (fmin : fmin_fun) (flagUseDMs flagHighZern : bool) (h1 w1 h2 w2 : Z)
    (wfeZ above : arr R) (usable : arr bool) : arr R * arr R :=
  if flagUseDMs then
    if flagHighZern then
      let alphaBest := split_fraction fmin wfeZ above usable in
      (Arr (nr wfeZ) (nc wfeZ) (fun i j =>
         alphaBest * at2 wfeZ i j + at2 above i j * (if at2 usable i j then 1 else 0))%R,   (* 185 *)
       amap (fun v => (1 - alphaBest) * v)%R wfeZ)                          (* 186 *)
    else (amap (fun v => / 2 * v)%R wfeZ, amap (fun v => / 2 * v)%R wfeZ)   (* 189-190 *)
  else (afull h1 w1 0%R, afull h2 w2 0%R).                                  (* 193-194 *)

(** conjugate.py:201-205, 217 and 220-227 for one DM ([flagHighZern] enables the smoothing). *)
Definition set_where (mask : arr bool) (src dst : arr R) : arr R :=
  Arr (nr dst) (nc dst) (fun i j => if at2 mask i j then at2 src i j else at2 dst i j).
Fixpoint smooth_loop (box_kernel : kernel_fun) (mask : arr bool) (half : arr R) (window : Z) (n : nat)
    (surf : arr R) : res (arr R) :=
  match n with
  | O => Ok surf
  | S n' => do s <- smooth_surface box_kernel surf (IZR window);            (* 224 *)
            smooth_loop box_kernel mask half window n' (set_where mask half s)   (* 226 *)
  end.
Definition clip (lo hi v : R) : R :=
  let v := if Rltb v lo then lo else v in                                   (* 204 *)
  if Rltb hi v then hi else v.                                              (* 205 *)
Definition desired_surface (box_kernel : kernel_fun) (flagHighZern : bool) (nIterSmooth nArraySmall : Z)
    (usableCrop : arr bool) (cx cy : R) (phase : arr R) : res (arr R) :=
  do phase0 <- pad_crop phase [nArraySmall; nArraySmall] 0%R;               (* 201 *)
  match select usableCrop phase0 with                                       (* 202 *)
  | [] => Err ValueError
  | v0 :: vs =>
      let lo := list_min v0 vs in let hi := list_max v0 vs in               (* 202-203 *)
      let half := amap (fun v => clip lo hi v / 2)%R phase0 in              (* 204-205, 217 *)
      if flagHighZern then
        smooth_loop box_kernel usableCrop half (ZnearestE (Rmax cx cy)) (Z.to_nat nIterSmooth) half   (* 221-227 *)
      else Ok half
  end.

(** conjugate.py:277-280. A zero conversion factor gives inf or nan, which int() refuses. *)
Definition fcm_command (flagUseFCM : bool) (cmdFCM : Z) (zernCoef : list R) (lam focusPerStroke strokePerStep : R)
    : res Z :=
  if flagUseFCM then
    match nth_error zernCoef 3 with
    | None => Err IndexError
    | Some z4 =>
        if Req_EM_T (focusPerStroke * strokePerStep) 0
        then if Req_EM_T z4 0 then Err ValueError else Err (Custom "OverflowError")
        else Ok (ZnearestE (IZR cmdFCM + z4 * lam / (2 * PI) / focusPerStroke / strokePerStep)%R)
    end
  else Ok cmdFCM.

(** The static parameters read at lines 138-155. *)
Record flatten_params := FlattenParams {
  f_focusPerStroke : R; f_strokePerStep : R;
  f_maxNoll : Z; f_nIterSmooth : Z; f_nBin : Z; f_arrayExtFac : R }.
Record flatten_ops := FlattenOps {
  fo_lstsq : lstsq_fun; fo_fmin : fmin_fun; fo_kernel : kernel_fun; fo_conv : conv_ops }.
Definition b2r (b : bool) : R := if b then 1%R else 0%R.
(** conjugate.py:127-128 *)
Definition dm_size (nact : Z) (ppact : R) : Z := ZnearestE (2 * IZR nact * ppact).

(** Everything flatten computes before the DM commands (lines 127-235): the coefficients, the three
    Zernike maps, the remainder, the usable map, the two phases and the two surfaces. *)
Record flatten_state := FlattenState {
  s_wfeIn : arr R; s_usable : arr bool; s_coef : list R;
  s_z1to3 : arr R; s_z4 : arr R; s_z : arr R; s_above : arr R;
  s_phase1 : arr R; s_phase2 : arr R; s_crop : arr bool; s_surf1 : arr R; s_surf2 : arr R }.
Definition flatten_front (ops : flatten_ops) (useDMs useFCM highZern : bool) (amp ph : arr R)
    (diam xo yo : R) (dm1 dm2 : dm_config) (p : flatten_params) : res flatten_state :=
  let nx1 := dm_size (c_nact dm1) (c_ppact_cx dm1) in                       (* 127 *)
  let ny1 := dm_size (c_nact dm1) (c_ppact_cy dm1) in
  let nx2 := dm_size (c_nact dm2) (c_ppact_cx dm2) in
  let ny2 := dm_size (c_nact dm2) (c_ppact_cy dm2) in
  let h := Z.max ny1 ny2 in let w := Z.max nx1 nx2 in                       (* 133-135 *)
  check 0 <? f_maxNoll p else ValueError;                                   (* 152 *)
  check 0 <? f_nIterSmooth p else ValueError;
  check 0 <? f_nBin p else ValueError;
  check pos_real (f_arrayExtFac p) else ValueError;
  do wfeIn <- pad_crop ph [h; w] 0%R;                                       (* 158 *)
  do ampIn <- pad_crop amp [h; w] 0%R;                                      (* 159 *)
  do usable <- ampthresh ampIn (f_nBin p);                                  (* 161 *)
  do v <- fit_zernikes (fo_lstsq ops) wfeIn (amap b2r usable) (f_maxNoll p) diam xo yo;   (* 163 *)
  let coef := map v (zrange (f_maxNoll p)) in
  do zs <- gen_split_wfe useFCM (f_maxNoll p) coef diam h w xo yo;          (* 166 *)
  let '(z13, z4, z) := zs in
  let above := above_zmax wfeIn z z4 z13 usable in                          (* 169 *)
  check useDMs || ((0 <=? ny1) && (0 <=? nx1) && (0 <=? ny2) && (0 <=? nx2)) else ValueError;   (* 193-194 *)
  let phases := dm_phases (fo_fmin ops) useDMs highZern ny1 nx1 ny2 nx2 z above usable in
  let nSmall := ceil_odd (f_arrayExtFac p * diam) in                        (* 198 *)
  do crop <- pad_crop usable [nSmall; nSmall] false;                        (* 199 *)
  do surf1 <- desired_surface (fo_kernel ops) highZern (f_nIterSmooth p) nSmall crop
                (c_ppact_cx dm1) (c_ppact_cy dm1) (fst phases);             (* 201-227 *)
  do surf2 <- desired_surface (fo_kernel ops) highZern (f_nIterSmooth p) nSmall crop
                (c_ppact_cx dm2) (c_ppact_cy dm2) (snd phases);             (* 207-235 *)
  Ok (FlattenState wfeIn usable coef z13 z4 z above (fst phases) (snd phases) crop surf1 surf2).

(** conjugate.py:274-275: [cmd - delta] with numpy broadcasting: along each axis the sizes agree or one of them is 1. *)
Definition new_command (cmd delta : arr R) : res (arr R) :=
  let fits n m := (n =? m) || (n =? 1) || (m =? 1) in
  let pick n i := if n =? 1 then 0 else i in
  check fits (nr cmd) (nr delta) && fits (nc cmd) (nc delta) else ValueError;
  Ok (Arr (if nr cmd =? 1 then nr delta else nr cmd) (if nc cmd =? 1 then nc delta else nc cmd)
    (fun i j => at2 cmd (pick (nr cmd) i) (pick (nc cmd) j) - at2 delta (pick (nr delta) i) (pick (nc delta) j))%R).

(** conjugate.py:24-282. *)
Definition flatten (ops : flatten_ops) (cmdDM1 cmdDM2 : arr R) (cmdFCM : Z)
    (useDMs useFCM highZern : bool) (lam : R) (amp ph : arr R) (diam xo yo : R)
    (dm1 dm2 : dm_config) (p : flatten_params) : res (arr R * arr R * Z * list R) :=
  check nr cmdDM1 =? nc cmdDM1 else ValueError;                             (* 98 *)
  check nr cmdDM2 =? nc cmdDM2 else ValueError;                             (* 100 *)
  check pos_real lam else ValueError;                                       (* 106 *)
  check pos_real diam else ValueError;                                      (* 111 *)
  do s <- flatten_front ops useDMs useFCM highZern amp ph diam xo yo dm1 dm2 p;
  do hdm1 <- conv_surf_to_dm_cmd (fo_conv ops) (s_surf1 s) dm1;             (* 238 *)
  do hdm2 <- conv_surf_to_dm_cmd (fo_conv ops) (s_surf2 s) dm2;             (* 240 *)
  do hh <- reassign_dead (c_nact dm1) (c_nact dm2) (c_tie dm1) (c_tie dm2) hdm1 hdm2;   (* 243-263 *)
  do delta1 <- dmh_to_volts (c_gain dm1) (fst hh) lam;                      (* 268 *)
  do delta2 <- dmh_to_volts (c_gain dm2) (snd hh) lam;                      (* 272 *)
  do new1 <- new_command cmdDM1 delta1;                                     (* 274 *)
  do new2 <- new_command cmdDM2 delta2;                                     (* 275 *)
  do fcm <- fcm_command useFCM cmdFCM (s_coef s) lam (f_focusPerStroke p) (f_strokePerStep p);   (* 278-280 *)
  Ok (new1, new2, fcm, s_coef s).
