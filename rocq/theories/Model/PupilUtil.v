(** Model of coralign/pupil/util.py. Arguments have the types the checks accept; arrays hold finite reals. *)
From Coq Require Import ZArith Bool List Reals String.
From Flocq Require Import Core.
From Coquelicot Require Import Complex.
From Verif.Base Require Import Py Arr Vec Sums CSum Fft.
From Verif.Model Require Import Math Noll Fits Shapes PadCrop PsfFit MaskGen.
Import ListNotations.
Open Scope Z_scope.

(** ** Coarse location *)

(** util.py:407-501. The third result is overlap_matrix. Simplified: image coordinates (466-469) are integers:
    ceil(-n/2) + j is - (n // 2) + j, and the square root and comparison of 488-491 are exact. *)
Definition coarsely_locate_pupil_offset_once (image : arr R) (n_points_beam : R) (x_start y_start radius step : Z)
  : res (Z * Z * arr R) :=
  check Rltb 0 n_points_beam else TypeError;                                (* 455 *)
  check 0 <? radius else TypeError;                                         (* 458 *)
  check 0 <? step else TypeError;                                           (* 459 *)
  let ny := nr image in let nx := nc image in                               (* 463 *)
  let cx := nx / 2 in let cy := ny / 2 in                                   (* 464-465 *)
  let xs j := Zceil (- IZR nx / 2) + j in                                   (* 466 *)
  let ys i := Zceil (- IZR ny / 2) + i in                                   (* 468 *)
  let n_offsets := (radius + 1 - - radius + step - 1) / step in             (* 471-474: ceil((stop - start) / step) *)
  let offset k := - radius + step * k in
  let overlap iy ix :=
    let x := offset ix in let y := offset iy in
    if (0 <=? x + x_start + cx) || (x + x_start + cx <=? nx - 1) then       (* 478-479 *)
      if (0 <=? y + y_start + cy) || (y + y_start + cy <=? ny - 1) then     (* 483-485 *)
        rsum2 (fun i j =>
          if Rleb (sqrt (IZR (xs j - x - x_start) ^ 2 + IZR (ys i - y - y_start) ^ 2)) (n_points_beam / 2)
          then at2 image i j else 0%R) ny nx                                (* 487-492 *)
      else 0%R
    else 0%R in                                                             (* 475 *)
  let matrix := Arr n_offsets n_offsets overlap in
  do best <- argmax2 matrix;                                                (* 494 *)
  Ok (offset (snd best) + x_start, offset (fst best) + y_start, matrix).    (* 498-501 *)

(** util.py:387-402: the while loop, at most [fuel] passes; None: still running. [rnd] is the rounding of the
    floating-point operations that produce the step size (the identity for exact arithmetic). *)
Definition next_step (rnd : R -> R) (shrink : R) (step : Z) : Z :=
  let s := Ztrunc (rnd (rnd (IZR step) / shrink)%R) in                        (* 400 *)
  if s <? 1 then 1 else s.                                                  (* 401-402 *)
Fixpoint coarse_loop (fuel : nat) (rnd : R -> R) (image : arr R) (beam shrink : R) (x y radius step : Z)
  : option (res (Z * Z)) :=
  match fuel with
  | O => None
  | S fuel' =>
      match coarsely_locate_pupil_offset_once image beam x y radius step with   (* 389-391 *)
      | Err e => Some (Err e)
      | Ok (x', y', _) =>
          if step =? 1 then Some (Ok (x', y'))                              (* 397-398, 387, 404 *)
          else coarse_loop fuel' rnd image beam shrink x' y' (2 * step) (next_step rnd shrink step)   (* 392-402 *)
      end
  end.
(** util.py:341-404. A step of 0 cannot arise before the first pass (383). *)
Definition first_step (rnd : R -> R) (beam shrink : R) : Z := Z.max 1 (Zfloor (rnd (beam / shrink)%R)).   (* 383 *)
Definition coarsely_locate_pupil_offset (fuel : nat) (rnd : R -> R) (image : arr R) (beam shrink : R)
  : option (res (Z * Z)) :=
  if negb (Rltb 0 beam) then Some (Err TypeError) else                      (* 376 *)
  if negb (Rltb 0 shrink) then Some (Err TypeError) else                    (* 377 *)
  if Rleb shrink 1 then Some (Err TypeError) else                           (* 378-379 *)
  coarse_loop fuel rnd image beam shrink 0 0
    (Z.max (nc image / 2) (nr image / 2)) (first_step rnd beam shrink).     (* 381-385 *)

(** ** Normalization factor *)

Fixpoint insert (v : R) (l : list R) : list R :=
  match l with [] => [v] | u :: l' => if Rle_dec v u then v :: l else u :: insert v l' end.
Definition sort (l : list R) : list R := fold_right insert [] l.
(** numpy.percentile(l, q) for a non-empty l, method "linear": the order statistics at the two ranks around
    q/100 * (n - 1), interpolated. *)
Definition percentile (l : list R) (q : R) : R :=
  let s := sort l in
  let v := (q / 100 * IZR (Z.of_nat (List.length l) - 1))%R in
  let k := Zfloor v in
  let a := nth (Z.to_nat k) s 0%R in
  let b := nth (Z.to_nat (Z.min (k + 1) (Z.of_nat (List.length l) - 1))) s 0%R in
  (a + (b - a) * (v - IZR k))%R.
(** util.py:504-547 *)
Definition compute_norm_factor (image mask : arr R) (q : R) : res R :=
  check same_shape image mask else TypeError;                               (* 529 *)
  check forallb (fun v => if Req_EM_T v 0 then true else if Req_EM_T v 1 then true else false) (elements mask)
    else TypeError;                                                         (* 533 *)
  check negb (Rltb q 0 || Rltb 100 q) else TypeError;                       (* 537 *)
  if Req_EM_T (sum_list (elements mask)) 0 then Err TypeError               (* 540, 545 *)
  else Ok (percentile (select (amap (fun v => if Req_EM_T v 1 then true else false) mask) image) q).   (* 542 *)

(** ** Clocking *)

Definition of_bool (b : bool) : R := if b then 1%R else 0%R.
(** numpy.sum of a boolean matrix. *)
Definition count2 (b : Z -> Z -> bool) (n m : Z) : R := rsum2 (fun i j => of_bool (b i j)) n m.
(** One pass of the loops at 93-103 and 107-115, [amp] being |ampMeas|. *)
Definition rotated_ref (rotate : rotate_fun) (spline : bispline_fun) (amp maskRef : arr R) (mag x y clockDeg : R)
  : res (arr R) :=
  do p <- rotate_shift_downsample rotate spline maskRef clockDeg mag x y 1 false;   (* 95, 110 *)
  pad_crop p [nr amp; nc amp] 0%R.                                          (* 97, 112 *)
(** 89-90, 99-103. Dividing by a zero factor gives inf or nan everywhere, which compares False. *)
Definition overlap_norm (rotate : rotate_fun) (spline : bispline_fun) (amp maskRef : arr R) (mag x y q delta fMeas : R)
    (clockDeg : R) : res R :=
  do p <- rotated_ref rotate spline amp maskRef mag x y clockDeg;
  do b <- ampthresh p 21;
  do fRef <- compute_norm_factor p (amap of_bool b) q;                      (* 99 *)
  Ok (count2 (fun i j => if Req_EM_T fMeas 0 then false else if Req_EM_T fRef 0 then false else
        Rltb (Rabs (at2 amp i j / fMeas - at2 p i j / fRef)) delta) (nr amp) (nc amp)).   (* 101-103 *)
(** 114-115 *)
Definition overlap_bool (rotate : rotate_fun) (spline : bispline_fun) (amp maskRef : arr R) (mag x y : R) (m : arr bool)
    (clockDeg : R) : res R :=
  do p <- rotated_ref rotate spline amp maskRef mag x y clockDeg;
  do b <- ampthresh p 21;
  Ok (count2 (fun i j => Bool.eqb (at2 m i j) (at2 b i j)) (nr amp) (nc amp)).
(** A loop filling a vector, stopping at the first exception. *)
Fixpoint fill_vec (f : Z -> res R) (k : Z) (n : nat) : res (Z -> R) :=
  match n with
  | O => Ok (fun _ => 0%R)
  | S n' => do v <- f k; do r <- fill_vec f (k + 1) n'; Ok (fun i => if i =? k then v else r i)
  end.
(** 122-127. [lstsq] as in findopt; numpy.polyfit divides each Vandermonde column by its norm, so the fit of an
    all-zero clockVec is one of NaNs, on which the least-squares routine does not converge. *)
Definition fit_clock (lstsq : lstsq1_fun) (clockVec overlapVec : vec R) : res R :=
  let m := fold_right Rmax (vat overlapVec 0) (map (vat overlapVec) (zrange (vlen overlapVec))) in   (* 122 *)
  let ys i := ((vat overlapVec i - m) ^ 2)%R in
  check existsb (fun i => if Req_EM_T (vat clockVec i) 0 then false else true) (zrange (vlen clockVec))
    else Custom "LinAlgError";
  let p := lstsq (zrange (vlen clockVec)) 3 (fun i k => vat clockVec i ^ Z.to_nat (2 - k))%R ys in   (* 123 *)
  if Req_EM_T (p 0) 0 then Ok 0%R                                           (* 124-125 *)
  else Ok (- p 1%Z / (2 * p 0%Z))%R.                                         (* 127 *)
(** util.py:12-129. [amp] is |ampMeas| (87). *)
Definition compute_clocking (lstsq : lstsq1_fun) (rotate : rotate_fun) (spline : bispline_fun) (amp : arr R)
    (diamBeam : R) (maskRef : arr R) (diamHigh xOffset yOffset clockDegMax : R) (nClock : Z) (q delta : R)
    (useAmpthresh : bool) : res R :=
  check Rltb 0 diamBeam else TypeError;                                     (* 71 *)
  check Rltb 0 diamHigh else TypeError;                                     (* 73 *)
  check 0 <? nClock else TypeError;                                         (* 77 *)
  check Rleb 0 q else TypeError;                                            (* 78 *)
  check Rleb 0 delta else TypeError;                                        (* 79 *)
  let clock i := linspace (- clockDegMax) clockDegMax nClock i in           (* 84 *)
  let mag := (diamBeam / diamHigh)%R in
  do m <- ampthresh (amap (fun v => v ^ 2)%R amp) 21;                       (* 89, 106 *)
  do overlap <-
    (if (negb useAmpthresh : bool) then
       do fMeas <- compute_norm_factor amp (amap of_bool m) q;              (* 89 *)
       fill_vec (fun i => overlap_norm rotate spline amp maskRef mag xOffset yOffset q delta fMeas (clock i))
         0 (Z.to_nat nClock)
     else
       fill_vec (fun i => overlap_bool rotate spline amp maskRef mag xOffset yOffset m (clock i))
         0 (Z.to_nat nClock));
  fit_clock lstsq (Vec nClock clock) (Vec nClock overlap).

(** ** Lateral offsets *)

(** util.py:223-226, 233-238: padded array to cropped focal-plane field. *)
Definition focal (a : arr R) (nPad nCrop : Z) : res (arr C) :=
  do f <- fft2 (ifftshift (amap RtoC a));
  pad_crop (amap (fun z => z / RtoC (IZR nPad))%C (fftshift f)) [nCrop; nCrop] (RtoC 0).
(** 283-287: the frequency (cycles per pixel) of a cropped sample, along one axis. *)
Definition xi (nPad k : Z) : R := ((- IZR nPad / 2 + IZR k) / IZR nPad)%R.
Definition freqs (nPad nCrop : Z) : res (arr R * arr R) :=
  do X <- pad_crop (Arr nPad nPad (fun _ j => xi nPad j)) [nCrop; nCrop] 0%R;
  do Y <- pad_crop (Arr nPad nPad (fun i _ => xi nPad i)) [nCrop; nCrop] 0%R;
  Ok (X, Y).
(** 306-311: cost of one pair of shifts. *)
Definition lateral_cost (E Eref : arr C) (X Y : arr R) (dx dy : R) : R :=
  rsum2 (fun i j => Cmod (at2 E i j * cis (2 * PI * (dx * at2 X i j + dy * at2 Y i j))%R - at2 Eref i j)%C ^ 2)%R
    (nr E) (nc E).
(** numpy.argmin, first in row-major order. *)
Definition argmin2 (a : arr R) : res (Z * Z) := argmax2 (amap Ropp a).
(** 300-303: one axis of the grid of trial shifts. *)
Definition delta_vec (n : Z) (dPix centre : R) : vec R :=
  Vec n (fun i => (linspace (- ((IZR n - 1) / 2)) ((IZR n - 1) / 2) n i * dPix + centre)%R).
(** 294-336: one iteration; the state is (deltaX, deltaY, dPixelNew). *)
Definition lateral_step (lstsq : lstsq_fun) (cost : R -> R -> R) (n nIter k : Z) (s : R * R * R) : res (R * R * R) :=
  let '(dX, dY, dPix) := s in
  let dPix := if 1 <? k then (dPix / 2)%R else dPix in                      (* 296-297 *)
  let vx := delta_vec n dPix dX in                                          (* 299-302 *)
  let vy := delta_vec n dPix dY in
  let costMat := Arr n n (fun iy ix => cost (vat vx ix) (vat vy iy)) in     (* 304-311 *)
  if (k =? 0) && (1 <? nIter) then                                          (* 323 *)
    do b <- argmin2 costMat;                                                (* 324 *)
    Ok (vat vx (snd b), vat vy (fst b), dPix)                               (* 325-326 *)
  else
    do o <- find_optimum_2d lstsq vx vy costMat (afull n n 1%R);            (* 329 *)
    Ok (fst o, snd o, dPix).
Fixpoint lateral_loop (lstsq : lstsq_fun) (cost : R -> R -> R) (n nIter k : Z) (m : nat) (s : R * R * R) : res (R * R * R) :=
  match m with
  | O => Ok s
  | S m' => do s' <- lateral_step lstsq cost n nIter k s; lateral_loop lstsq cost n nIter (k + 1) m' s'
  end.
(** util.py:132-338. With useCoarse the initial offsets are the result of the coarse search (shrink factor 3, not
    bounded in passes here: [fuel] passes, None: still running); otherwise they are the arguments. *)
Definition compute_lateral_offsets (lstsq : lstsq_fun) (fuel : nat) (rnd : R -> R) (meas ref : arr R) (diamEst : R)
    (nPhaseSteps : Z) (dPixel : R) (nPad nCrop nIter : Z) (useCoarse : bool) (xCoarse yCoarse : R)
  : option (res (R * R)) :=
  if negb (Rltb 0 diamEst) then Some (Err TypeError) else                   (* 195 *)
  if negb (0 <? nPhaseSteps) then Some (Err TypeError) else                 (* 196 *)
  if negb (Rltb 0 dPixel) then Some (Err TypeError) else                    (* 197 *)
  if negb (0 <? nPad) then Some (Err TypeError) else                        (* 198 *)
  if negb (0 <? nCrop) then Some (Err TypeError) else                       (* 199 *)
  if negb (0 <? nIter) then Some (Err TypeError) else                       (* 201 *)
  match (if useCoarse then
           match coarsely_locate_pupil_offset fuel rnd meas diamEst 3 with  (* 204-206 *)
           | None => None
           | Some (Err e) => Some (Err e)
           | Some (Ok (x, y)) => Some (Ok (IZR x, IZR y))
           end
         else Some (Ok (xCoarse, yCoarse))) with
  | None => None
  | Some (Err e) => Some (Err e)
  | Some (Ok (xc, yc)) =>
      let xc := ZnearestE xc in                                             (* 209 *)
      let yc := ZnearestE yc in                                             (* 210 *)
      Some (
        do refPad <- pad_crop ref [nPad; nPad] 0%R;                         (* 223 *)
        do Eref <- focal refPad nPad nCrop;                                 (* 224-226 *)
        do rec <- offcenter_crop 0%R meas nPad (IZR (nr meas / 2 + yc)) (IZR (nc meas / 2 + xc));   (* 233-236 *)
        do E <- focal rec nPad nCrop;                                       (* 237-239 *)
        do XY <- freqs nPad nCrop;                                          (* 283-287 *)
        do s <- lateral_loop lstsq (lateral_cost E Eref (fst XY) (snd XY)) nPhaseSteps nIter 0 (Z.to_nat nIter)
                  (0, 0, dPixel)%R;                                         (* 291-336 *)
        Ok (IZR yc + snd (fst s), IZR xc + fst (fst s))%R)                  (* 332-333, 338 *)
  end.
