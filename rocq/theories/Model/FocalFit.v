(** Model of coralign/focalfit/ff_util.py and focalfit.py. Finite values are exact reals. *)
From Coq Require Import ZArith Bool List String Reals.
From Verif.Base Require Import Py Arr Sums.
From Verif.Model Require Import Fits Shapes Yaml DarkHole.
Import ListNotations.
Open Scope string_scope.
Open Scope Z_scope.

(** A float: finite, not a number, or infinite. *)
Inductive num := Fin (r : R) | NaN | PInf | NInf.
Definition nopp (x : num) : num := match x with Fin r => Fin (- r)%R | NaN => NaN | PInf => NInf | NInf => PInf end.
(** numpy division of finite floats; the sign of a zero divisor is taken as positive. *)
Definition ndiv (a b : R) : num :=
  if Req_EM_T b 0 then (if Req_EM_T a 0 then NaN else if Rltb 0 a then PInf else NInf) else Fin (a / b)%R.

(** ff_util.py:7-35 *)
Definition bound_value (inVal : num) (maxVal : R) : res num :=
  check Rleb 0 maxVal else ValueError;                                      (* 24 *)
  match inVal with
  | Fin v => if Rltb maxVal v then Ok (Fin maxVal)                          (* 26 *)
             else if Rltb v (- maxVal) then Ok (Fin (- maxVal)%R)           (* 29 *)
             else Ok (Fin v)
  | PInf => Ok (Fin maxVal)
  | NInf => Ok (Fin (- maxVal)%R)
  | NaN => Ok NaN                                                           (* both comparisons are false *)
  end.

(** ff_util.py:38-81 *)
Definition offset_quadratic (c1 c2 ratio : R) : res num :=
  check Rltb 0 ratio else ValueError;                                       (* 69 *)
  let flip := Rltb ratio 1 in                                               (* 71 *)
  let q := if flip then (1 / ratio)%R else ratio in                         (* 72 *)
  let d := (c1 * c1 - 4 * c2 * (1 - q))%R in
  let v := if Rltb d 0 then NaN else ndiv (- c1 + sqrt d) (2 * c2) in       (* 77-79 *)
  Ok (if flip then nopp v else v).

(** ff_util.py:84-118; Python numbers, for which division by zero raises. *)
Definition offset_linear (c1 ratio : R) : res num :=
  check Rltb 0 ratio else ValueError;                                       (* 108 *)
  let flip := Rltb ratio 1 in                                               (* 110 *)
  let q := if flip then (1 / ratio)%R else ratio in                         (* 111 *)
  if Req_EM_T c1 0 then Err ZeroDivisionError
  else Ok (Fin ((if flip then -1 else 1) * (q - 1) / c1)%R).                (* 116 *)

Definition nsub (a b : num) : num :=
  match a, b with
  | Fin x, Fin y => Fin (x - y)%R
  | NaN, _ | _, NaN => NaN
  | PInf, PInf | NInf, NInf => NaN
  | PInf, _ | _, NInf => PInf
  | NInf, _ | _, PInf => NInf
  end.
(** np.sum(mask * image) *)
Definition masked_sum (mask image : arr R) : R :=
  rsum2 (fun i j => at2 mask i j * at2 image i j)%R (nr image) (nc image).
Definition feps : R := / 2 ^ 52.                                            (* np.finfo(float).eps *)
Definition floor_sum (s : R) : R := if Rleb s 0 then feps else s.
(** shapes.circle(nx, ny, roiRadiusPix, x, y, nSubpixels=nSubpixels) for the shape of [image] *)
Definition roi (image : arr R) (radius x y : R) (ns : Z) : res (arr R) :=
  circle (nc image) (nr image) radius x y ns false.

(** focalfit.py:204-367. [target] and [tuning] are the parsed YAML files. The first four arguments have been
    checked (282-287). *)
Definition calc_offset_from_spots (image : arr R) (xProbeRotDeg xOff yOff : R) (tuning target : yval) : res num :=
  do v <- item target "targetRatio";                                        (* 289-291 *)
  do xRatioTarget <- positive_scalar_ v;
  do spotSep_ <- item tuning "spotSepPix";                                  (* 294-301 *)
  do roiRadius_ <- item tuning "roiRadiusPix";
  do nSub_ <- item tuning "nSubpixels";
  do maxStep_ <- item tuning "maxStep";
  do c1_ <- item tuning "fitCoefPow1";
  do c2_ <- item tuning "fitCoefPow2";
  do power_ <- item tuning "powerOfFit";
  do inside_ <- item tuning "maskIsInsideSpots";
  do spotSep <- positive_scalar_ spotSep_;                                  (* 303-314 *)
  do roiRadius <- positive_scalar_ roiRadius_;
  do nSub <- positive_int_ nSub_;
  do maxStep <- positive_scalar_ maxStep_;
  do c1 <- positive_scalar_ c1_;
  do c2 <- positive_scalar_ c2_;
  do power <- positive_int_ power_;
  check (power =? 1) || (power =? 2) else ValueError;
  match as_int inside_ with
  | None => Err TypeError
  | Some inside =>
  check (inside =? 0) || (inside =? 1) else ValueError;
  let rot := (PI / 180 * xProbeRotDeg)%R in                                 (* 320 *)
  do plusMask <- roi image roiRadius (cos rot * spotSep + xOff) (sin rot * spotSep + yOff) nSub;   (* 321-333 *)
  do minusMask <- roi image roiRadius (cos (rot + PI) * spotSep + xOff) (sin (rot + PI) * spotSep + yOff) nSub;
  let plusSum := floor_sum (masked_sum plusMask image) in                   (* 335-343 *)
  let minusSum := floor_sum (masked_sum minusMask image) in
  let xRatio := (plusSum / minusSum)%R in                                   (* 346 *)
  do off <- (if power =? 1 then offset_linear c1 xRatio else offset_quadratic c1 c2 xRatio);
  do tgt <- (if power =? 1 then offset_linear c1 xRatioTarget else offset_quadratic c1 c2 xRatioTarget);
  do out <- bound_value (nsub off tgt) maxStep;                             (* 361 *)
  Ok (if inside =? 0 then nopp out else out)                                (* 364 *)
  end.

(** A ratio that is only checked inside calc_offset_quadratic, with ValueError. *)
Definition ratio_ (v : yval) : res R := match as_real v with Some r => Ok r | None => Err ValueError end.
(** np.pi/180.0*v for an unchecked YAML value *)
Definition degrees_ (v : yval) : res R := match as_real v with Some r => Ok (PI / 180 * r)%R | None => Err TypeError end.
(** focalfit.py:11-201 *)
Definition calc_bowtie_offsets (image : arr R) (xOff yOff : R) (tuning : yval) : res (num * num) :=
  do spotSep_ <- item tuning "spotSepPix";                                  (* 109-120 *)
  do spotRot_ <- item tuning "spotRotDeg";
  do spotExtraRot_ <- item tuning "spotExtraRotDeg";
  do roiRadius_ <- item tuning "roiRadiusPix";
  do nSub_ <- item tuning "nSubpixels";
  do maxStep_ <- item tuning "maxStep";
  do c1x_ <- item tuning "fitCoefPow1x";
  do c2x_ <- item tuning "fitCoefPow2x";
  do c1y_ <- item tuning "fitCoefPow1y";
  do c2y_ <- item tuning "fitCoefPow2y";
  do xTarget_ <- item tuning "xRatioTarget";
  do yTarget_ <- item tuning "yRatioTarget";
  do spotSep <- positive_scalar_ spotSep_;                                  (* 122-129 *)
  do roiRadius <- positive_scalar_ roiRadius_;
  do nSub <- positive_int_ nSub_;
  do maxStep <- positive_scalar_ maxStep_;
  do c1x <- positive_scalar_ c1x_;
  do c2x <- positive_scalar_ c2x_;
  do c1y <- positive_scalar_ c1y_;
  do c2y <- positive_scalar_ c2y_;
  do rot <- degrees_ spotRot_;                                              (* 135 *)
  do clk <- degrees_ spotExtraRot_;                                         (* 136 *)
  do q1 <- roi image roiRadius (spotSep * cos (rot + clk) + xOff) (spotSep * sin (rot + clk) + yOff) nSub;   (* 137-156 *)
  do q2 <- roi image roiRadius (- spotSep * cos (- rot + clk) + xOff) (- spotSep * sin (- rot + clk) + yOff) nSub;
  do q3 <- roi image roiRadius (- spotSep * cos (rot + clk) + xOff) (- spotSep * sin (rot + clk) + yOff) nSub;
  do q4 <- roi image roiRadius (spotSep * cos (- rot + clk) + xOff) (spotSep * sin (- rot + clk) + yOff) nSub;
  let s1 := floor_sum (masked_sum q1 image) in                              (* 159-172 *)
  let s2 := floor_sum (masked_sum q2 image) in
  let s3 := floor_sum (masked_sum q3 image) in
  let s4 := floor_sum (masked_sum q4 image) in
  let upSum := (s1 + s2)%R in let downSum := (s3 + s4)%R in                 (* 174-177 *)
  let leftSum := (s2 + s3)%R in let rightSum := (s1 + s4)%R in
  do x0 <- offset_quadratic c1x c2x (rightSum / leftSum);                   (* 179-186 *)
  do xt <- ratio_ xTarget_;
  do x1 <- offset_quadratic c1x c2x xt;
  let x2 := nsub (nopp x0) (nopp x1) in
  do y0 <- offset_quadratic c1y c2y (upSum / downSum);                      (* 188-195 *)
  do yt <- ratio_ yTarget_;
  do y1 <- offset_quadratic c1y c2y yt;
  let y2 := nsub (nopp y0) (nopp y1) in
  do x <- bound_value x2 maxStep;                                           (* 198 *)
  do y <- bound_value y2 maxStep;                                           (* 199 *)
  Ok (x, y).
