(** Model of coralign/util/shapes.py. Scalars are already-checked finite reals and integers; the argument
    checks kept are the ones that can still fail for such values. Exact real arithmetic. *)
From Coq Require Import ZArith Bool List Reals.
From Verif.Base Require Import Py Arr Sums Trig.
From Verif.Model Require Import Fits.
Import ListNotations.
Open Scope Z_scope.

(** numpy.linspace(a, b, n)[i]. *)
Definition linspace (a b : R) (n i : Z) : R :=
  if n =? 1 then a else (a + IZR i * ((b - a) / (IZR n - 1)))%R.
(** shapes.py:113-121 (and 204-212, 303-311, 593-600): pixel coordinates along one axis. *)
Definition axis (n : Z) (off : R) (i : Z) : R :=
  if Z.even n then (linspace (- (IZR n / 2)) (IZR n / 2 - 1) n i - off)%R
  else (linspace (- ((IZR n - 1) / 2)) ((IZR n - 1) / 2) n i - off)%R.
(** shapes.py:134-137 (and 231-233, 337-340, 644-647): subpixel offsets. *)
Definition xUp (ns q : Z) : R :=
  (linspace (- ((IZR ns - 1) / 2)) ((IZR ns - 1) / 2) ns q * (1 / IZR ns))%R.
(** shapes.py:144-155 (and 237-251, 344-361, 652-678): mean of the binary subpixels of one pixel. *)
Definition gray (inside : R -> R -> bool) (ns : Z) (xc yc : R) : R :=
  (rsum2 (fun p q => if inside (xUp ns q + xc)%R (xUp ns p + yc)%R then 1 else 0) ns ns / IZR (ns * ns))%R.
(** mask starts at -1; [one] pixels are set to 1, then [zero] pixels to 0; those still -1 are supersampled. *)
Definition edge_mask (one zero inside : R -> R -> bool) (ns : Z) (x y : R) : R :=
  if zero x y then 0%R else if one x y then 1%R else gray inside ns x y.
Definition dark (isDark : bool) (m : arr R) : arr R := if isDark then amap (fun v => 1 - v)%R m else m.
(** x[1] - x[0] (lines 123, 215, 313, 601): IndexError when nx = 1. *)
Definition pixel_dx (nx : Z) (xOffset : R) : res R :=
  check 1 <? nx else IndexError;
  Ok (axis nx xOffset 1 - axis nx xOffset 0)%R.

(** shapes.py:79-160 *)
Definition circle (nx ny : Z) (radius xOffset yOffset : R) (ns : Z) (isDark : bool) : res (arr R) :=
  check 0 <? nx else TypeError;                                             (* 106 *)
  check 0 <? ny else TypeError;                                             (* 107 *)
  check Rltb 0 radius else TypeError;                                       (* 108 *)
  check 0 <? ns else TypeError;                                             (* 111 *)
  do dx <- pixel_dx nx xOffset;                                             (* 123 *)
  let rho x y := sqrt (x * x + y * y) in                                    (* 125 *)
  let h := (sqrt 2 * dx)%R in                                               (* 127 *)
  let one x y := Rltb (Rabs (rho x y)) (radius - h) in                      (* 129 *)
  let zero x y := Rltb (radius + h) (Rabs (rho x y)) in                     (* 130 *)
  let inside x y := Rleb (sqrt (x ^ 2 + y ^ 2)) radius in                   (* 150-153 *)
  Ok (dark isDark (Arr ny nx (fun i j =>
    edge_mask one zero inside ns (axis nx xOffset j) (axis ny yOffset i)))).   (* 157-160 *)

(** shapes.py:218-221 and 243-247 *)
Definition ellipse_rho (rx ry rot x y : R) : R :=
  (/ 2 * sqrt (1 / rx ^ 2 * (cos rot * x + sin rot * y) ^ 2 + 1 / ry ^ 2 * (sin rot * x - cos rot * y) ^ 2))%R.
(** shapes.py:163-256 *)
Definition ellipse (nx ny : Z) (rx ry rot xOffset yOffset : R) (ns : Z) (isDark : bool) : res (arr R) :=
  check 0 <? nx else TypeError;                                             (* 193 *)
  check 0 <? ny else TypeError;                                             (* 194 *)
  check Rltb 0 rx else TypeError;                                           (* 195 *)
  check Rltb 0 ry else TypeError;                                           (* 196 *)
  check 0 <? ns else TypeError;                                             (* 200 *)
  let rotRad := (PI / 180 * rot)%R in                                       (* 202 *)
  do dx <- pixel_dx nx xOffset;                                             (* 215 *)
  let rho := ellipse_rho rx ry rotRad in
  let X j := axis nx xOffset j in let Y i := axis ny yOffset i in
  check 1 <? ny else IndexError;                                            (* 223: RHO[1, 0] *)
  let h := Rmax (Rabs (rho (X 0) (Y 1) - rho (X 0) (Y 0))) (Rabs (rho (X 1) (Y 0) - rho (X 0) (Y 0))) in   (* 223-224 *)
  let one x y := Rltb (Rabs (rho x y)) (/ 2 - h) in                         (* 226 *)
  let zero x y := Rltb (/ 2 + h) (Rabs (rho x y)) in                        (* 227 *)
  let inside x y := Rleb (rho x y) (/ 2) in                                 (* 243-249 *)
  Ok (dark isDark (Arr ny nx (fun i j => edge_mask one zero inside ns (X j) (Y i)))).   (* 231-256; dxUp uses dx = 1 *)

(** shapes.py:259-366; cart2pol (util/math.py:82-83) inlined per pixel. *)
Definition rect_u (rot x y : R) : R := (sqrt (x ^ 2 + y ^ 2) * cos (arctan2 y x - rot))%R.
Definition rect_v (rot x y : R) : R := (sqrt (x ^ 2 + y ^ 2) * sin (arctan2 y x - rot))%R.
Definition rectangle (nx ny : Z) (width height xOffset yOffset rot : R) (ns : Z) (isDark : bool) : res (arr R) :=
  check 0 <? nx else TypeError;                                             (* 293 *)
  check 0 <? ny else TypeError;                                             (* 294 *)
  check Rltb 0 width else TypeError;                                        (* 295 *)
  check Rltb 0 height else TypeError;                                       (* 296 *)
  check 0 <? ns else TypeError;                                             (* 300 *)
  do dx <- pixel_dx nx xOffset;                                             (* 313 *)
  let h := (sqrt 2 * dx)%R in                                               (* 318 *)
  let rotRad := (rot * PI / 180)%R in                                       (* 320 *)
  let u := rect_u rotRad in let v := rect_v rotRad in
  let one x y := Rleb (u x y) (width / 2 - h) && Rleb (- width / 2 + h) (u x y)
                 && Rleb (v x y) (height / 2 - h) && Rleb (- height / 2 + h) (v x y) in   (* 321-325 *)
  let zero x y := Rleb (width / 2 + h) (u x y) || Rleb (u x y) (- width / 2 - h)
                 || Rleb (height / 2 + h) (v x y) || Rleb (v x y) (- height / 2 - h) in   (* 326-330 *)
  let inside x y := Rleb (u x y) (width / 2) && Rleb (- width / 2) (u x y)
                 && Rleb (v x y) (height / 2) && Rleb (- height / 2) (v x y) in   (* 353-357 *)
  Ok (dark isDark (Arr ny nx (fun i j =>
    edge_mask one zero inside ns (axis nx xOffset j) (axis ny yOffset i)))).

(** np.angle(np.exp(1j*t)) *)
Definition wrap_angle (t : R) : R := arctan2 (sin t) (cos t).
(** shapes.py:535-680 *)
Definition annular_segments (nSeg : Z) (rIn rOut : R) (nx ny : Z) (xOffset yOffset angOpen angRot : R)
    (ns : Z) (dTheta : R) : res (arr R) :=
  check (nSeg =? 1) || (nSeg =? 2) else TypeError;                          (* 573-575 *)
  check Rltb 0 rIn else TypeError;                                          (* 576 *)
  check Rltb 0 rOut else TypeError;                                         (* 577 *)
  check 0 <? nx else TypeError;                                             (* 578 *)
  check 0 <? ny else TypeError;                                             (* 579 *)
  check Rleb 0 angOpen else TypeError;                                      (* 582 *)
  check 0 <? ns else TypeError;                                             (* 584 *)
  check Rleb 0 dTheta else TypeError;                                       (* 585 *)
  let a := (angOpen * PI / 180 / 2)%R in                                    (* 588: angOpenRad/2 *)
  let rot := (angRot * PI / 180)%R in                                       (* 589 *)
  let d := (dTheta * PI / 180)%R in                                         (* 590 *)
  do dx <- pixel_dx nx xOffset;                                             (* 601 *)
  let rho x y := sqrt (x * x + y * y) in                                    (* 603 *)
  let th x y := wrap_angle (arctan2 y x - rot) in                           (* 604-605 *)
  let th180 x y := wrap_angle (arctan2 y x - rot - PI) in                   (* 606 *)
  let h := (sqrt 2 * dx)%R in                                               (* 609 *)
  check Rltb angRot 360 else UnboundLocalError;                             (* 612, 626, 652: grayInds unset *)
  let in1 t := Rltb t (a - d) && Rltb (- a + d) t in
  let radial1 x y := Rltb (rho x y) (rOut - h) && Rltb (rIn + h) (rho x y) in
  let radial0 x y := Rltb (rOut + h) (rho x y) || Rltb (rho x y) (rIn - h) in
  let one x y := radial1 x y &&
    (if nSeg =? 1 then in1 (th x y) else in1 (th x y) || in1 (th180 x y)) in    (* 613-617, 627-633 *)
  let zero x y := radial0 x y ||
    (if nSeg =? 1 then Rltb (a + d) (th x y) || Rltb (th x y) (- a - d)         (* 618-622 *)
     else (Rltb (a + d) (th x y) && Rltb (th x y) (PI - a - d))
          || (Rltb (a + d) (th180 x y) && Rltb (th180 x y) (PI - a - d))) in    (* 634-640 *)
  let on t := Rleb t a && Rleb (- a) t in
  let inside x y := Rleb (sqrt (x ^ 2 + y ^ 2)) rOut && Rleb rIn (sqrt (x ^ 2 + y ^ 2)) &&
    (if nSeg =? 1 then on (th x y) else on (th x y) || on (th180 x y)) in       (* 658-674 *)
  Ok (Arr ny nx (fun i j => edge_mask one zero inside ns (axis nx xOffset j) (axis ny yOffset i))).

(** shapes.py:8-76. The strut loop multiplies the pupil by one dark rectangle per angle. *)
Definition strut (nx ny : Z) (xOffset yOffset diamOuter strutWidth : R) (ns : Z) (ang : R) : res (arr R) :=
  let height := (6 / 10 * diamOuter)%R in                                   (* 64 *)
  let angRad := (ang * PI / 180)%R in                                       (* 68 *)
  rectangle nx ny height strutWidth (xOffset + cos angRad * height / 2) (yOffset + sin angRad * height / 2)
    ang ns true.                                                            (* 69-74 *)
Fixpoint struts (nx ny : Z) (xOffset yOffset diamOuter strutWidth : R) (ns : Z) (angs : list R) (pupil : arr R)
    : res (arr R) :=
  match angs with
  | [] => Ok pupil
  | t :: angs' =>
      do s <- strut nx ny xOffset yOffset diamOuter strutWidth ns t;
      struts nx ny xOffset yOffset diamOuter strutWidth ns angs' (amap2 Rmult pupil s)   (* 72 *)
  end.
Definition simple_pupil (nx ny : Z) (xOffset yOffset diamInner diamOuter : R) (strutAngles : list R)
    (strutWidth : R) (ns : Z) : res (arr R) :=
  check 0 <? nx else TypeError;                                             (* 39 *)
  check 0 <? ny else TypeError;                                             (* 40 *)
  check Rleb 0 diamInner else TypeError;                                    (* 43 *)
  check Rltb 0 diamOuter else TypeError;                                    (* 44 *)
  check Rleb 0 strutWidth else TypeError;                                   (* 46 *)
  check 0 <? ns else TypeError;                                             (* 47 *)
  check Rltb diamInner diamOuter else TypeError;                            (* 48 *)
  do pupil <- circle nx ny (diamOuter / 2) xOffset yOffset ns false;        (* 52 *)
  do pupil <- (if Rltb 0 diamInner then                                     (* 56 *)
                 do c <- circle nx ny (diamInner / 2) xOffset yOffset ns true;   (* 57 *)
                 Ok (amap2 Rmult pupil c)
               else Ok pupil);
  if (match strutAngles with [] => false | _ => true end) && Rltb 0 strutWidth   (* 61 *)
  then struts nx ny xOffset yOffset diamOuter strutWidth ns strutAngles pupil
  else Ok pupil.
