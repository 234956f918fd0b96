(** Model of ellipse, rectangle, annular_segments and simple_pupil (coralign/util/shapes.py) in binary64, operation by
    operation. The elementary functions of the C library are arguments. Scalars are Python floats. *)
From Coq Require Import ZArith Bool List String.
From Flocq Require Import Core BinarySingleNaN.
From Verif.Base Require Import Py Arr Sums F64.
From Verif.Model Require Import ShapesF.
Import ListNotations.
Open Scope string_scope.
Open Scope Z_scope.

(** cos, sin and arctan2 of numpy, and x**2 of a Python float; None stands for OverflowError. *)
Record libm := { lcos : f64 -> f64; lsin : f64 -> f64; latan2 : f64 -> f64 -> f64; lpow2 : f64 -> option f64 }.
(** numpy.pi, numpy.sqrt(2.), 0.5 and 0.6 *)
Definition fpi : f64 := binary_normalize prec emax Hprec Hmax mode_NE 7074237752028440 (-51) false.
Definition fsqrt2 : f64 := fsqrt (fofZ 2).
Definition fhalf : f64 := fdiv (fofZ 1) (fofZ 2).
Definition f06 : f64 := fdiv (fofZ 3) (fofZ 5).
(** shapes.py:152-155 (and 249-251, 358-361, 676-678): mean of the binary subpixels; numpy.sum of zeros and ones is exact. *)
Definition gray_f (inside : f64 -> f64 -> bool) (up : Z -> f64) (ns : Z) (xc yc : f64) : f64 :=
  fdiv (fofZ (gsum Z 0 Z.add (fun p => gsum Z 0 Z.add (fun q =>
    if inside (fadd (up q) xc) (fadd (up p) yc) then 1 else 0) ns) ns)) (fofZ (ns * ns)).
(** The mask starts at -1; [one] pixels are set to 1, then [zero] pixels to 0; those still -1 are supersampled. *)
Definition edge_f (one zero inside : f64 -> f64 -> bool) (up : Z -> f64) (ns : Z) (x y : f64) : f64 :=
  if zero x y then fzero else if one x y then fofZ 1 else gray_f inside up ns x y.
Definition dark_f (isDark : bool) (v : f64) : f64 := if isDark then fsub (fofZ 1) v else v.

(** shapes.py:231-232: subpixel offsets of ellipse, scaled by dx. *)
Definition xUpE_f (dx : f64) (ns q : Z) : f64 :=
  fmul (linspace_f (fdiv (fofZ (- (ns - 1))) (fofZ 2)) (fdiv (fofZ (ns - 1)) (fofZ 2)) ns q) (fdiv dx (fofZ ns)).
(** 1/(r)**2 of a Python float *)
Definition inv_pow2 (M : libm) (r : f64) : res f64 :=
  match lpow2 M r with
  | None => Err (Custom "OverflowError")
  | Some p => check negb (feq p fzero) else ZeroDivisionError; Ok (fdiv (fofZ 1) p)
  end.
(** shapes.py:218-221 and 243-247, [ix] and [iy] being 1/(rx)**2 and 1/(ry)**2; [c] and [s] are cosine and sine. *)
Definition ellipse_rho_f (c s ix iy x y : f64) : f64 :=
  let u := fadd (fmul c x) (fmul s y) in
  let v := fsub (fmul s x) (fmul c y) in
  fmul fhalf (fsqrt (fadd (fmul ix (fmul u u)) (fmul iy (fmul v v)))).
(** numpy.max of two values: NaN wins. *)
Definition npmax2 (a b : f64) : f64 := if fisnan a then a else if fisnan b then b else if flt a b then b else a.
(** shapes.py:163-256 *)
Definition ellipse_f (M : libm) (nx ny : Z) (rx ry rot xOffset yOffset : f64) (ns : Z) (isDark : bool) : res (arr f64) :=
  check 0 <? nx else TypeError;                                             (* 193 *)
  check 0 <? ny else TypeError;                                             (* 194 *)
  check negb (fle rx fzero) else TypeError;                                 (* 195: NaN passes *)
  check negb (fle ry fzero) else TypeError;                                 (* 196 *)
  check 0 <? ns else TypeError;                                             (* 200 *)
  let rotRad := fmul (fdiv fpi (fofZ 180)) rot in                           (* 202 *)
  let X := axis_f nx xOffset in let Y := axis_f ny yOffset in
  check 1 <? nx else IndexError;                                            (* 215 *)
  let dx := fsub (X 1) (X 0) in
  do ix <- inv_pow2 M rx;                                                   (* 219 *)
  do iy <- inv_pow2 M ry;                                                   (* 220 *)
  let rho := ellipse_rho_f (lcos M rotRad) (lsin M rotRad) ix iy in
  check 1 <? ny else IndexError;                                            (* 223: RHO[1, 0] *)
  let h := npmax2 (Babs (fsub (rho (X 0) (Y 1)) (rho (X 0) (Y 0)))) (Babs (fsub (rho (X 1) (Y 0)) (rho (X 0) (Y 0)))) in
  let one x y := flt (Babs (rho x y)) (fsub fhalf h) in                     (* 226 *)
  let zero x y := flt (fadd fhalf h) (Babs (rho x y)) in                    (* 227 *)
  let inside x y := fle (rho x y) fhalf in                                  (* 243-249 *)
  Ok (Arr ny nx (fun i j => dark_f isDark (edge_f one zero inside (xUpE_f dx ns) ns (X j) (Y i)))).

(** shapes.py:315, 321-330, 349, 353-357: RHO*cos(THETA-rotRad) and RHO*sin(THETA-rotRad); cart2pol (util/math.py:82-83). *)
Definition rect_u_f (M : libm) (rot x y : f64) : f64 := fmul (rho_f x y) (lcos M (fsub (latan2 M y x) rot)).
Definition rect_v_f (M : libm) (rot x y : f64) : f64 := fmul (rho_f x y) (lsin M (fsub (latan2 M y x) rot)).
(** shapes.py:259-366 *)
Definition rectangle_f (M : libm) (nx ny : Z) (width height xOffset yOffset rot : f64) (ns : Z) (isDark : bool)
    : res (arr f64) :=
  check 0 <? nx else TypeError;                                             (* 293 *)
  check 0 <? ny else TypeError;                                             (* 294 *)
  check negb (fle width fzero) else TypeError;                              (* 295 *)
  check negb (fle height fzero) else TypeError;                             (* 296 *)
  check 0 <? ns else TypeError;                                             (* 300 *)
  let X := axis_f nx xOffset in let Y := axis_f ny yOffset in
  check 1 <? nx else IndexError;                                            (* 313 *)
  let h := fmul fsqrt2 (fsub (X 1) (X 0)) in                                (* 313, 318 *)
  let r := fdiv (fmul rot fpi) (fofZ 180) in                                (* 320 *)
  let u := rect_u_f M r in let v := rect_v_f M r in
  let w2 := fdiv width (fofZ 2) in let w2' := fdiv (fopp width) (fofZ 2) in
  let h2 := fdiv height (fofZ 2) in let h2' := fdiv (fopp height) (fofZ 2) in
  let one x y := fle (u x y) (fsub w2 h) && fle (fadd w2' h) (u x y)
                 && fle (v x y) (fsub h2 h) && fle (fadd h2' h) (v x y) in  (* 321-325 *)
  let zero x y := fle (fadd w2 h) (u x y) || fle (u x y) (fsub w2' h)
                 || fle (fadd h2 h) (v x y) || fle (v x y) (fsub h2' h) in  (* 326-330 *)
  let inside x y := fle (u x y) w2 && fle w2' (u x y) && fle (v x y) h2 && fle h2' (v x y) in   (* 353-357 *)
  Ok (Arr ny nx (fun i j => dark_f isDark (edge_f one zero inside (xUp_f ns) ns (X j) (Y i)))).   (* 331-366 *)

(** numpy.angle(numpy.exp(1j*t)) *)
Definition wrap_f (M : libm) (t : f64) : f64 := latan2 M (lsin M t) (lcos M t).
(** shapes.py:535-680 *)
Definition annular_segments_f (M : libm) (nSeg : Z) (rIn rOut : f64) (nx ny : Z)
    (xOffset yOffset angOpen angRot : f64) (ns : Z) (dTheta : f64) : res (arr f64) :=
  check (nSeg =? 1) || (nSeg =? 2) else TypeError;                          (* 573-575 *)
  check negb (fle rIn fzero) else TypeError;                                (* 576 *)
  check negb (fle rOut fzero) else TypeError;                               (* 577 *)
  check 0 <? nx else TypeError;                                             (* 578 *)
  check 0 <? ny else TypeError;                                             (* 579 *)
  check negb (flt angOpen fzero) else TypeError;                            (* 582 *)
  check 0 <? ns else TypeError;                                             (* 584 *)
  check negb (flt dTheta fzero) else TypeError;                             (* 585 *)
  let open := fdiv (fmul angOpen fpi) (fofZ 180) in                         (* 588 *)
  let rot := fdiv (fmul angRot fpi) (fofZ 180) in                           (* 589 *)
  let d := fdiv (fmul dTheta fpi) (fofZ 180) in                             (* 590 *)
  let a := fdiv open (fofZ 2) in let a' := fdiv (fopp open) (fofZ 2) in
  let X := axis_f nx xOffset in let Y := axis_f ny yOffset in
  check 1 <? nx else IndexError;                                            (* 601 *)
  let th x y := wrap_f M (fsub (latan2 M y x) rot) in                       (* 604-605 *)
  let th180 x y := wrap_f M (fsub (fsub (latan2 M y x) rot) fpi) in         (* 606 *)
  let h := fmul fsqrt2 (fsub (X 1) (X 0)) in                                (* 601, 609 *)
  check flt angRot (fofZ 360) else UnboundLocalError;                       (* 612, 626, 652: grayInds unset *)
  let in1 t := flt t (fsub a d) && flt (fadd a' d) t in
  let out1 t := flt (fadd a d) t && flt t (fsub (fsub fpi a) d) in
  let radial1 x y := flt (rho_f x y) (fsub rOut h) && flt (fadd rIn h) (rho_f x y) in
  let radial0 x y := flt (fadd rOut h) (rho_f x y) || flt (rho_f x y) (fsub rIn h) in
  let one x y := radial1 x y &&
    (if nSeg =? 1 then in1 (th x y) else in1 (th x y) || in1 (th180 x y)) in    (* 613-617, 627-633 *)
  let zero x y := radial0 x y ||
    (if nSeg =? 1 then flt (fadd a d) (th x y) || flt (th x y) (fsub a' d)      (* 618-622 *)
     else out1 (th x y) || out1 (th180 x y)) in                                 (* 634-640 *)
  let on t := fle t a && fle a' t in
  let inside x y := fle (rho_f x y) rOut && fle rIn (rho_f x y) &&
    (if nSeg =? 1 then on (th x y) else on (th x y) || on (th180 x y)) in       (* 658-674 *)
  Ok (Arr ny nx (fun i j => edge_f one zero inside (xUp_f ns) ns (X j) (Y i))).

(** shapes.py:64-74: one strut. *)
Definition strut_f (M : libm) (nx ny : Z) (xOffset yOffset diamOuter strutWidth : f64) (ns : Z) (ang : f64) : res (arr f64) :=
  let height := fmul f06 diamOuter in                                       (* 64 *)
  let angRad := fdiv (fmul ang fpi) (fofZ 180) in                           (* 68 *)
  rectangle_f M nx ny height strutWidth
    (fadd xOffset (fdiv (fmul (lcos M angRad) height) (fofZ 2)))            (* 69 *)
    (fadd yOffset (fdiv (fmul (lsin M angRad) height) (fofZ 2)))            (* 70 *)
    ang ns true.                                                            (* 72-74 *)
Fixpoint struts_f (M : libm) (nx ny : Z) (xOffset yOffset diamOuter strutWidth : f64) (ns : Z) (angs : list f64)
    (pupil : arr f64) : res (arr f64) :=
  match angs with
  | [] => Ok pupil
  | t :: angs' =>
      do s <- strut_f M nx ny xOffset yOffset diamOuter strutWidth ns t;
      struts_f M nx ny xOffset yOffset diamOuter strutWidth ns angs' (amap2 fmul pupil s)   (* 72 *)
  end.
(** shapes.py:8-76 *)
Definition simple_pupil_f (M : libm) (nx ny : Z) (xOffset yOffset diamInner diamOuter : f64) (strutAngles : list f64)
    (strutWidth : f64) (ns : Z) : res (arr f64) :=
  check 0 <? nx else TypeError;                                             (* 39 *)
  check 0 <? ny else TypeError;                                             (* 40 *)
  check negb (flt diamInner fzero) else TypeError;                          (* 43 *)
  check negb (fle diamOuter fzero) else TypeError;                          (* 44 *)
  check negb (flt strutWidth fzero) else TypeError;                         (* 46 *)
  check 0 <? ns else TypeError;                                             (* 47 *)
  check negb (fle diamOuter diamInner) else TypeError;                      (* 48 *)
  do pupil <- circle_f nx ny (fdiv diamOuter (fofZ 2)) xOffset yOffset ns false;   (* 52 *)
  do pupil <- (if flt fzero diamInner then                                  (* 56 *)
                 do c <- circle_f nx ny (fdiv diamInner (fofZ 2)) xOffset yOffset ns true;   (* 57 *)
                 Ok (amap2 fmul pupil c)
               else Ok pupil);
  if (match strutAngles with [] => false | _ => true end) && flt fzero strutWidth   (* 61 *)
  then struts_f M nx ny xOffset yOffset diamOuter strutWidth ns strutAngles pupil
  else Ok pupil.
