(** Model of coralign/focalfit/ff_util.py and focalfit.py over IEEE doubles, operation by operation. The order in which
    numpy.sum adds and the values of numpy.cos and numpy.sin are left open: they are the arguments [np_sum], [fcos], [fsin].
    The parsed YAML files are represented by their entries; entries written as integers are taken as doubles. The model over
    exact reals, with the parsing of the files, is FocalFit.v. *)
From Coq Require Import ZArith Bool List.
From Flocq Require Import Core BinarySingleNaN.
From Verif.Base Require Import Py Arr Sums F64.
From Verif.Model Require Import ShapesF.
Import ListNotations.
Open Scope Z_scope.

(** check.py:42-63 for a double: nan passes. *)
Definition positive_f (v : f64) (e : exn) : res unit := guard (negb (fle v fzero)) e.
(** np.finfo(float).eps *)
Definition feps_f : f64 := fdiv (fofZ 1) (fofZ (2 ^ 52)).
(** np.pi *)
Definition fpi : f64 := fdiv (fofZ 7074237752028440) (fofZ (2 ^ 51)).

(** ff_util.py:7-35 *)
Definition bound_value_f (inVal maxVal : f64) : res f64 :=
  check negb (flt maxVal fzero) else ValueError;                            (* 24 *)
  Ok (if flt maxVal inVal then maxVal                                       (* 26 *)
      else if flt inVal (fopp maxVal) then fopp maxVal                      (* 29 *)
      else inVal).
(** ff_util.py:71-75, 110-114: the ratio or its reciprocal, and the sign. *)
Definition folded_f (ratio : f64) : f64 * f64 :=
  if flt ratio (fofZ 1) then (fdiv (fofZ 1) ratio, fofZ (-1)) else (ratio, fofZ 1).
(** ff_util.py:38-81 *)
Definition offset_quadratic_f (c1 c2 roiSumRatio : f64) : res f64 :=
  do _ <- positive_f roiSumRatio ValueError;                                (* 69 *)
  let ratio := fst (folded_f roiSumRatio) in
  let sign := snd (folded_f roiSumRatio) in
  let disc := fsub (fmul c1 c1) (fmul (fmul (fofZ 4) c2) (fsub (fofZ 1) ratio)) in
  Ok (fmul sign (fdiv (fadd (fopp c1) (fsqrt disc)) (fmul (fofZ 2) c2))).   (* 77-79 *)
(** ff_util.py:84-118, for a coefficient other than zero. *)
Definition offset_linear_f (c1 roiSumRatio : f64) : res f64 :=
  do _ <- positive_f roiSumRatio ValueError;                                (* 108 *)
  let ratio := fst (folded_f roiSumRatio) in
  let sign := snd (folded_f roiSumRatio) in
  Ok (fdiv (fmul sign (fsub ratio (fofZ 1))) c1).                           (* 116 *)

(** np.sum(mask * image), raised to eps when it is not positive (focalfit.py:335-343, 159-172). *)
Definition roi_sum_f (np_sum : list f64 -> f64) (mask image : arr f64) : f64 :=
  let s := np_sum (map (fun p => fmul (at2 mask (fst p) (snd p)) (at2 image (fst p) (snd p))) (indices (nr image) (nc image))) in
  if fle s fzero then feps_f else s.

(** The entries of the tuning file of calc_offset_from_spots. *)
Record spots_tuning := SpotsTuning { f_sep : f64; f_radius : f64; f_ns : Z; f_max : f64; f_c1 : f64; f_c2 : f64; f_power : Z; f_inside : Z }.
(** focalfit.py:204-367 *)
Definition calc_offset_from_spots_f (np_sum : list f64 -> f64) (fcos fsin : f64 -> f64) (image : arr f64) (xProbeRotDeg xOff yOff : f64)
    (t : spots_tuning) (targetRatio : f64) : res f64 :=
  do _ <- positive_f targetRatio TypeError;                                 (* 291 *)
  do _ <- positive_f (f_sep t) TypeError;                                   (* 303 *)
  do _ <- positive_f (f_radius t) TypeError;                                (* 304 *)
  check 0 <? f_ns t else TypeError;                                         (* 305 *)
  do _ <- positive_f (f_max t) TypeError;                                   (* 306 *)
  do _ <- positive_f (f_c1 t) TypeError;                                    (* 307 *)
  do _ <- positive_f (f_c2 t) TypeError;                                    (* 308 *)
  check 0 <? f_power t else TypeError;                                      (* 309 *)
  check (f_power t =? 1) || (f_power t =? 2) else ValueError;               (* 310 *)
  check (f_inside t =? 0) || (f_inside t =? 1) else ValueError;             (* 313 *)
  let rot := fmul (fdiv fpi (fofZ 180)) xProbeRotDeg in                     (* 320 *)
  let coord trig a off := fadd (fmul (trig a) (f_sep t)) off in             (* 321-328 *)
  do plusMask <- circle_f (nc image) (nr image) (f_radius t) (coord fcos rot xOff) (coord fsin rot yOff) (f_ns t) false;   (* 330 *)
  do minusMask <- circle_f (nc image) (nr image) (f_radius t)               (* 332 *)
    (coord fcos (fadd rot fpi) xOff) (coord fsin (fadd rot fpi) yOff) (f_ns t) false;
  let xRatio := fdiv (roi_sum_f np_sum plusMask image) (roi_sum_f np_sum minusMask image) in   (* 335-346 *)
  let estimate r := if f_power t =? 1 then offset_linear_f (f_c1 t) r else offset_quadratic_f (f_c1 t) (f_c2 t) r in
  do off <- estimate xRatio;                                                (* 348-352 *)
  do tgt <- estimate targetRatio;                                           (* 349-355 *)
  do out <- bound_value_f (fsub off tgt) (f_max t);                         (* 359-361 *)
  Ok (if f_inside t =? 0 then fmul out (fofZ (-1)) else out).               (* 364 *)

(** The entries of the tuning file of calc_bowtie_offsets. *)
Record bowtie_tuning_f := BowtieF { g_sep : f64; g_rot : f64; g_extra : f64; g_radius : f64; g_ns : Z; g_max : f64;
  g_c1x : f64; g_c2x : f64; g_c1y : f64; g_c2y : f64; g_tx : f64; g_ty : f64 }.
(** focalfit.py:11-201 *)
Definition calc_bowtie_offsets_f (np_sum : list f64 -> f64) (fcos fsin : f64 -> f64) (image : arr f64) (xOff yOff : f64)
    (t : bowtie_tuning_f) : res (f64 * f64) :=
  do _ <- positive_f (g_sep t) TypeError;                                   (* 122-129 *)
  do _ <- positive_f (g_radius t) TypeError;
  check 0 <? g_ns t else TypeError;
  do _ <- positive_f (g_max t) TypeError;
  do _ <- positive_f (g_c1x t) TypeError;
  do _ <- positive_f (g_c2x t) TypeError;
  do _ <- positive_f (g_c1y t) TypeError;
  do _ <- positive_f (g_c2y t) TypeError;
  let rot := fmul (fdiv fpi (fofZ 180)) (g_rot t) in                        (* 135 *)
  let clk := fmul (fdiv fpi (fofZ 180)) (g_extra t) in                      (* 136 *)
  let region sep a := circle_f (nc image) (nr image) (g_radius t)
    (fadd (fmul sep (fcos a)) xOff) (fadd (fmul sep (fsin a)) yOff) (g_ns t) false in
  do q1 <- region (g_sep t) (fadd rot clk);                                 (* 137 *)
  do q2 <- region (fopp (g_sep t)) (fadd (fopp rot) clk);                   (* 142 *)
  do q3 <- region (fopp (g_sep t)) (fadd rot clk);                          (* 147 *)
  do q4 <- region (g_sep t) (fadd (fopp rot) clk);                          (* 152 *)
  let s1 := roi_sum_f np_sum q1 image in let s2 := roi_sum_f np_sum q2 image in   (* 159-172 *)
  let s3 := roi_sum_f np_sum q3 image in let s4 := roi_sum_f np_sum q4 image in
  let upSum := fadd s1 s2 in let downSum := fadd s3 s4 in                   (* 174-177 *)
  let leftSum := fadd s2 s3 in let rightSum := fadd s1 s4 in
  do x0 <- offset_quadratic_f (g_c1x t) (g_c2x t) (fdiv rightSum leftSum);  (* 179-182 *)
  do x1 <- offset_quadratic_f (g_c1x t) (g_c2x t) (g_tx t);                 (* 183-185 *)
  let x2 := fsub (fopp x0) (fopp x1) in                                     (* 186 *)
  do y0 <- offset_quadratic_f (g_c1y t) (g_c2y t) (fdiv upSum downSum);     (* 188-191 *)
  do y1 <- offset_quadratic_f (g_c1y t) (g_c2y t) (g_ty t);                 (* 192-194 *)
  let y2 := fsub (fopp y0) (fopp y1) in                                     (* 195 *)
  do x <- bound_value_f x2 (g_max t);                                       (* 198 *)
  do y <- bound_value_f y2 (g_max t);                                       (* 199 *)
  Ok (x, y).
