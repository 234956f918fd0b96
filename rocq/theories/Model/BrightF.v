(** Model of coralign/util/center.py, quad.py and math.py:rms over IEEE doubles, operation by operation. The order in which
    numpy.sum adds is left open: every function takes the summation [np_sum] as an argument. Images of integer type, which
    numpy adds in integers first, are not covered here. *)
From Coq Require Import ZArith Bool List.
From Flocq Require Import Core BinarySingleNaN.
From Verif.Base Require Import Py Arr Sums F64.
From Verif.Model Require Import ShapesF.
Import ListNotations.
Open Scope Z_scope.

(** numpy.nonzero(image): nan counts as non-zero (center.py:29). *)
Definition nonzero_f (image : arr f64) : list (Z * Z) :=
  filter (fun p => negb (feq (at2 image (fst p) (snd p)) fzero)) (indices (nr image) (nc image)).
(** center.py:6-46. *)
Definition center_of_energy_f (np_sum : list f64 -> f64) (image : arr f64) : f64 * f64 :=
  let pts := nonzero_f image in                                             (* 29 *)
  let en p := at2 image (fst p) (snd p) in                                  (* 32 *)
  let total := np_sum (map en pts) in                                       (* 35 *)
  let weight p := fdiv (en p) total in                                      (* 38 *)
  let avg (idx : Z * Z -> Z) := np_sum (map (fun p => fmul (fofZ (idx p)) (weight p)) pts) in   (* 41-44 *)
  (avg snd, avg fst).                                                       (* 46: (avg_col, avg_row) *)

(** quad.py:55-58: coordinates along an axis of n pixels from the origin o. *)
Definition from_origin_f (n o i : Z) : f64 := linspace_f (fofZ (- o)) (fofZ (n - o - 1)) n i.
(** quad.py:8-83. *)
Definition quadrant_energy_balance_f (np_sum : list f64 -> f64) (image : arr f64) (x_origin y_origin : Z) (radius : f64)
    : res (f64 * f64) :=
  check negb (flt radius fzero) else TypeError;                             (* 40: nan passes *)
  check 0 <=? x_origin else TypeError;                                      (* 41 *)
  check 0 <=? y_origin else TypeError;                                      (* 42 *)
  let total := np_sum (map (fun p => at2 image (fst p) (snd p)) (indices (nr image) (nc image))) in
  let norm p := fdiv (at2 image (fst p) (snd p)) total in                   (* 44 *)
  check x_origin <? nr image else ValueError;                               (* 48: rows *)
  check y_origin <? nc image else ValueError;                               (* 50: columns *)
  let x p := from_origin_f (nc image) x_origin (snd p) in                   (* 55, 60 *)
  let y p := from_origin_f (nr image) y_origin (fst p) in                   (* 57, 60 *)
  let counts (sx sy : f64 -> bool) :=                                       (* 64-78 *)
    np_sum (map norm (filter (fun p => sx (x p) && sy (y p) && fle (rho_f (x p) (y p)) radius) (indices (nr image) (nc image)))) in
  let ge0 v := fle fzero v in let le0 v := fle v fzero in
  let q1 := counts ge0 ge0 in let q2 := counts le0 ge0 in                   (* 70-71 *)
  let q3 := counts ge0 le0 in let q4 := counts le0 le0 in                   (* 72-73 *)
  Ok (fsub (fadd q1 q3) (fadd q2 q4), fsub (fadd q1 q2) (fadd q3 q4)).      (* 80-81 *)

(** math.py:7-11. numpy.mean divides the sum by the count (0/0, nan, for an empty array). *)
Definition rms_f (np_sum : list f64 -> f64) (arrayIn : list f64) : f64 :=
  fsqrt (fdiv (np_sum (map (fun v => fmul v v) arrayIn)) (fofZ (Z.of_nat (List.length arrayIn)))).
