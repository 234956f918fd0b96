(** Model of coralign/util/quad.py with the nan and inf that division by a zero image sum gives. *)
From Coq Require Import ZArith Bool List Reals.
From Verif.Base Require Import Py Arr Sums.
From Verif.Model Require Import Fits FocalFit.
Import ListNotations.
Open Scope Z_scope.

(** Floating-point addition of values that may be nan or infinite; finite values are exact. *)
Definition nadd (a b : num) : num :=
  match a, b with
  | Fin x, Fin y => Fin (x + y)%R
  | NaN, _ | _, NaN => NaN
  | PInf, NInf | NInf, PInf => NaN
  | PInf, _ | _, PInf => PInf
  | NInf, _ | _, NInf => NInf
  end.
(** np.sum *)
Definition nsum (l : list num) : num := fold_right nadd (Fin 0) l.

(** quad.py:8-83, finite images. *)
Definition quadrant_energy_balance_num (image : arr R) (x_origin y_origin : Z) (radius : R) : res (num * num) :=
  check Rleb 0 radius else TypeError;                                       (* 40 *)
  check 0 <=? x_origin else TypeError;                                      (* 41 *)
  check 0 <=? y_origin else TypeError;                                      (* 42 *)
  let total := rsum2 (at2 image) (nr image) (nc image) in
  let norm p := ndiv (at2 image (fst p) (snd p)) total in                   (* 44 *)
  check x_origin <? nr image else ValueError;                               (* 48: rows *)
  check y_origin <? nc image else ValueError;                               (* 50: columns *)
  let counts (sx sy : Z -> bool) :=                                         (* 55-78 *)
    nsum (map norm (filter (fun p =>
      let x := snd p - x_origin in let y := fst p - y_origin in
      sx x && sy y && Rleb (sqrt (IZR x ^ 2 + IZR y ^ 2)) radius) (indices (nr image) (nc image)))) in
  let ge0 z := 0 <=? z in let le0 z := z <=? 0 in
  let q1 := counts ge0 ge0 in let q2 := counts le0 ge0 in                   (* 70-71 *)
  let q3 := counts ge0 le0 in let q4 := counts le0 le0 in                   (* 72-73 *)
  Ok (nsub (nadd q1 q3) (nadd q2 q4), nsub (nadd q1 q2) (nadd q3 q4)).      (* 80-81 *)
