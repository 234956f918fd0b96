(** Model of coralign/util/ampthresh.py, findopt.py, center.py, quad.py and coralign/dmreg/dr_util.py. *)
From Coq Require Import ZArith Bool List Reals String.
From Flocq Require Import Core.
From Verif.Base Require Import Py Arr Vec Sums.
From Verif.Model Require Import Math Noll.
Import ListNotations.
Open Scope Z_scope.

(** ** ampthresh.py *)

Definition list_min (d : R) (l : list R) : R := fold_right Rmin d l.
Definition list_max (d : R) (l : list R) : R := fold_right Rmax d l.
Definition Rltb (x y : R) : bool := if Rlt_dec x y then true else false.
Definition Rleb (x y : R) : bool := if Rle_dec x y then true else false.
(** numpy.histogram(v, bins=n): edges are n+1 equally spaced values from min to max; bin k holds
    edge k <= v < edge (k+1), the last bin also v = max. *)
Definition bin_edge (lo hi : R) (n k : Z) : R := (lo + IZR k * (hi - lo) / IZR n)%R.
Definition bin_count (lo hi : R) (n : Z) (l : list R) (k : Z) : Z :=
  Z.of_nat (List.length (filter (fun v => Rleb (bin_edge lo hi n k) v &&
    (if k =? n - 1 then Rleb v hi else Rltb v (bin_edge lo hi n (k + 1)))) l)).
(** ampthresh.py:7-65 for real maps. (A complex map with some non-zero imaginary part is first replaced
    by its modulus, lines 32-34; that is the caller's amap Cmod here.) *)
Definition ampthresh (pupilMap : arr R) (nBin : Z) : res (arr bool) :=
  check 0 <? nBin else ValueError;                                          (* 30 *)
  match elements pupilMap with
  | [] => Err ValueError                                                    (* 36: np.min of nothing *)
  | v0 :: vs =>
      let lo := list_min v0 vs in
      let hi := list_max v0 vs in
      if Req_EM_T lo hi then Err ValueError else                            (* 36-37 *)
      let count := bin_count lo hi nBin (v0 :: vs) in                       (* 40 *)
      let bV k := (count k <=? count (k - 1)) && (count k <? count (k + 1)) in   (* 43-44, bin k = 1..n-2 *)
      let centre k := ((bin_edge lo hi nBin k + bin_edge lo hi nBin (k + 1)) / 2)%R in   (* 47 *)
      match filter bV (map (fun k => k + 1) (zrange (nBin - 2))) with       (* 50 *)
      | [] => Err ValueError                                                (* 60 *)
      | k :: _ => Ok (amap (fun v => Rltb (centre k) v) pupilMap)           (* 58, 63 *)
      end
  end.

(** ** findopt.py *)

(** findopt.py:14-46. [polyfit] is numpy.linalg.lstsq on the Vandermonde matrix (numpy.polyfit rescales
    the columns first, which does not change what a least-squares solution is). *)
Definition lstsq1_fun := list Z -> Z -> (Z -> Z -> R) -> (Z -> R) -> Z -> R.
Definition eps64 : R := (/ 2 ^ 52)%R.                                       (* np.finfo(float).eps *)
Definition find_optimum_1d (lstsq : lstsq1_fun) (xVec arrayToFit : vec R) : res R :=
  check vlen xVec =? vlen arrayToFit else ValueError;                       (* 32 *)
  check 0 <? vlen xVec else TypeError;                                      (* 36: polyfit of nothing *)
  let p := lstsq (zrange (vlen xVec)) 3 (fun i k => vat xVec i ^ Z.to_nat (2 - k))%R (vat arrayToFit) in   (* 36 *)
  check negb (Rltb (Rabs (p 0)) eps64) else Custom "QuadraticException";    (* 39 *)
  Ok (- p 1%Z / (2 * p 0%Z))%R.                                             (* 44 *)

(** Rows selected by a mask and reshaped to (nPix, 1) where nPix is computed separately: a ValueError
    unless the sizes agree (-1 means: infer). *)
Definition reshape_ok (count nPix : Z) : bool := (nPix =? count) || (nPix =? -1).
Definition npoints (m : arr R) : Z := Z.of_nat (List.length (nonzero_points m)).
(** findopt.py:49-133. [resolution] of float64 is 1e-15. *)
Definition quad_basis (xVec yVec : vec R) (p : Z * Z) (k : Z) : R :=
  let X := vat xVec (snd p) in let Y := vat yVec (fst p) in
  match k with 0 => X ^ 2 | 1 => X * Y | 2 => Y ^ 2 | 3 => X | 4 => Y | _ => 1 end%R%Z.   (* 95-101 *)
Definition resolution : R := (/ 10 ^ 15)%R.
Definition find_optimum_2d (lstsq : lstsq_fun) (xVec yVec : vec R) (arrayToFit mask : arr R) : res (R * R) :=
  check same_shape arrayToFit mask else ValueError;                         (* 82 *)
  check nr arrayToFit =? vlen yVec else ValueError;                         (* 86 *)
  check nc arrayToFit =? vlen xVec else ValueError;                         (* 88 *)
  let nPix := fold_right Z.add 0 (map Ztrunc (elements mask)) in            (* 92 *)
  check reshape_ok (npoints mask) nPix else ValueError;                     (* 104-109 *)
  let q := lstsq (nonzero_points mask) 6 (quad_basis xVec yVec)
             (fun p => at2 arrayToFit (fst p) (snd p)) in                   (* 110-112 *)
  let a := q 0 in let b := q 1 in let c := q 2 in let d := q 3 in let e := q 4 in   (* 119 *)
  check negb (Rltb (Rabs (b * b - 4 * a * c)) (4 * resolution)
              || Rltb (Rabs (2 * c)) (2 * resolution)) else Custom "QuadraticException";   (* 122-128 *)
  let xBest := ((2 * c * d - e * b) / (b * b - 4 * a * c))%R in             (* 130 *)
  Ok (xBest, - (b * xBest + e) / (2 * c))%R.                                (* 131 *)

(** ** center.py:6-46. Values are None where numpy gives nan or inf (non-zero pixels summing to 0). *)
Definition center_of_energy (image : arr R) : option R * option R :=
  let pts := nonzero_points image in                                        (* 29 *)
  let en p := at2 image (fst p) (snd p) in                                  (* 32 *)
  let total := sum_list (map en pts) in                                     (* 35 *)
  let avg (idx : Z * Z -> Z) :=
    match pts with
    | [] => Some 0%R                                                        (* sum of nothing *)
    | _ => if Req_EM_T total 0 then None
           else Some (sum_list (map (fun p => IZR (idx p) * (en p / total))%R pts))   (* 38-44 *)
    end in
  (avg snd, avg fst).                                                       (* 46: (avg_col, avg_row) *)

(** ** quad.py:8-83. The division by a zero image sum (numpy: nan or inf) is not modelled. *)
Definition quadrant_energy_balance (image : arr R) (x_origin y_origin : Z) (radius : R) : res (R * R) :=
  check Rleb 0 radius else TypeError;                                       (* 40 *)
  check 0 <=? x_origin else TypeError;                                      (* 41 *)
  check 0 <=? y_origin else TypeError;                                      (* 42 *)
  let total := rsum2 (at2 image) (nr image) (nc image) in
  check x_origin <? nr image else ValueError;                               (* 48: rows *)
  check y_origin <? nc image else ValueError;                               (* 50: columns *)
  let counts (sx sy : Z -> bool) :=                                         (* 55-78 *)
    rsum2 (fun i j =>
      let x := j - x_origin in let y := i - y_origin in
      if sx x && sy y && Rleb (sqrt (IZR x ^ 2 + IZR y ^ 2)) radius
      then (at2 image i j / total)%R else 0%R) (nr image) (nc image) in
  let ge0 z := 0 <=? z in let le0 z := z <=? 0 in
  let q1 := counts ge0 ge0 in let q2 := counts le0 ge0 in                   (* 70-71 *)
  let q3 := counts ge0 le0 in let q4 := counts le0 le0 in                   (* 72-73 *)
  Ok ((q1 + q3) - (q2 + q4), (q1 + q2) - (q3 + q4))%R.                      (* 80-81 *)

(** ** dr_util.py:7-53 *)
Definition plane_basis (ny nx : Z) (p : Z * Z) (k : Z) : R :=
  match k with
  | 0 => ((- IZR nx / 2 + IZR (snd p)) / IZR nx)                            (* 33 *)
  | 1 => ((- IZR ny / 2 + IZR (fst p)) / IZR ny)                            (* 34 *)
  | _ => 1
  end%R%Z.
Definition remove_piston_tip_tilt (lstsq : lstsq_fun) (arrayToFit mask : arr R) : res (arr R) :=
  check same_shape arrayToFit mask else ValueError;                         (* 26 *)
  let nPix := Ztrunc (sum_list (elements mask)) in                          (* 30 *)
  check reshape_ok (npoints mask) nPix else ValueError;                     (* 44-46 *)
  let B := plane_basis (nr arrayToFit) (nc arrayToFit) in
  let q := lstsq (nonzero_points mask) 3 B (fun p => at2 arrayToFit (fst p) (snd p)) in   (* 47-50 *)
  Ok (Arr (nr arrayToFit) (nc arrayToFit) (fun i j =>
    if Req_EM_T (at2 mask i j) 0 then 0%R
    else (at2 arrayToFit i j - (q 0%Z * B (i, j) 0%Z + q 1%Z * B (i, j) 1%Z + q 2%Z * 1))%R)).   (* 51 *)
