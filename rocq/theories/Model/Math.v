(** Model of coralign/util/math.py: over exact reals, and over binary64 for ceil_odd/ceil_even. *)
From Coq Require Import ZArith Reals List String Bool.
From Flocq Require Import Core BinarySingleNaN.
From Verif.Base Require Import Py F64 Arr Trig.
Import ListNotations.
Open Scope Z_scope.

(** math.py:14-33, exact reals. *)
Definition ceil_odd (x_in : R) : Z :=
  let x_out := Zceil x_in in                         (* 30 *)
  if x_out mod 2 =? 0 then x_out + 1 else x_out.     (* 31-33 *)
(** math.py:36-52, exact reals: the value is already an integer, so int() is the identity. *)
Definition ceil_even (x_in : R) : Z := 2 * Zceil (/ 2 * x_in).   (* 52 *)

(** Python's int(f): truncation; NaN raises ValueError, infinities OverflowError. *)
Definition int_of_float (f : f64) : res Z :=
  match f with
  | B754_nan => Err ValueError
  | B754_infinity _ => Err (Custom "OverflowError")
  | _ => Ok (Btrunc f)
  end.
Definition fhalf : f64 := fdiv (fofZ 1) (fofZ 2).   (* the literal 0.5 *)
Definition fceil (f : f64) : f64 := Bnearbyint mode_UP f.   (* numpy.ceil *)

(** math.py:14-33, binary64 argument. *)
Definition ceil_odd_f (x_in : f64) : res Z :=
  do x_out <- int_of_float (fceil x_in);
  Ok (if x_out mod 2 =? 0 then x_out + 1 else x_out).
(** math.py:36-52, binary64 argument. *)
Definition ceil_even_f (x_in : f64) : res Z :=
  int_of_float (fmul (fofZ 2) (fceil (fmul fhalf x_in))).

(** math.py:7-11 on the flattened entries of a real array; numpy's mean of an empty array is NaN
    (None). *)
Definition sum_list (l : list R) : R := fold_right Rplus 0%R l.
Definition rms (arrayIn : list R) : option R :=
  match arrayIn with
  | [] => None
  | _ => Some (sqrt (sum_list (map (fun a => (a ^ 2)%R) arrayIn) / INR (List.length arrayIn)))
  end.

(** math.py:55-85. Arguments are real scalars or real 2-D arrays (other ranks behave alike). *)
Inductive coord := Scal (x : R) | Arr2 (a : arr R).
Definition cart2pol (x y : coord) : res (coord * coord) :=
  let rho u v := sqrt (u ^ 2 + v ^ 2) in             (* 82 *)
  match x, y with
  | Arr2 a, Arr2 b =>
      check same_shape a b else ValueError;          (* 76-77 *)
      Ok (Arr2 (amap2 rho a b), Arr2 (amap2 (fun u v => arctan2 v u) a b))
  | Scal u, Scal v => Ok (Scal (rho u v), Scal (arctan2 v u))
  | _, _ => Err TypeError                            (* 79-80: an array is not a real scalar *)
  end.
