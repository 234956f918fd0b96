(** What a pixel of a typed frame is in an array of doubles. *)
From Coq Require Import ZArith Bool Reals.
From Flocq Require Import Core IEEE754.BinarySingleNaN.
From Verif.Base Require Import Py Arr F64.
From Verif.Model Require Import PadCropT.
Open Scope Z_scope.

(** [x] is the pixel [v]: 0 or 1 for booleans, the nearest double (ties to even) for integers, the double
    itself, the real part of a complex number. *)
Definition same_pixel (t : dtype) : elt t -> f64 -> Prop :=
  match t with
  | Tbool => fun v x => is_finite x = true /\ fval x = (if v : bool then 1 else 0)%R
  | Tint => fun v x => is_finite x = true /\ fval x = round radix2 (FLT_exp (-1074) 53) ZnearestE (IZR v)
  | Tfloat => fun v x => x = v
  | Tcomplex => fun v x => x = fst v
  end.
(** Integers are those of a 64-bit array. *)
Definition machine (t : dtype) : elt t -> Prop :=
  match t with Tint => fun v => - 2 ^ 63 <= v < 2 ^ 63 | _ => fun _ => True end.
Definition is_number (t : dtype) : elt t -> Prop :=
  match t with Tfloat => fun v => is_nan v = false | Tcomplex => fun v => is_nan (fst v) = false | _ => fun _ => True end.
