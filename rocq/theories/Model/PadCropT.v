(** Model of coralign/util/pad_crop.py with the element type of the array and centres that are doubles. *)
From Coq Require Import ZArith Bool List Reals.
From Flocq Require Import Core IEEE754.BinarySingleNaN.
From Verif.Base Require Import Py Arr F64.
From Verif.Model Require Import Math PadCrop.
Import ListNotations.
Open Scope Z_scope.

(** The element types used in coralign: numpy.bool_, int64, float64 and complex128 (a pair of doubles). *)
Inductive dtype := Tbool | Tint | Tfloat | Tcomplex.
Definition elt (t : dtype) : Type :=
  match t with Tbool => bool | Tint => Z | Tfloat => f64 | Tcomplex => (f64 * f64)%type end.
(** A Python value given as [extrapval]: numbers that are real pass check.real_scalar (check.py:189-209);
    complex numbers, texts and the like do not. Integers are meant to fit in 64 bits. *)
Inductive scalar := SBool (b : bool) | SInt (z : Z) | SFloat (x : f64) | SOther.
Definition as_double (s : scalar) : option f64 :=
  match s with
  | SBool b => Some (fofZ (if b then 1 else 0))
  | SInt z => Some (fofZ z)
  | SFloat x => Some x
  | SOther => None
  end.
(** [np.array(out, dtype=t)] of a double. [wild] is what the machine makes of a NaN or of a value that
    does not fit in 64 bits. *)
Definition in_int64 (z : Z) : bool := (- 2 ^ 63 <=? z) && (z <? 2 ^ 63).
Definition cast (wild : f64 -> Z) (t : dtype) (x : f64) : elt t :=
  match t with
  | Tbool => negb (feq x fzero)
  | Tint => if is_finite x && in_int64 (Btrunc x) then Btrunc x else wild x
  | Tfloat => x
  | Tcomplex => (x, fzero)
  end.
(** pad_crop.py:10-70 *)
Definition pad_crop_t (wild : f64 -> Z) (t : dtype) (arr0 : arr (elt t)) (outsize : list Z) (extrapval : scalar)
    : res (arr (elt t)) :=
  match as_double extrapval with
  | None => Err TypeError                                                   (* 41 *)
  | Some x => pad_crop arr0 outsize (cast wild t (fmul x (fofZ 1)))         (* 55-56: extrapval * ones *)
  end.

(** pad_crop.py:120-128 (x) and 130-138 (y), in doubles. *)
Definition offcenter_pad_f (n n_in c : Z) : res Z :=
  let lo := fadd (fceil (fdiv (fofZ (- n)) (fofZ 2))) (fofZ c) in
  let hi := fadd (fceil (fdiv (fofZ n) (fofZ 2))) (fofZ c) in
  let pre : f64 := if flt lo fzero then Babs lo else fzero in
  let post : f64 := if flt (fofZ (n_in - 1)) hi then fsub hi (fofZ n_in) else fzero in
  int_of_float (if flt pre post then post else pre).
Definition frint (x : f64) : f64 := Bnearbyint mode_NE x.   (* numpy.round *)
(** pad_crop.py:73-159 *)
Definition offcenter_crop_t (wild : f64 -> Z) (t : dtype) (a : arr (elt t)) (n : Z) (center_y center_x : f64)
    : res (arr (elt t)) :=
  check 0 <? n else TypeError;                                              (* 111 *)
  do yc <- int_of_float (frint center_y);                                   (* 116 *)
  do xc <- int_of_float (frint center_x);                                   (* 117 *)
  do x_pad <- offcenter_pad_f n (nc a) xc;                                  (* 121-128 *)
  do y_pad <- offcenter_pad_f n (nr a) yc;                                  (* 131-138 *)
  do padded <- pad_crop_t wild t a [nr a + 2 * y_pad; nc a + 2 * x_pad] (SInt 0);   (* 140 *)
  let xc := xc + x_pad in                                                   (* 143 *)
  let yc := yc + y_pad in                                                   (* 144 *)
  let buffer := if n mod 2 =? 1 then 1 else 0 in                            (* 147-150 *)
  Ok (get_slice padded                                                      (* 152-157 *)
        (Slice (yc - n / 2) (yc + n / 2 + buffer))
        (Slice (xc - n / 2) (xc + n / 2 + buffer))).
