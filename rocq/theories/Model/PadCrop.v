(** Model of coralign/util/pad_crop.py, combine_crop.py and get_crop_lower.py. *)
From Coq Require Import ZArith Bool List Reals.
From Flocq Require Import Core.
From Verif.Base Require Import Py Arr.
Import ListNotations.
Open Scope Z_scope.

(** coralign/util/pad_crop.py:10-70 [pad_crop].
    [fill] is [extrapval] after the cast to [arr0.dtype] (lines 55-56).
    Simplified: element type abstract; the type checks of lines 40-41 are the Coq types;
    [outsize] is a sequence of integers, lines 47-53 check its length and signs. *)
Definition pad_crop {A} (arr0 : arr A) (outsize : list Z) (fill : A) : res (arr A) :=
  match outsize with
  | [h1; w1] =>
      check 0 <? h1 else TypeError;
      check 0 <? w1 else TypeError;
      let h0 := nr arr0 in
      let w0 := nc arr0 in
      let out := afull h1 w1 fill in                                        (* 55-56 *)
      let xneg := Z.min (w0 / 2) (w1 / 2) in                                (* 58 *)
      let xpos := Z.min (w0 - w0 / 2) (w1 - w1 / 2) in                      (* 59 *)
      let yneg := Z.min (h0 / 2) (h1 / 2) in                                (* 60 *)
      let ypos := Z.min (h0 - h0 / 2) (h1 - h1 / 2) in                      (* 61 *)
      let s0r := Slice (h0 / 2 - yneg) (h0 / 2 + ypos) in                   (* 63 *)
      let s0c := Slice (w0 / 2 - xneg) (w0 / 2 + xpos) in                   (* 64 *)
      let s1r := Slice (h1 / 2 - yneg) (h1 / 2 + ypos) in                   (* 65 *)
      let s1c := Slice (w1 / 2 - xneg) (w1 / 2 + xpos) in                   (* 66 *)
      set_slice out s1r s1c (get_slice arr0 s0r s0c)                        (* 68 *)
  | _ => Err TypeError
  end.

(** Lines 121-128 (x) and 131-138 (y) of [offcenter_crop]: how much to pad one axis of length
    [n_in] so that a window of [n] pixels about [c] fits. [np.ceil] on halves is [Zceil]. *)
Definition offcenter_pad (n n_in c : Z) : Z :=
  let pre := if Zceil (- IZR n / 2) + c <? 0 then Z.abs (Zceil (- IZR n / 2) + c) else 0 in
  let post := if n_in - 1 <? Zceil (IZR n / 2) + c then Zceil (IZR n / 2) + c - n_in else 0 in
  Z.max pre post.

(** coralign/util/pad_crop.py:73-159 [offcenter_crop]. [np.round] rounds half to even.
    [zero] is 0 cast to the array dtype. Simplified: centres are finite reals. *)
Definition offcenter_crop {A} (zero : A) (a : arr A) (n : Z) (center_y center_x : R)
  : res (arr A) :=
  check 0 <? n else TypeError;                                              (* 111 *)
  let yc := ZnearestE center_y in                                           (* 116 *)
  let xc := ZnearestE center_x in                                           (* 117 *)
  let x_pad := offcenter_pad n (nc a) xc in                                 (* 121-128 *)
  let y_pad := offcenter_pad n (nr a) yc in                                 (* 131-138 *)
  do padded <- pad_crop a [nr a + 2 * y_pad; nc a + 2 * x_pad] zero;        (* 140 *)
  let xc := xc + x_pad in                                                   (* 143 *)
  let yc := yc + y_pad in                                                   (* 144 *)
  let buffer := if n mod 2 =? 1 then 1 else 0 in                            (* 147-150 *)
  Ok (get_slice padded                                                      (* 152-157 *)
        (Slice (yc - n / 2) (yc + n / 2 + buffer))
        (Slice (xc - n / 2) (xc + n / 2 + buffer))).

(** A float that may be NaN: [None] is NaN. *)
Definition fnan (A : Type) := option A.

(** coralign/util/combine_crop.py:13-40 [combine]. The frame may already hold NaN. *)
Definition combine {A} (frame : arr (fnan A)) (bp : arr bool) : res (arr (fnan A)) :=
  check same_shape bp frame else TypeError;                                 (* 32 *)
  Ok (amap2 (fun (v : fnan A) (b : bool) => if b then None else v) frame bp).  (* 37-38 *)

(** coralign/util/combine_crop.py:43-82 [crop]. *)
Definition crop {A} (frame : arr (fnan A)) (lower_row lower_col row_width col_width : Z)
  : res (arr (fnan A)) :=
  check 0 <=? lower_row else TypeError;                                     (* 64 *)
  check 0 <=? lower_col else TypeError;                                     (* 65 *)
  check 0 <? row_width else TypeError;                                      (* 66 *)
  check 0 <? col_width else TypeError;                                      (* 67 *)
  check negb (nr frame <=? lower_row) else ValueError;                      (* 68 *)
  check negb (nc frame <=? lower_col) else ValueError;                      (* 70 *)
  let excerpt := get_slice frame (Slice lower_row (lower_row + row_width))
                                 (Slice lower_col (lower_col + col_width)) in   (* 73 *)
  let out := afull row_width col_width None in                              (* 79 *)
  set_slice out (Slice 0 (nr excerpt)) (Slice 0 (nc excerpt)) excerpt.      (* 80 *)

(** coralign/util/get_crop_lower.py:8-51 [get_crop_lower]. *)
Definition get_crop_lower (row_center col_center row_width col_width : Z) (bound : bool)
  : res (Z * Z) :=
  check 0 <=? row_center else TypeError;                                    (* 37 *)
  check 0 <=? col_center else TypeError;                                    (* 38 *)
  check 0 <? row_width else TypeError;                                      (* 39 *)
  check 0 <? col_width else TypeError;                                      (* 40 *)
  let lower_row := row_center - row_width / 2 in                            (* 43 *)
  let lower_col := col_center - col_width / 2 in                            (* 44 *)
  Ok (if bound then (Z.max lower_row 0, Z.max lower_col 0)                  (* 46-48 *)
      else (lower_row, lower_col)).
