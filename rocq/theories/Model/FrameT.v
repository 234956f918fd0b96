(** Model of coralign/util/combine_crop.py with the element types of its arrays. *)
From Coq Require Import ZArith Bool List Reals.
From Flocq Require Import Core IEEE754.BinarySingleNaN.
From Verif.Base Require Import Py Arr F64.
From Verif.Model Require Import PadCropT.
Open Scope Z_scope.

(** numpy's conversion to double, in [astype('float')] (combine_crop.py:37) and on assignment to an array of
    doubles (combine_crop.py:80). The imaginary part of a complex number is dropped (with a warning). *)
Definition to_double (t : dtype) : elt t -> f64 :=
  match t with
  | Tbool => fun b => fofZ (if b : bool then 1 else 0)
  | Tint => fun z => fofZ z
  | Tfloat => fun x => x
  | Tcomplex => fun z => fst z
  end.
(** combine_crop.py:13-40 *)
Definition combine_t (t tb : dtype) (frame : arr (elt t)) (bp : arr (elt tb)) : res (arr f64) :=
  check same_shape bp frame else TypeError;                                 (* 32 *)
  match tb return arr (elt tb) -> res (arr f64) with
  | Tbool => fun bp =>
      let out := amap (to_double t) frame in                                (* 37 *)
      Ok (amap2 (fun (v : f64) (b : bool) => if b then F64.fnan else v) out bp)   (* 38 *)
  | _ => fun _ => Err TypeError                                             (* 34 *)
  end bp.
(** combine_crop.py:43-82 *)
Definition crop_t (t : dtype) (frame : arr (elt t)) (lower_row lower_col row_width col_width : Z) : res (arr f64) :=
  check 0 <=? lower_row else TypeError;                                     (* 64 *)
  check 0 <=? lower_col else TypeError;                                     (* 65 *)
  check 0 <? row_width else TypeError;                                      (* 66 *)
  check 0 <? col_width else TypeError;                                      (* 67 *)
  check negb (nr frame <=? lower_row) else ValueError;                      (* 68 *)
  check negb (nc frame <=? lower_col) else ValueError;                      (* 70 *)
  let excerpt := get_slice frame (Slice lower_row (lower_row + row_width))
                                 (Slice lower_col (lower_col + col_width)) in   (* 73 *)
  let out := afull row_width col_width F64.fnan in                          (* 79 *)
  set_slice out (Slice 0 (nr excerpt)) (Slice 0 (nc excerpt)) (amap (to_double t) excerpt).   (* 80 *)
