(** Model of gen_coords, gen_rectangle and gen_annulus of coralign/buildmodel/darkhole.py in binary64, operation by operation. *)
From Coq Require Import ZArith Bool.
From Flocq Require Import Core BinarySingleNaN.
From Verif.Base Require Import Py Arr F64.
From Verif.Model Require Import ShapesF.
Open Scope Z_scope.

(** darkhole.py:41-54: the coordinates are those of shapes.py (ShapesF.axis_f), the radius is sqrt(X*X + Y*Y). *)
Definition coord_x_f (nCols : Z) (xOffset : f64) (j : Z) : f64 := axis_f nCols xOffset j.
Definition coord_y_f (nRows : Z) (yOffset : f64) (i : Z) : f64 := axis_f nRows yOffset i.
(** darkhole.py:60-96. Simplified: the sizes are integers and the lengths doubles. *)
Definition gen_rectangle_f (nRows nCols : Z) (xOffset yOffset width height : f64) : res (arr bool) :=
  check 0 <? nRows else TypeError;                                          (* 85 *)
  check 0 <? nCols else TypeError;                                          (* 86 *)
  check negb (fle width fzero) else TypeError;                              (* 89: NaN passes *)
  check negb (fle height fzero) else TypeError;                             (* 90 *)
  Ok (Arr nRows nCols (fun i j =>
    fle (Babs (coord_x_f nCols xOffset j)) (fdiv width (fofZ 2)) &&
    fle (Babs (coord_y_f nRows yOffset i)) (fdiv height (fofZ 2)))).        (* 93 *)
(** darkhole.py:99-137. Simplified as above. *)
Definition gen_annulus_f (nRows nCols : Z) (xOffset yOffset radiusInner radiusOuter : f64) : res (arr bool) :=
  check 0 <? nRows else TypeError;                                          (* 124 *)
  check 0 <? nCols else TypeError;                                          (* 125 *)
  check negb (flt radiusInner fzero) else TypeError;                        (* 128 *)
  check negb (flt radiusOuter fzero) else TypeError;                        (* 129 *)
  check negb (flt radiusOuter radiusInner) else ValueError;                 (* 130-131 *)
  Ok (Arr nRows nCols (fun i j =>
    let r := rho_f (coord_x_f nCols xOffset j) (coord_y_f nRows yOffset i) in
    fle radiusInner r && fle r radiusOuter)).                               (* 133-134 *)
