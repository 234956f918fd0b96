(** Model of coralign/buildmodel/darkhole.py. Arguments are YAML values; reals are exact. *)
From Coq Require Import ZArith Bool List String Reals.
From Verif.Base Require Import Py Arr Trig.
From Verif.Model Require Import Fits Shapes Yaml.
Import ListNotations.
Open Scope string_scope.
Open Scope Z_scope.

(** Numeric value of a Python number (bool is a subclass of int). *)
Definition as_real (v : yval) : option R :=
  match v with
  | YBool b => Some (if b then 1 else 0)%R
  | YInt z => Some (IZR z)
  | YReal r => Some r
  | _ => None
  end.
Definition as_int (v : yval) : option Z :=
  match v with YBool b => Some (if b then 1 else 0) | YInt z => Some z | _ => None end.
(** check.real_scalar, real_positive_scalar, real_nonnegative_scalar and positive_scalar_integer
    (util/check.py:60-124, 237-259) with vexc = TypeError, returning the numeric value. *)
Definition real_scalar_ (v : yval) : res R := match as_real v with Some r => Ok r | None => Err TypeError end.
Definition positive_scalar_ (v : yval) : res R :=
  do r <- real_scalar_ v; check Rltb 0 r else TypeError; Ok r.
Definition nonnegative_scalar_ (v : yval) : res R :=
  do r <- real_scalar_ v; check Rleb 0 r else TypeError; Ok r.
Definition positive_int_ (v : yval) : res Z :=
  match as_int v with
  | Some z => check 0 <? z else TypeError; Ok z
  | None => Err TypeError
  end.

(** darkhole.py:41-55: coordinates of one pixel. *)
Definition coord_x (nCols : Z) (xOffset : R) (j : Z) : R := axis nCols xOffset j.
Definition coord_y (nRows : Z) (yOffset : R) (i : Z) : R := axis nRows yOffset i.
Definition coord_r (x y : R) : R := sqrt (x * x + y * y).
Definition coord_theta (x y : R) : R := arctan2 y x.

(** darkhole.py:60-96 *)
Definition gen_rectangle (nRows nCols xOffset yOffset width height : yval) : res (arr bool) :=
  do nr_ <- positive_int_ nRows;
  do nc_ <- positive_int_ nCols;
  do xo <- real_scalar_ xOffset;
  do yo <- real_scalar_ yOffset;
  do w <- positive_scalar_ width;
  do h <- positive_scalar_ height;
  Ok (Arr nr_ nc_ (fun i j =>
    Rleb (Rabs (coord_x nc_ xo j)) (w / 2) && Rleb (Rabs (coord_y nr_ yo i)) (h / 2))).
(** darkhole.py:99-137 *)
Definition gen_annulus (nRows nCols xOffset yOffset radiusInner radiusOuter : yval) : res (arr bool) :=
  do nr_ <- positive_int_ nRows;
  do nc_ <- positive_int_ nCols;
  do xo <- real_scalar_ xOffset;
  do yo <- real_scalar_ yOffset;
  do ri <- nonnegative_scalar_ radiusInner;
  do ro <- nonnegative_scalar_ radiusOuter;
  check negb (Rltb ro ri) else ValueError;
  Ok (Arr nr_ nc_ (fun i j =>
    let r := coord_r (coord_x nc_ xo j) (coord_y nr_ yo i) in Rleb ri r && Rleb r ro)).
(** numpy.radians *)
Definition radians (t : R) : R := (t * PI / 180)%R.
(** darkhole.py:140-191 *)
Definition gen_annular_sector (nRows nCols xOffset yOffset radiusInner radiusOuter openingAngle clocking : yval)
    : res (arr bool) :=
  do nr_ <- positive_int_ nRows;
  do nc_ <- positive_int_ nCols;
  do xo <- real_scalar_ xOffset;
  do yo <- real_scalar_ yOffset;
  do ri <- nonnegative_scalar_ radiusInner;
  do ro <- nonnegative_scalar_ radiusOuter;
  check negb (Rltb ro ri) else ValueError;
  do op <- positive_scalar_ openingAngle;
  do cl <- real_scalar_ clocking;
  Ok (Arr nr_ nc_ (fun i j =>
    let x := coord_x nc_ xo j in let y := coord_y nr_ yo i in
    let r := coord_r x y in
    let t := wrap_angle (coord_theta x y - radians cl) in
    Rleb ri r && Rleb r ro && Rleb (- radians op / 2) t && Rleb t (radians op / 2))).
(** clocking + 180 for a checked number. *)
Definition plus180 (v : yval) : yval :=
  match v with
  | YBool b => YInt ((if b then 1 else 0) + 180)
  | YInt z => YInt (z + 180)
  | YReal r => YReal (r + 180)
  | _ => v
  end.
(** darkhole.py:194-243 *)
Definition gen_bowtie (nRows nCols xOffset yOffset radiusInner radiusOuter openingAngle clocking : yval)
    : res (arr bool) :=
  do nr_ <- positive_int_ nRows;
  do nc_ <- positive_int_ nCols;
  do xo <- real_scalar_ xOffset;
  do yo <- real_scalar_ yOffset;
  do ri <- nonnegative_scalar_ radiusInner;
  do ro <- nonnegative_scalar_ radiusOuter;
  check negb (Rltb ro ri) else ValueError;
  do op <- positive_scalar_ openingAngle;
  do cl <- real_scalar_ clocking;
  do a <- gen_annular_sector nRows nCols xOffset yOffset radiusInner radiusOuter openingAngle clocking;
  do b <- gen_annular_sector nRows nCols xOffset yOffset radiusInner radiusOuter openingAngle (plus180 clocking);
  Ok (amap2 orb a b).

Definition Reqb (x y : R) : bool := if Req_EM_T x y then true else false.
(** The mask starts as a float array and becomes boolean at the first logical_or. *)
Inductive mask := FloatMask (a : arr R) | BoolMask (a : arr bool).
Definition logical_or (s : arr bool) (m : mask) : mask :=
  match m with
  | FloatMask a => BoolMask (amap2 (fun b x => b || negb (Reqb x 0)) s a)
  | BoolMask a => BoolMask (amap2 orb s a)
  end.
(** darkhole.py:274-321: one iteration of the loop. *)
Definition gen_shape (nRows nCols d : yval) : res (arr bool) :=
  do xo <- item d "xOffset";
  do yo <- item d "yOffset";
  do name <- item d "shape";
  match name with
  | YStr s =>
      if String.eqb s "rectangle" then
        do w <- item d "width"; do h <- item d "height";
        gen_rectangle nRows nCols xo yo w h
      else if String.eqb s "annulus" then
        do ri <- item d "radiusInner"; do ro <- item d "radiusOuter";
        gen_annulus nRows nCols xo yo ri ro
      else if String.eqb s "annular_sector" then
        do ri <- item d "radiusInner"; do ro <- item d "radiusOuter";
        do op <- item d "openingAngle"; do cl <- item d "clocking";
        gen_annular_sector nRows nCols xo yo ri ro op cl
      else if String.eqb s "bowtie" then
        do ri <- item d "radiusInner"; do ro <- item d "radiusOuter";
        do op <- item d "openingAngle"; do cl <- item d "clocking";
        gen_bowtie nRows nCols xo yo ri ro op cl
      else Err ValueError
  | _ => Err ValueError
  end.
Fixpoint combine_shapes (nRows nCols : yval) (shapes : list (string * yval)) (m : mask) : res mask :=
  match shapes with
  | [] => Ok m
  | (_, d) :: rest => do s <- gen_shape nRows nCols d; combine_shapes nRows nCols rest (logical_or s m)
  end.
(** darkhole.py:265-323, from the parsed file contents on. *)
Definition gen_dark_hole (inputs : yval) : res mask :=
  do nRows <- item inputs "nRows";
  do nCols <- item inputs "nCols";
  do n <- positive_int_ nRows;
  do m <- positive_int_ nCols;
  do shapes_ <- item inputs "shapes";
  do shapes <- items shapes_;
  combine_shapes nRows nCols shapes (FloatMask (afull n m 0%R)).
(** darkhole.py:246-264: custom_exception = IOError. [inr c] is an exception loadyaml does not convert. *)
Definition gen_dark_hole_from_yaml {path file : Type} (open_ : path -> outcome file) (safe_load : file -> outcome yval)
    (fnSpecs : path) : res mask + pycls :=
  match loadyaml open_ safe_load fnSpecs OSError with
  | inl v => inl (gen_dark_hole v)
  | inr (CustomException e) => inl (Err e)
  | inr (Original c) => inr c
  end.
