(** Specification of dark-hole shapes and of YAML load failures. *)
From Coq Require Import ZArith Bool List String Reals.
From Verif.Base Require Import Py Arr.
From Verif.Model Require Import Yaml DarkHole.
From Verif.Spec Require Import ShapesSpec.
Import ListNotations.
Open Scope string_scope.
Open Scope R_scope.

(** A shape of the dark hole: centre offset in pixels, then its dimensions. Angles in degrees. *)
Inductive dh_shape :=
| Rectangle (xo yo width height : R)
| Annulus (xo yo rIn rOut : R)
| Sector (xo yo rIn rOut opening clocking : R)
| Bowtie (xo yo rIn rOut opening clocking : R).
(** (x, y) are coordinates relative to the array's centre pixel. *)
Definition in_shape (s : dh_shape) (x y : R) : Prop :=
  match s with
  | Rectangle xo yo w h => Rabs (x - xo) <= w / 2 /\ Rabs (y - yo) <= h / 2
  | Annulus xo yo ri ro => annulus_set ri ro (x - xo) (y - yo)
  | Sector xo yo ri ro op cl => annulus_set ri ro (x - xo) (y - yo) /\ in_wedge (deg cl) (deg op / 2) (x - xo) (y - yo)
  | Bowtie xo yo ri ro op cl => annulus_set ri ro (x - xo) (y - yo) /\
      (in_wedge (deg cl) (deg op / 2) (x - xo) (y - yo) \/ in_wedge (deg cl + PI) (deg op / 2) (x - xo) (y - yo))
  end.
Definition shape_valid (s : dh_shape) : Prop :=
  match s with
  | Rectangle _ _ w h => 0 < w /\ 0 < h
  | Annulus _ _ ri ro => 0 <= ri <= ro
  | Sector _ _ ri ro op _ | Bowtie _ _ ri ro op _ => 0 <= ri <= ro /\ 0 < op
  end.

(** [v] is the number [r] / the integer [z]. True and False count as 1 and 0. *)
Inductive is_real : yval -> R -> Prop :=
| real_bool b : is_real (YBool b) (if b then 1 else 0)
| real_int z : is_real (YInt z) (IZR z)
| real_float r : is_real (YReal r) r.
Inductive is_int : yval -> Z -> Prop :=
| int_bool b : is_int (YBool b) (if b then 1 else 0)%Z
| int_int z : is_int (YInt z) z.
(** The entry for key [k] of dictionary [d] (first match) is [v]. *)
Inductive entry (k : string) : list (string * yval) -> yval -> Prop :=
| entry_here v d : entry k ((k, v) :: d) v
| entry_later k' w d v : k <> k' -> entry k d v -> entry k ((k', w) :: d) v.
Definition has (v : yval) (k : string) (x : yval) : Prop := exists d, v = YDict d /\ entry k d x.
Definition has_real (v : yval) (k : string) (r : R) : Prop := exists x, has v k x /\ is_real x r.
Definition has_int (v : yval) (k : string) (z : Z) : Prop := exists x, has v k x /\ is_int x z.

(** [v] is the YAML dictionary describing shape [s]. *)
Inductive describes (v : yval) : dh_shape -> Prop :=
| d_rectangle xo yo w h : has v "shape" (YStr "rectangle") -> has_real v "xOffset" xo -> has_real v "yOffset" yo ->
    has_real v "width" w -> has_real v "height" h -> describes v (Rectangle xo yo w h)
| d_annulus xo yo ri ro : has v "shape" (YStr "annulus") -> has_real v "xOffset" xo -> has_real v "yOffset" yo ->
    has_real v "radiusInner" ri -> has_real v "radiusOuter" ro -> describes v (Annulus xo yo ri ro)
| d_sector xo yo ri ro op cl : has v "shape" (YStr "annular_sector") -> has_real v "xOffset" xo -> has_real v "yOffset" yo ->
    has_real v "radiusInner" ri -> has_real v "radiusOuter" ro -> has_real v "openingAngle" op -> has_real v "clocking" cl ->
    describes v (Sector xo yo ri ro op cl)
| d_bowtie xo yo ri ro op cl : has v "shape" (YStr "bowtie") -> has_real v "xOffset" xo -> has_real v "yOffset" yo ->
    has_real v "radiusInner" ri -> has_real v "radiusOuter" ro -> has_real v "openingAngle" op -> has_real v "clocking" cl ->
    describes v (Bowtie xo yo ri ro op cl).
(** [v] is a dark-hole file for an n-row, m-column mask made of the listed shapes. *)
Definition describes_hole (v : yval) (n m : Z) (shapes : list dh_shape) : Prop :=
  has_int v "nRows" n /\ has_int v "nCols" m /\ (0 < n)%Z /\ (0 < m)%Z /\
  exists d, has v "shapes" (YDict d) /\ Forall2 (fun kv s => describes (snd kv) s /\ shape_valid s) d shapes.

(** Classes derived from [t] (reflexive). *)
Inductive derives : pycls -> pycls -> Prop :=
| derives_refl c : derives c c
| derives_base c b t : base_class c = Some b -> derives b t -> derives c t.

Open Scope Z_scope.
(** [a] is the n-row, m-column boolean mask of shape [s]. *)
Definition good (n m : Z) (a : arr bool) (s : dh_shape) : Prop :=
  nr a = n /\ nc a = m /\ forall i j, 0 <= i < n -> 0 <= j < m -> (at2 a i j = true <-> in_shape s (px m 0 j) (px n 0 i)).
(** Size, true pixels and type of a returned mask. *)
Definition mask_rows (k : mask) : Z := match k with FloatMask a => nr a | BoolMask a => nr a end.
Definition mask_cols (k : mask) : Z := match k with FloatMask a => nc a | BoolMask a => nc a end.
Definition mask_true (k : mask) (i j : Z) : Prop := match k with FloatMask a => at2 a i j <> 0%R | BoolMask a => at2 a i j = true end.
Definition mask_bool (k : mask) : Prop := match k with FloatMask _ => False | BoolMask _ => True end.
