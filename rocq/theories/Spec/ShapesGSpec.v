(** Terms used to state what the antialiased shapes are in double precision. *)
From Coq Require Import ZArith Bool List String Reals.
From Flocq Require Import Core BinarySingleNaN.
From Verif.Base Require Import Py Arr F64.
From Verif.Model Require Import ShapesG.
From Verif.Spec Require Import RefuseSpec.
Import ListNotations.
Open Scope string_scope.
Open Scope R_scope.

Definition is_zero (x : f64) : Prop := exists s, x = B754_zero s.
(** [y] is [x] with the other sign; the sign of a zero does not count. *)
Definition opposite (x y : f64) : Prop := y = fopp x \/ (is_zero x /\ is_zero y).
(** The C library is symmetric: cos is even, sin is odd, arctan2 is odd in its first argument where that is not zero. *)
Definition symmetric_libm (M : libm) : Prop :=
  (forall t t', opposite t t' -> lcos M t' = lcos M t /\ opposite (lsin M t) (lsin M t')) /\
  (forall y x, ~ is_zero y -> opposite (latan2 M y x) (latan2 M (fopp y) x)).
(** cos 0 = 1 and sin 0 = 0. *)
Definition exact_at_zero (M : libm) : Prop := forall t, is_zero t -> lcos M t = fofZ 1 /\ is_zero (lsin M t).

(** Every pixel is a finite double between 0 and 1. *)
Definition unit_pixels (m : arr f64) : Prop :=
  forall i j, in_arr m i j -> is_finite (at2 m i j) = true /\ 0 <= fval (at2 m i j) <= 1.
(** A finite double that is the whole number [a]. *)
Definition whole (x : f64) (a : Z) : Prop := is_finite x = true /\ fval x = IZR a /\ (Z.abs a <= 2 ^ 50)%Z.
(** Array sizes and numbers of subpixels considered. *)
Definition sizes (nx ny ns : Z) : Prop := (nx <= 2 ^ 50)%Z /\ (ny <= 2 ^ 50)%Z /\ (ns <= 2 ^ 26)%Z.

(** What the functions require, in the order in which they test it. NaN is neither below nor above zero and is let through. *)
Definition not_positive (x : f64) : Prop := fle x fzero = true.
Definition negative (x : f64) : Prop := flt x fzero = true.
Definition circle_needs_f (nx ny : Z) (r : f64) (ns : Z) : list (Prop * exn) :=
  [(0 < nx, TypeError); (0 < ny, TypeError); (~ not_positive r, TypeError); (0 < ns, TypeError); (1 < nx, IndexError)]%Z.
(** The square of the radius must neither overflow nor vanish. *)
Definition radius_needs (M : libm) (r : f64) : list (Prop * exn) :=
  [(lpow2 M r <> None, Custom "OverflowError"); (forall p, lpow2 M r = Some p -> ~ is_zero p, ZeroDivisionError)].
Definition ellipse_needs_f (M : libm) (nx ny : Z) (rx ry : f64) (ns : Z) : list (Prop * exn) :=
  ([(0 < nx, TypeError); (0 < ny, TypeError); (~ not_positive rx, TypeError); (~ not_positive ry, TypeError);
    (0 < ns, TypeError); (1 < nx, IndexError)]%Z ++ radius_needs M rx ++ radius_needs M ry ++ [((1 < ny)%Z, IndexError)])%list.
Definition rectangle_needs_f (nx ny : Z) (w h : f64) (ns : Z) : list (Prop * exn) :=
  [(0 < nx, TypeError); (0 < ny, TypeError); (~ not_positive w, TypeError); (~ not_positive h, TypeError);
   (0 < ns, TypeError); (1 < nx, IndexError)]%Z.
Definition segments_needs_f (nSeg : Z) (rIn rOut : f64) (nx ny : Z) (angOpen angRot : f64) (ns : Z) (dTheta : f64)
    : list (Prop * exn) :=
  [(nSeg = 1 \/ nSeg = 2, TypeError); (~ not_positive rIn, TypeError); (~ not_positive rOut, TypeError);
   (0 < nx, TypeError); (0 < ny, TypeError); (~ negative angOpen, TypeError); (0 < ns, TypeError);
   (~ negative dTheta, TypeError); (1 < nx, IndexError); (flt angRot (fofZ 360) = true, UnboundLocalError)]%Z.
(** Halving the smallest doubles gives zero, which circle() and rectangle() refuse. *)
Definition pupil_needs_f (nx ny : Z) (dIn dOut : f64) (angs : list f64) (w : f64) (ns : Z) : list (Prop * exn) :=
  [((0 < nx)%Z, TypeError); ((0 < ny)%Z, TypeError); (~ negative dIn, TypeError); (~ not_positive dOut, TypeError);
   (~ negative w, TypeError); ((0 < ns)%Z, TypeError); (~ fle dOut dIn = true, TypeError);
   (~ not_positive (fdiv dOut (fofZ 2)), TypeError); ((1 < nx)%Z, IndexError);
   (flt fzero dIn = true -> ~ not_positive (fdiv dIn (fofZ 2)), TypeError);
   (flt fzero w = true -> angs <> [] -> ~ not_positive (fmul f06 dOut), TypeError)].
