(** Requirements of the mask shapes, of propagation with a given phase factor and of the fits, in the order in which they are tested. *)
From Coq Require Import ZArith List String Reals.
From Flocq Require Import Core.Raux.
From Coquelicot Require Import Complex.
From Verif.Base Require Import Py Arr Vec.
From Verif.Spec Require Import RefuseDmSpec.
Import ListNotations.
Open Scope Z_scope.

(** shapes: the pixel pitch is read off the second column, and for the ellipse also off the second row. *)
Definition circle_needs (nx ny : Z) (radius : R) (ns : Z) : list (Prop * exn) :=
  each TypeError [0 < nx; 0 < ny; (0 < radius)%R; 0 < ns] ++ [(1 < nx, IndexError)].
Definition two_lengths (nx ny : Z) (a b : R) (ns : Z) : list (Prop * exn) :=
  each TypeError [0 < nx; 0 < ny; (0 < a)%R; (0 < b)%R; 0 < ns].
Definition ellipse_needs (nx ny : Z) (rx ry : R) (ns : Z) : list (Prop * exn) := two_lengths nx ny rx ry ns ++ each IndexError [1 < nx; 1 < ny].
Definition rectangle_needs (nx ny : Z) (w h : R) (ns : Z) : list (Prop * exn) := two_lengths nx ny w h ns ++ [(1 < nx, IndexError)].
(** A clocking of 360 degrees or more leaves a variable unset; there is no lower limit. *)
Definition segments_needs (nSeg : Z) (rIn rOut : R) (nx ny : Z) (angOpen angRot : R) (ns : Z) (dTheta : R) : list (Prop * exn) :=
  each TypeError [nSeg = 1 \/ nSeg = 2; (0 < rIn)%R; (0 < rOut)%R; 0 < nx; 0 < ny; (0 <= angOpen)%R; 0 < ns; (0 <= dTheta)%R] ++
  [(1 < nx, IndexError); ((angRot < 360)%R, UnboundLocalError)].
Definition pupil_needs (nx ny : Z) (dI dO width : R) (ns : Z) : list (Prop * exn) :=
  each TypeError [0 < nx; 0 < ny; (0 <= dI)%R; (0 < dO)%R; (0 <= width)%R; 0 < ns; (dI < dO)%R] ++ [(1 < nx, IndexError)].
(** fresnelprop_fp: the phase factor has the size of the grid, or is one row, one column or one number; the field is not empty. *)
Definition fresnel_fp_needs (e : arr C) (z : R) (nx : Z) (fp : arr C) : list (Prop * exn) :=
  (0 < nx, TypeError) ::
  map (fun r => (z = 0%R \/ fst r, snd r))
    [((nr fp = nx \/ nr fp = 1) /\ (nc fp = nx \/ nc fp = 1), ValueError); (0 < nr e, TypeError); (0 < nc e, TypeError)].
(** Fits over a mask, [total] being the mask's sum as an integer: it has to be the number of non-zero pixels, or minus one. *)
Definition same_size {A B} (a : arr A) (b : arr B) : Prop := nr a = nr b /\ nc a = nc b.
Definition nonzero_pixels (m : arr R) (l : list (Z * Z)) : Prop :=
  NoDup l /\ forall i j, In (i, j) l <-> in_arr m i j /\ at2 m i j <> 0%R.
Definition counts_as (m : arr R) (total : Z) : Prop := total = -1 \/ exists l, nonzero_pixels m l /\ total = Z.of_nat (List.length l).
Definition fit_zernikes_needs (wfe usable : arr R) (maxNoll : Z) (nBeam : R) : list (Prop * exn) :=
  each ValueError [same_size wfe usable; 0 < maxNoll] ++ [((0 < nBeam)%R, TypeError)].
Definition flatten_needs (a m : arr R) (total : Z) : list (Prop * exn) := each ValueError [same_size a m; counts_as m total].
Definition optimum_needs (xs ys : vec R) (a m : arr R) (total : Z) : list (Prop * exn) :=
  each ValueError [same_size a m; nr a = vlen ys; nc a = vlen xs; counts_as m total].
