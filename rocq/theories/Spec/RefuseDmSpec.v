(** Requirements of the DM shape, crop and one-dimensional fit functions, in the order in which they are tested. *)
From Coq Require Import ZArith List Reals.
From Verif.Base Require Import Py Arr Vec.
Import ListNotations.
Open Scope Z_scope.

Definition each (e : exn) (l : list Prop) : list (Prop * exn) := map (fun P => (P, e)) l.
(** dmshapes *)
Definition probe_needs (nact : Z) (dact height ximin ximax etamin etamax : R) : list (Prop * exn) :=
  each TypeError [0 < nact; (0 < dact)%R; (0 < height)%R] ++ each ValueError [(ximin < ximax)%R; (etamin < etamax)%R].
Definition sine_needs (nact : Z) (dact amplitude : R) : list (Prop * exn) := each TypeError [0 < nact; (0 < dact)%R; (0 < amplitude)%R].
Definition grid_needs (nact xspace yspace xoffset yoffset : Z) : list (Prop * exn) :=
  each TypeError [0 < nact; 0 < xspace; 0 < yspace; 0 <= xoffset; 0 <= yoffset] ++
  each ValueError [xoffset < xspace; yoffset < yspace; xspace <= nact; yspace <= nact].
Definition zernike_needs (nact : Z) (dact : R) (order : Z) : list (Prop * exn) := each TypeError [0 < nact; (0 < dact)%R; 1 <= order].
(** dmh_to_volts, volts_to_dmh *)
Definition volts_needs (gain a : arr R) (lam : R) : list (Prop * exn) := each TypeError [(0 < lam)%R; nr a = nr gain /\ nc a = nc gain].
(** crop, get_crop_lower *)
Definition crop_needs (rows cols lr lc rw cw : Z) : list (Prop * exn) :=
  each TypeError [0 <= lr; 0 <= lc; 0 < rw; 0 < cw] ++ each ValueError [lr < rows; lc < cols].
Definition corner_needs (rc cc rw cw : Z) : list (Prop * exn) := each TypeError [0 <= rc; 0 <= cc; 0 < rw; 0 < cw].
(** smooth_surface *)
Definition smooth_needs (a : arr R) (width : R) : list (Prop * exn) := [((0 < width)%R, ValueError); (0 < nr a /\ 0 < nc a, TypeError)].
