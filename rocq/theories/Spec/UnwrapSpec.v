(** Specifications for phase unwrapping. *)
From Coq Require Import ZArith Bool List Reals Relations.
From Verif.Base Require Import Py Arr.
From Verif.Model Require Import Fits.
Import ListNotations.
Open Scope Z_scope.

(** Equal modulo 2 pi. *)
Definition congruent (x y : R) : Prop := exists k, y = (x + 2 * PI * IZR k)%R.
(** Sharing an edge. *)
Definition adjacent (p q : Z * Z) : Prop := Z.abs (fst p - fst q) + Z.abs (snd p - snd q) = 1.
Definition on (m : arr bool) (p : Z * Z) : Prop := in_arr m (fst p) (snd p) /\ at2 m (fst p) (snd p) = true.
(** Connected by a path of adjacent pixels in the mask. *)
Inductive joined (m : arr bool) : Z * Z -> Z * Z -> Prop :=
| joined_here p : on m p -> joined m p p
| joined_step p q r : joined m p q -> adjacent q r -> on m r -> joined m p r.
(** A field whose adjacent values in the mask differ by less than pi. *)
Definition gentle (m : arr bool) (psi : Z -> Z -> R) : Prop :=
  forall p q, on m p -> on m q -> adjacent p q -> (Rabs (psi (fst p) (snd p) - psi (fst q) (snd q)) < PI)%R.
(** [phase] is the field [psi] reduced to [-pi, pi]. *)
Definition wrapped_of (m : arr bool) (psi : Z -> Z -> R) (phase : arr R) : Prop :=
  forall i j, on m (i, j) -> congruent (psi i j) (at2 phase i j) /\ (Rabs (at2 phase i j) <= PI)%R.

(** What is asked of the library's unwrapper (which is given the complement of the mask): whole turns are added,
    and if the phase is a gentle field wrapped, the result is gentle. *)
Definition is_unwrapper (up : arr R -> arr bool -> arr R) : Prop :=
  forall phase out, same_shape phase out = true ->
    let m := amap negb out in
    nr (up phase out) = nr phase /\ nc (up phase out) = nc phase /\
    (forall i j, on m (i, j) -> congruent (at2 phase i j) (at2 (up phase out) i j)) /\
    (forall psi, gentle m psi -> wrapped_of m psi phase -> gentle m (at2 (up phase out))).
(** [k] pixels or more are joined to [p]. *)
Definition large (m : arr bool) (k : Z) (p : Z * Z) : Prop :=
  exists l, NoDup l /\ Z.of_nat (length l) = k /\ forall q, In q l -> joined m p q.
Definition is_remove_small (small : arr bool -> Z -> arr bool) : Prop :=
  forall m k, nr (small m k) = nr m /\ nc (small m k) = nc m /\
    forall i j, in_arr m i j -> (at2 (small m k) i j = true <-> at2 m i j = true /\ large m k (i, j)).
(** The mask in use: the one given, else the large regions of the thresholded amplitude, or everything. *)
Definition mask_used (phase amplitude : arr R) nbin min_size (use_mask : bool) bMask (m : arr bool) : Prop :=
  match bMask with
  | Some m0 => m = m0
  | None => nr m = nr phase /\ nc m = nc phase /\
      if use_mask then exists t, ampthresh amplitude nbin = Ok t /\
        forall i j, in_arr phase i j -> (at2 m i j = true <-> at2 t i j = true /\ large t min_size (i, j))
      else forall i j, in_arr phase i j -> at2 m i j = true
  end.
Definition dist2 (p q : Z * Z) : Z := (fst p - fst q) ^ 2 + (snd p - snd q) ^ 2.
(** [p] is a mask pixel nearest to (i, j). *)
Definition nearest_to (m : arr bool) (i j : Z) (p : Z * Z) : Prop :=
  on m p /\ forall q, on m q -> dist2 (i, j) p <= dist2 (i, j) q.
(** The value at a nearest pixel of the mask. *)
Definition is_nearest (nearest : arr bool -> arr R -> Z -> Z -> R) : Prop :=
  forall m a i j, same_shape m a = true -> (exists p, on m p) -> in_arr a i j ->
    exists p, nearest_to m i j p /\ nearest m a i j = at2 a (fst p) (snd p).

(** ** Erosion *)
(** (i, j) is kept when the structure, centred on it, stays inside the mask. *)
Definition eroded (m s e : arr bool) : Prop :=
  nr e = nr m /\ nc e = nc m /\ forall i j, in_arr m i j ->
    (at2 e i j = true <-> forall k l, on s (k, l) -> on m (i + k - nr s / 2, j + l - nc s / 2)).

(** ** Filling *)
(** Extending the field from the mask to the whole image by nearest mask pixels, however ties are broken,
    leaves no step of pi or more. *)
Definition gentle_filled (m : arr bool) (psi : Z -> Z -> R) : Prop :=
  forall p q p' q', in_arr m (fst p) (snd p) -> in_arr m (fst q) (snd q) -> adjacent p q ->
    nearest_to m (fst p) (snd p) p' -> nearest_to m (fst q) (snd q) q' ->
    (Rabs (psi (fst p') (snd p') - psi (fst q') (snd q')) < PI)%R.
