(** Specification of star location and spot separation from satellite spots. Positions are in pixels from the
    centre pixel (row nr/2, column nc/2), x along columns and y along rows. *)
From Coq Require Import ZArith List String Reals.
From Verif.Base Require Import Py Arr Vec Sums.
From Verif.Model Require Import Yaml.
From Verif.Spec Require Import ShapesSpec DarkHoleSpec FocalFitSpec FitsSpec PupilUtilSpec.
Import ListNotations.
Open Scope string_scope.
Open Scope R_scope.

(** [f] is the flux in discs of radius r around the pairs of points at distance sep on either side of (x, y), one
    pair per angle (degrees); a pixel in several discs counts once per disc. *)
Inductive pairs_flux (img : arr R) (r : R) (ns : Z) (sep x y : R) : list R -> R -> Prop :=
| pairs_none : pairs_flux img r ns sep x y [] 0
| pairs_more a l s1 s2 s :
    spot_sum img r (x + sep * cos (deg a)) (y + sep * sin (deg a)) ns s1 ->
    spot_sum img r (x - sep * cos (deg a)) (y - sep * sin (deg a)) ns s2 ->
    pairs_flux img r ns sep x y l s -> pairs_flux img r ns sep x y (a :: l) (s1 + s2 + s).

(** Contents of the tuning files: [sepKey] is the name of the separation entry. *)
Record spots := Spots { s_sep : R; s_radius : R; s_angles : list R; s_sub : Z; s_steps : Z; s_step : R; s_iter : Z }.
Definition has_reals (v : yval) (k : string) (l : list R) : Prop := exists vs, has v k (YList vs) /\ Forall2 is_real vs l.
Definition describes_spots (sepKey : string) (v : yval) (t : spots) : Prop :=
  has_real v sepKey (s_sep t) /\ 0 < s_sep t /\ has_real v "roiRadiusPix" (s_radius t) /\ 0 < s_radius t /\
  has_reals v "probeRotVecDeg" (s_angles t) /\ has_int v "nSubpixels" (s_sub t) /\ (0 < s_sub t)%Z /\
  has_int v "nSteps" (s_steps t) /\ (0 < s_steps t)%Z /\ has_real v "stepSize" (s_step t) /\ 0 < s_step t /\
  has_int v "nIter" (s_iter t) /\ (0 < s_iter t)%Z.

(** [k] successive passes from (x0, y0), each taking the stationary point of the least-squares quadratic through
    the fluxes at n by n trial positions spaced by d about the previous position. *)
Inductive fits_from (F : R -> R -> R) (n : Z) (d : R) : nat -> R -> R -> R -> R -> Prop :=
| fits_done x y : fits_from F n d O x y x y
| fits_more k x0 y0 x1 y1 x y : fitted_shift F n d x0 y0 x1 y1 -> fits_from F n d k x1 y1 x y -> fits_from F n d (S k) x0 y0 x y.
(** (x, y) is the position the search ends at when started from (x0, y0). *)
Definition star_found (img : arr R) (t : spots) (x0 y0 x y : R) : Prop :=
  exists F, (forall u v, pairs_flux img (s_radius t) (s_sub t) (s_sep t) u v (s_angles t) (F u v)) /\
    fits_from F (s_steps t) (s_step t) (Z.to_nat (s_iter t)) x0 y0 x y.

(** The image is its own mirror image through the point (hx/2, hy/2); outside the frame it is zero. *)
Definition pixel (img : arr R) (i j : Z) : R := if in_arrb img i j then at2 img i j else 0.
Definition point_symmetric (img : arr R) (hx hy : Z) : Prop :=
  forall i j, pixel img i j = pixel img (2 * (nr img / 2) + hy - i) (2 * (nc img / 2) + hx - j).

(** One pass of the separation search: parabola through the fluxes at n trial separations spaced by d about s0. *)
Definition fitted_sep (G : R -> R) (n : Z) (d s0 s : R) : Prop :=
  exists p2 p1 p0, best_parabola (Vec n (trial n d s0)) (Vec n (fun i => G (trial n d s0 i))) p2 p1 p0 /\
    / 2 ^ 52 <= Rabs p2 /\ s = - p1 / (2 * p2).
Inductive seps_from (G : R -> R) (n : Z) (d : R) : nat -> R -> R -> Prop :=
| seps_done s : seps_from G n d O s s
| seps_more k s0 s1 s : fitted_sep G n d s0 s1 -> seps_from G n d k s1 s -> seps_from G n d (S k) s0 s.
(** The first trial separation of largest flux. *)
Definition brightest (G : R -> R) (n : Z) (d s0 s : R) : Prop :=
  exists i, (0 <= i < n)%Z /\ s = trial n d s0 i /\ forall k, (0 <= k < n)%Z ->
    G (trial n d s0 k) <= G s /\ ((k < i)%Z -> G (trial n d s0 k) < G s).
Definition sep_search (G : R -> R) (n nIter : Z) (d s0 s : R) : Prop :=
  if Z.eqb nIter 1 then fitted_sep G n d s0 s
  else exists s1, brightest G n d s0 s1 /\ seps_from G n d (Z.to_nat (nIter - 1)) s1 s.
