(** Specification of deformable-mirror registration. *)
From Coq Require Import ZArith Bool List String Reals.
From Verif.Base Require Import Py Arr Vec Sums.
From Verif.Model Require Import Noll Fits PadCrop Dm Yaml DmReg.
From Verif.Spec Require Import FitsSpec DarkHoleSpec PsfFitSpec PupilUtilSpec UnwrapSpec.
Import ListNotations.
Open Scope string_scope.
Open Scope Z_scope.

(** ** Usable pixels *)

(** [out] is [a] with its least-squares plane over the mask removed, and zero off the mask. *)
Definition flattened (m : arr bool) (a : Z -> Z -> R) (out : arr R) : Prop :=
  let err p q r := masked_sum (zero_one_of m) (fun i j => (a i j - plane_at p q r i j) ^ 2)%R in
  same_shape out m = true /\
  exists p q r, (forall p' q' r', err p q r <= err p' q' r')%R /\
    forall i j, in_arr m i j -> at2 out i j = if at2 m i j then (a i j - plane_at p q r i j)%R else 0%R.
(** Every pixel at most [d] rows and [d] columns away is in the frame, in the mask and within the threshold. *)
Definition clear_around (m : arr bool) (resid : arr R) (thresh : R) (d i j : Z) : Prop :=
  forall a b, Z.abs (a - i) <= d -> Z.abs (b - j) <= d -> on m (a, b) /\ (Rabs (at2 resid a b) <= thresh)%R.

(** ** Files *)
Definition has_path (v : yval) (k1 k2 : string) (x : yval) : Prop := exists u, has v k1 u /\ has u k2 x.
(** The YAML value counts as true: anything but null, false, zero, and the empty string, list and map. *)
Definition counts_as (v : yval) (b : bool) : Prop :=
  b = false <-> In v [YNone; YBool false; YInt 0; YReal 0; YStr ""; YList []; YDict []].
(** The deformable mirror's data: gain map, influence function, actuator count and scales. *)
Definition describes_dm (getdata : getdata_fun) (dmv : yval) (whichDM : Z) (d : dm_data) (flip : bool) (th : option R) : Prop :=
  exists dm dmr, has_path dmv "dms" (if whichDM =? 1 then "DM1" else "DM2") dm /\ has dm "registration" dmr /\
    (exists g, has_path dm "voltages" "gainfn" g /\ getdata g = Ok (d_gain d)) /\
    (exists f, has dmr "inffn" f /\ getdata f = Ok (d_inf d)) /\
    has_int dmr "nact" (d_nact d) /\ 0 < d_nact d /\ has_int dmr "ppact_d" (d_ppd d) /\ 0 < d_ppd d /\
    has_real dmr "ppact_cx" (d_cx d) /\ (0 < d_cx d)%R /\ has_real dmr "ppact_cy" (d_cy d) /\ (0 < d_cy d)%R /\
    match th with
    | Some t => has_real dmr "thact" t /\ exists f, has dmr "flipx" f /\ counts_as f flip
    | None => True
    end.
Definition describes_fit (v : yval) (p : fit_params) : Prop :=
  has_int v "nIterBoth" (p_both p) /\ 0 < p_both p /\ has_real v "offsetMax" (p_omax p) /\
  has_int v "nOffset" (p_noff p) /\ 0 < p_noff p /\ has_int v "nIterOffset" (p_ioff p) /\ 0 < p_ioff p /\
  has_real v "shrinkFac" (p_shrink p) /\ (0 < p_shrink p <= 1)%R /\ has_real v "clockMaxDeg" (p_cmax p) /\
  has_int v "nClock" (p_nclock p) /\ 0 < p_nclock p /\ has_int v "nIterClock" (p_iclock p) /\ 0 < p_iclock p.
Definition maps_valid (amp0 ph0 amp1 ph1 usable : arr R) (whichDM : Z) (deltaV : arr R) (lam : R) : Prop :=
  same_shape amp0 ph0 = true /\ same_shape amp0 amp1 = true /\ same_shape amp0 ph1 = true /\ same_shape amp0 usable = true /\
  (whichDM = 1 \/ whichDM = 2) /\ nr deltaV = nc deltaV /\ (0 < lam)%R.

(** ** Misfits *)

(** Sum over the usable pixels of the absolute difference. *)
Definition l1 (usable a b : arr R) (v : R) : Prop :=
  v = rsum2 (fun i j => at2 usable i j * Rabs (at2 a i j - at2 b i j))%R (nr usable) (nc usable).
(** [surface] is the mirror surface simulated by dmhtoph; the wavefront is twice the surface, flattened. *)
Definition simulated ops (dm : dm_data) dmrad nrow ncol flip x y clock surface : Prop :=
  dmhtoph ops nrow ncol dmrad (d_nact dm) (d_inf dm) (d_ppd dm) (d_cx dm) (d_cy dm) x y clock flip = Ok surface.
Definition wavefront lstsq usable (surface w : arr R) : Prop :=
  remove_piston_tip_tilt lstsq (amap (fun v => v * 2)%R surface) usable = Ok w.
Definition wavefront_misfit lstsq ops usable meas dmrad dm flip nrow ncol x y clock v : Prop :=
  exists s w, simulated ops dm dmrad nrow ncol flip x y clock s /\ wavefront lstsq usable s w /\ l1 usable meas w v.
Definition surface_misfit ops usable meas dmrad dm flip nrow ncol x y clock v : Prop :=
  exists s, simulated ops dm dmrad nrow ncol flip x y clock s /\ l1 usable meas s v.
(** The measured phase difference, reduced to (-pi, pi] and flattened. *)
Definition measured_phase lstsq (ph0 ph1 usable meas : arr R) : Prop :=
  exists d, same_shape d ph1 = true /\
    (forall i j, in_arr d i j -> congruent (at2 ph1 i j - at2 ph0 i j) (at2 d i j) /\ (- PI < at2 d i j <= PI)%R) /\
    remove_piston_tip_tilt lstsq d usable = Ok meas.

(** ** Searches. The i-th of n values spread evenly over [-w, w] is [clock_angle w n i]. *)

Definition quad_fit_err (F : R -> R -> R) (n : Z) (u : Z -> R) (a b c p q r : R) : R :=
  rsum2 (fun i j => (quad2 a b c p q r (u j) (u i) - F (u j) (u i)) ^ 2)%R n n.
(** (x, y) is the stationary point of the least-squares quadratic through F on the grid u x u. *)
Definition grid_fit (F : R -> R -> R) (n : Z) (u : Z -> R) (x y : R) : Prop :=
  exists a b c p q r, (forall a' b' c' p' q' r', quad_fit_err F n u a b c p q r <= quad_fit_err F n u a' b' c' p' q' r')%R /\
    (b ^ 2 - 4 * a * c <> 0)%R /\ stationary a b c p q x y.
(** (x, y) is the first grid point (rows first) of least F. *)
Definition grid_best (F : R -> R -> R) (n : Z) (u : Z -> R) (x y : R) : Prop :=
  exists i j, first_max (fun i j => - F (u j) (u i))%R n n i j /\ x = u j /\ y = u i.
(** One translation pass from (x0, y0) with trial offsets up to w; the first of several takes the best trial. *)
Definition offset_pass (F : R -> R -> R) (n : Z) (best : bool) (w x0 y0 x y : R) : Prop :=
  let G u v := F (x0 + u)%R (y0 + v)%R in
  if best then grid_best G n (clock_angle w n) (x - x0) (y - y0) else grid_fit G n (clock_angle w n) (x - x0) (y - y0).
(** Passes [iter], ..., with the trial range [w]; the pass after pass i has range shrink^i * wmax. *)
Inductive offset_passes (F : R -> R -> R) (n nIter : Z) (wmax shrink : R) : nat -> nat -> R -> R -> R -> R -> R -> R -> Prop :=
| offsets_done iter w x y : offset_passes F n nIter wmax shrink iter O w x y w x y
| offsets_more iter k w x0 y0 x1 y1 w' x y :
    offset_pass F n (Nat.eqb iter 0 && (1 <? nIter)) w x0 y0 x1 y1 ->
    offset_passes F n nIter wmax shrink (S iter) k (shrink ^ iter * wmax)%R x1 y1 w' x y ->
    offset_passes F n nIter wmax shrink iter (S k) w x0 y0 w' x y.
(** One clocking pass from c0: costs at c0 + s u_i, but the move is that of the parabola over the u_i, with u_i
    spread over [-w, w]; the first of several takes the best u_i. *)
Definition clock_pass (G : R -> R) (n : Z) (best : bool) (w s c0 c : R) : Prop :=
  let g i := G (c0 + s * clock_angle w n i)%R in
  if best then exists i, first_max (fun _ i => - g i)%R 1 n 0 i /\ c = (c0 + clock_angle w n i)%R
  else exists p2 p1 p0, best_parabola (Vec n (clock_angle w n)) (Vec n g) p2 p1 p0 /\ (/ 2 ^ 52 <= Rabs p2)%R /\
    c = (c0 - p1 / (2 * p2))%R.
Inductive clock_passes (G : R -> R) (n nIter : Z) (wmax shrink : R) : nat -> nat -> R -> R -> Prop :=
| clocks_done iter c : clock_passes G n nIter wmax shrink iter O c c
| clocks_more iter k c0 c1 c :
    clock_pass G n (Nat.eqb iter 0 && (1 <? nIter)) wmax (shrink ^ iter) c0 c1 ->
    clock_passes G n nIter wmax shrink (S iter) k c1 c -> clock_passes G n nIter wmax shrink iter (S k) c0 c.
(** Rounds of a translation search followed by a clocking search. *)
Inductive rounds (F G : R -> R -> R -> R) (p : fit_params) : nat -> R -> R -> R -> R -> R -> R -> R -> Prop :=
| rounds_done w x y c : rounds F G p O w x y c x y c
| rounds_more k w x0 y0 c0 w1 x1 y1 c1 x y c :
    offset_passes (fun x y => F x y c0) (p_noff p) (p_ioff p) (p_omax p) (p_shrink p) 0 (Z.to_nat (p_ioff p)) w x0 y0 w1 x1 y1 ->
    clock_passes (G x1 y1) (p_nclock p) (p_iclock p) (p_cmax p) (p_shrink p) 0 (Z.to_nat (p_iclock p)) c0 c1 ->
    rounds F G p k w1 x1 y1 c1 x y c -> rounds F G p (S k) w x0 y0 c0 x y c.
(** What the user wants of a clocking pass: the move of the parabola through the trial clockings themselves. *)
Definition parabola_move (G : R -> R) (n : Z) (w c0 c : R) : Prop :=
  exists p2 p1 p0, best_parabola (Vec n (clock_angle w n)) (Vec n (fun i => G (c0 + clock_angle w n i)%R)) p2 p1 p0 /\
    (p2 <> 0)%R /\ c = (c0 - p1 / (2 * p2))%R.

(** ** Scale *)
(** The wavefront for scale factors (sx, sy); the surface is computed with rows and columns exchanged and then
    padded or cropped to the image. *)
Definition scale_misfit lstsq ops usable meas dmrad (dm : dm_data) nrow ncol x y clock sx sy v : Prop :=
  exists s c w, dmhtoph ops ncol nrow dmrad (d_nact dm) (d_inf dm) (d_ppd dm) (sx * d_cx dm) (sy * d_cy dm) x y clock false = Ok s /\
    recentred (amap (fun v => v * 2)%R s) nrow ncol c /\ remove_piston_tip_tilt lstsq c usable = Ok w /\ l1 usable meas w v.
(** One pass: the factors (fx, fy) by which the current scales are multiplied. D holds of the scales tried. *)
Definition scale_pass (D : R -> R -> Prop) (F : R -> R -> R) (n : Z) (best : bool) (m sx sy sx' sy' : R) : Prop :=
  let u i := if n =? 1 then (1 - m)%R else (1 - m + 2 * m * IZR i / (IZR n - 1))%R in
  let G fx fy := F (fx * sx)%R (fy * sy)%R in
  (forall i j, 0 <= i < n -> 0 <= j < n -> D (u j * sx)%R (u i * sy)%R) /\
  exists fx fy, (if best then grid_best G n u fx fy else grid_fit G n u fx fy) /\ sx' = (fx * sx)%R /\ sy' = (fy * sy)%R.
Inductive scale_passes (D : R -> R -> Prop) (F : R -> R -> R) (n : Z) (shrink : R) : bool -> nat -> R -> R -> R -> R -> R -> Prop :=
| scales_done b m sx sy : scale_passes D F n shrink b O m sx sy sx sy
| scales_more b k m sx sy sx1 sy1 sx' sy' : scale_pass D F n b m sx sy sx1 sy1 ->
    scale_passes D F n shrink false k (shrink * m) sx1 sy1 sx' sy' -> scale_passes D F n shrink b (S k) m sx sy sx' sy'.

(** ** Quadratic costs *)
(** Error factor of clocking passes iter, ..., iter + k - 1 on a quadratic cost. *)
Fixpoint overshoot (shrink : R) (iter k : nat) : R :=
  match k with O => 1%R | S k' => ((1 - / shrink ^ iter) * overshoot shrink (S iter) k')%R end.
(** ** Consistent data: the phase difference is the wavefront of [surface] plus a plane, within half a turn. *)
Definition consistent_with (ph0 ph1 usable surface : arr R) : Prop :=
  exists p q r, forall i j, in_arr usable i j -> at2 usable i j <> 0%R ->
    (at2 ph1 i j - at2 ph0 i j = 2 * at2 surface i j + plane_at p q r i j /\ - PI < at2 ph1 i j - at2 ph0 i j <= PI)%R.
