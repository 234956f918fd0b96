(** Specification of how malformed inputs are refused: requirements tested in order, each with its exception. *)
From Coq Require Import ZArith List String Reals.
From Verif.Base Require Import Py Arr.
From Verif.Model Require Import Yaml MaskFit.
From Flocq Require Import Core.Raux.
From Verif.Spec Require Import DarkHoleSpec OccastroSpec PlateSolvSpec.
Import ListNotations.
Open Scope string_scope.
Open Scope Z_scope.

(** [refused l e]: the first requirement of [l] that does not hold has exception [e]. *)
Inductive refused : list (Prop * exn) -> exn -> Prop :=
| refused_here (P : Prop) e l : ~ P -> refused ((P, e) :: l) e
| refused_later (P : Prop) e e' l : P -> refused l e' -> refused ((P, e) :: l) e'.
(** All requirements hold. *)
Definition met (l : list (Prop * exn)) : Prop := Forall fst l.

(** Requirements on entries of a parsed file. *)
Definition dictionary (v : yval) : Prop := exists d, v = YDict d.
Definition present (v : yval) (k : string) : Prop := exists x, has v k x.
Definition a_real (v : yval) (k : string) : Prop := exists r, has_real v k r.
Definition a_positive (v : yval) (k : string) : Prop := exists r, has_real v k r /\ (0 < r)%R.
Definition a_nonnegative (v : yval) (k : string) : Prop := exists r, has_real v k r /\ (0 <= r)%R.
Definition an_int (v : yval) (k : string) : Prop := exists z, has_int v k z.
Definition a_count (v : yval) (k : string) : Prop := exists z, has_int v k z /\ 0 < z.
(** The file is a dictionary with all these keys. *)
Definition keys (v : yval) (l : list string) : list (Prop * exn) :=
  (dictionary v, TypeError) :: map (fun k => (present v k, KeyError)) l.
(** A disc mask can be drawn on the image's frame. *)
Definition frame (img : arr R) : list (Prop * exn) :=
  [(0 < nc img, TypeError); (0 < nr img, TypeError); (1 < nc img, IndexError)].

(** calc_offset_from_spots, target file [gv] and tuning file [tv]. *)
Definition spots_needs (img : arr R) (tv gv : yval) : list (Prop * exn) :=
  keys gv ["targetRatio"] ++ [(a_positive gv "targetRatio", TypeError)] ++
  keys tv ["spotSepPix"; "roiRadiusPix"; "nSubpixels"; "maxStep"; "fitCoefPow1"; "fitCoefPow2"; "powerOfFit"; "maskIsInsideSpots"] ++
  [(a_positive tv "spotSepPix", TypeError); (a_positive tv "roiRadiusPix", TypeError); (a_count tv "nSubpixels", TypeError);
   (a_positive tv "maxStep", TypeError); (a_positive tv "fitCoefPow1", TypeError); (a_positive tv "fitCoefPow2", TypeError);
   (a_count tv "powerOfFit", TypeError); (has_int tv "powerOfFit" 1 \/ has_int tv "powerOfFit" 2, ValueError);
   (an_int tv "maskIsInsideSpots", TypeError); (has_int tv "maskIsInsideSpots" 0 \/ has_int tv "maskIsInsideSpots" 1, ValueError)] ++
  frame img.
(** calc_bowtie_offsets_from_spots. *)
Definition bowtie_needs (img : arr R) (tv : yval) : list (Prop * exn) :=
  keys tv ["spotSepPix"; "spotRotDeg"; "spotExtraRotDeg"; "roiRadiusPix"; "nSubpixels"; "maxStep"; "fitCoefPow1x"; "fitCoefPow2x";
           "fitCoefPow1y"; "fitCoefPow2y"; "xRatioTarget"; "yRatioTarget"] ++
  [(a_positive tv "spotSepPix", TypeError); (a_positive tv "roiRadiusPix", TypeError); (a_count tv "nSubpixels", TypeError);
   (a_positive tv "maxStep", TypeError); (a_positive tv "fitCoefPow1x", TypeError); (a_positive tv "fitCoefPow2x", TypeError);
   (a_positive tv "fitCoefPow1y", TypeError); (a_positive tv "fitCoefPow2y", TypeError);
   (a_real tv "spotRotDeg", TypeError); (a_real tv "spotExtraRotDeg", TypeError)] ++
  frame img ++ [(a_positive tv "xRatioTarget", ValueError); (a_positive tv "yRatioTarget", ValueError)].
(** calc_star_location_from_spots and calc_spot_separation, which differ in the key of the separation. Without any angle
    no disc is drawn. *)
Definition locate_needs (img : arr R) (sepKey : string) (tv : yval) : list (Prop * exn) :=
  keys tv [sepKey; "roiRadiusPix"; "probeRotVecDeg"; "nSubpixels"; "nSteps"; "stepSize"; "nIter"] ++
  [(a_positive tv sepKey, TypeError); (a_positive tv "roiRadiusPix", TypeError); (exists l, has_reals tv "probeRotVecDeg" l, TypeError);
   (a_count tv "nSubpixels", TypeError); (a_count tv "nSteps", TypeError); (a_positive tv "stepSize", TypeError); (a_count tv "nIter", TypeError)] ++
  map (fun r => (has_reals tv "probeRotVecDeg" [] \/ fst r, snd r)) (frame img).

(** One shape of a dark-hole file: what every shape needs, then what the named one needs. *)
Definition any_shape_needs (w : yval) : list (Prop * exn) :=
  keys w ["xOffset"; "yOffset"; "shape"] ++
  [(exists s, In s ["rectangle"; "annulus"; "annular_sector"; "bowtie"] /\ has w "shape" (YStr s), ValueError)].
Definition rectangle_needs (w : yval) : list (Prop * exn) :=
  [(present w "width", KeyError); (present w "height", KeyError); (a_real w "xOffset", TypeError); (a_real w "yOffset", TypeError);
   (a_positive w "width", TypeError); (a_positive w "height", TypeError)].
Definition radii_needs (w : yval) : list (Prop * exn) :=
  [(a_real w "xOffset", TypeError); (a_real w "yOffset", TypeError); (a_nonnegative w "radiusInner", TypeError); (a_nonnegative w "radiusOuter", TypeError);
   (exists ri ro, has_real w "radiusInner" ri /\ has_real w "radiusOuter" ro /\ (ri <= ro)%R, ValueError)].
Definition annulus_needs (w : yval) : list (Prop * exn) :=
  [(present w "radiusInner", KeyError); (present w "radiusOuter", KeyError)] ++ radii_needs w.
Definition sector_needs (w : yval) : list (Prop * exn) :=
  [(present w "radiusInner", KeyError); (present w "radiusOuter", KeyError); (present w "openingAngle", KeyError); (present w "clocking", KeyError)] ++
  radii_needs w ++ [(a_positive w "openingAngle", TypeError); (a_real w "clocking", TypeError)].
Inductive shape_refused (w : yval) (e : exn) : Prop :=
| shape_any : refused (any_shape_needs w) e -> shape_refused w e
| shape_rectangle : met (any_shape_needs w) -> has w "shape" (YStr "rectangle") -> refused (rectangle_needs w) e -> shape_refused w e
| shape_annulus : met (any_shape_needs w) -> has w "shape" (YStr "annulus") -> refused (annulus_needs w) e -> shape_refused w e
| shape_wedge : met (any_shape_needs w) -> has w "shape" (YStr "annular_sector") \/ has w "shape" (YStr "bowtie") ->
    refused (sector_needs w) e -> shape_refused w e.
(** The file: its frame first, then its shapes in order. *)
Definition hole_needs (v : yval) : list (Prop * exn) :=
  keys v ["nRows"; "nCols"] ++ [(a_count v "nRows", TypeError); (a_count v "nCols", TypeError); (present v "shapes", KeyError);
   (exists d, has v "shapes" (YDict d), AttributeError)].
Inductive hole_refused (v : yval) (e : exn) : Prop :=
| hole_header : refused (hole_needs v) e -> hole_refused v e
| hole_shape pre k w post : met (hole_needs v) -> has v "shapes" (YDict (pre ++ (k, w) :: post)) ->
    (forall k' w' e', In (k', w') pre -> ~ shape_refused w' e') -> shape_refused w e -> hole_refused v e.

(** calc_translation_clocking and calc_scale: the maps and scalars, then the tuning file. *)
Definition map_needs (amp0 ph0 amp1 ph1 usable : arr R) (whichDM : Z) (deltaV : arr R) (lam : R) : list (Prop * exn) :=
  map (fun P : Prop => (P, ValueError))
    [nr ph0 = nr amp0 /\ nc ph0 = nc amp0; nr amp1 = nr amp0 /\ nc amp1 = nc amp0; nr ph1 = nr amp0 /\ nc ph1 = nc amp0;
     nr usable = nr amp0 /\ nc usable = nc amp0; whichDM = 1 \/ whichDM = 2; nr deltaV = nc deltaV; (0 < lam)%R].
Definition at_most_one (v : yval) (k : string) : Prop := exists r, has_real v k r /\ (r <= 1)%R.
Definition fit_needs (v : yval) : list (Prop * exn) :=
  keys v ["nIterBoth"; "offsetMax"; "nOffset"; "nIterOffset"; "shrinkFac"; "clockMaxDeg"; "nClock"; "nIterClock"] ++
  map (fun P : Prop => (P, ValueError))
    [a_count v "nIterBoth"; a_real v "offsetMax"; a_count v "nOffset"; a_count v "nIterOffset"; a_positive v "shrinkFac"; at_most_one v "shrinkFac";
     a_real v "clockMaxDeg"; a_count v "nClock"; a_count v "nIterClock"].
Definition scale_needs (v : yval) : list (Prop * exn) :=
  keys v ["maxDeltaScaleFac"; "nScale"; "nIter"; "shrinkFac"] ++
  map (fun P : Prop => (P, ValueError))
    [a_real v "maxDeltaScaleFac"; a_count v "nScale"; a_count v "nIter"; a_positive v "shrinkFac"; at_most_one v "shrinkFac"].
(** The entry reached by following the keys [l] from [v]. *)
Inductive at_path : yval -> list string -> yval -> Prop :=
| path_end v : at_path v [] v
| path_key v k x l y : has v k x -> at_path x l y -> at_path v (k :: l) y.
(** The mirror's file, down to its registration entry. *)
Definition registration_needs (v : yval) (whichDM : Z) : list (Prop * exn) :=
  let dm := if whichDM =? 1 then "DM1" else "DM2" in
  [(dictionary v, TypeError); (exists x, at_path v ["dms"] x, KeyError);
   (exists d, at_path v ["dms"] (YDict d), TypeError); (exists x, at_path v ["dms"; dm] x, KeyError);
   (exists d, at_path v ["dms"; dm] (YDict d), TypeError); (exists x, at_path v ["dms"; dm; "registration"] x, KeyError)].

(** platesolv: the images and the guess, then the settings file, a dictionary. *)
Definition trial_at (consts : yval) (g : R) (i : Z) (x : R) : Prop :=
  exists w n, has_real consts "ps_wid" w /\ has_real consts "n_trials" n /\ 0 <= i < Zceil n /\ x = trial_scale g w n i.
Definition platesolv_needs (img guess : arr R) (g : R) (consts : yval) : list (Prop * exn) :=
  let own := Custom "PlateSolvException" in
  [((0 < g)%R, own); (nr img = nr guess /\ nc img = nc guess, own)] ++
  map (fun k => (present consts k, own)) ["ps_wid"; "n_trials"; "percentile_val"; "interp_step_size"] ++
  [(a_real consts "ps_wid", TypeError); (a_real consts "n_trials", TypeError);
   (~ has_real consts "n_trials" 0, ZeroDivisionError); (~ has_real consts "ps_wid" 0, ZeroDivisionError);
   (0 < nr guess /\ 0 < nc guess, TypeError);
   (* the first trial, then the others *)
   (forall x, trial_at consts g 0 x -> (0 < x)%R, TypeError);
   (forall x, trial_at consts g 0 x -> a_real consts "percentile_val", TypeError);
   (forall x, trial_at consts g 0 x -> exists p, has_real consts "percentile_val" p /\ (0 <= p <= 100)%R, ValueError);
   (forall i x, trial_at consts g i x -> (0 < x)%R, TypeError);
   (* the fine grid and the interpolation *)
   (exists x, trial_at consts g 0 x, ValueError);
   (a_real consts "interp_step_size", TypeError); (~ has_real consts "interp_step_size" 0, ValueError);
   (exists x, trial_at consts g 3 x, ValueError); (a_positive consts "interp_step_size", ValueError)].

(** fit_lyot_stop_mag_clocking: the two images, then the settings. *)
Definition lyot_needs (imageUnmasked imageMasked : arr R) (p : lyot_tuning) : list (Prop * exn) :=
  [(nr imageMasked = nr imageUnmasked /\ nc imageMasked = nc imageUnmasked, ValueError);
   ((0 < l_clockMaxDeg p)%R, TypeError); (0 < l_nClock p, TypeError); ((0 < l_deltaAmpMax p)%R, TypeError);
   ((0 < l_diamPupil p)%R, TypeError); ((l_deltaAmpMax p < 1)%R, ValueError); ((0 < l_magShrinkFac p)%R, TypeError);
   ((l_magShrinkFac p < 1)%R, ValueError); ((0 < l_deltaMag p)%R, TypeError); (0 < l_nMag p, TypeError); (0 < l_nIterMag p, TypeError)].

(** Python's [k in v]: a key of a dictionary, an element of a list or a part of a text. *)
Inductive mentions (v : yval) (k : string) : Prop :=
| mentions_key : present v k -> mentions v k
| mentions_element l : v = YList l -> In (YStr k) l -> mentions v k
| mentions_part a b : v = YStr (a ++ k ++ b)%string -> mentions v k.
(** psffit: a settings file with three numbers, then two images of the same, positive size. *)
Definition psf_settings_needs (v : yval) : list (Prop * exn) :=
  (dictionary v \/ (exists l, v = YList l) \/ (exists s, v = YStr s), TypeError) ::
  map (fun k => (mentions v k, ValueError)) ["upsample_factor"; "pad_factor"; "amp_thresh"] ++
  map (fun k => (a_real v k, TypeError)) ["upsample_factor"; "pad_factor"; "amp_thresh"].
(** get_fp: wavelength, samples and sampling, then enough samples for the distance. *)
Definition get_fp_needs (lam z : R) (nx : Z) (ppm : R) : list (Prop * exn) :=
  [((0 < lam)%R, TypeError); (0 < nx, TypeError); ((0 < ppm)%R, TypeError); ((lam * Rabs z * ppm ^ 2 <= IZR nx)%R, ValueError)].
(** flatten: the commands and scalars, then the static parameters. *)
Definition flatten_needs (cmd1 cmd2 : arr R) (lam diam : R) (maxNoll nIter nBin : Z) (ext : R) : list (Prop * exn) :=
  map (fun P : Prop => (P, ValueError))
    [nr cmd1 = nc cmd1; nr cmd2 = nc cmd2; (0 < lam)%R; (0 < diam)%R; 0 < maxNoll; 0 < nIter; 0 < nBin; (0 < ext)%R].
