(** C45, C46: PSF registration. *)
From Coq Require Import ZArith Bool List String Reals Lra Lia.
From Flocq Require Import Core.
From Coquelicot Require Import Complex.
From Verif.Base Require Import Py Arr Vec Sums CSum.
From Verif.Model Require Import Dm Yaml PsfFit.
From Verif.Spec Require Import ConjugateSpec PsfFitSpec.
From Verif.Proofs Require Import PsfFitP PsfFitEx ConjugateEx.
Import ListNotations.
Open Scope Z_scope.

(** C45. The shift returned, for any images: minus the first peak of the cross-correlation, as a signed lag; with
    upsampling, minus the first peak of its trigonometric interpolation on the fine grid around that. *)
Theorem C45_peak : forall shift s t cfg k ry rx amp, psffit shift s t cfg = Ok ((ry, rx), amp) -> read_config cfg = Ok k ->
  let u := upsample_factor k in let g := Zceil (u * pad_factor k) in
  nr t = nr s /\ nc t = nc s /\ exists p q y0 x0,
  first_max (fun p q => Rabs (cross_corr s t p q)) (nr s) (nc s) p q /\ lag (nr s) p y0 /\ lag (nc s) q x0 /\
  (u = 1%R -> ry = - IZR y0 /\ rx = - IZR x0)%R /\
  (u <> 1%R -> exists a b,
     first_max (fun a b => Cmod (trig_corr s t (IZR (ZnearestE (IZR y0 * u)) / u + IZR (a - g / 2) / u)
                                               (IZR (ZnearestE (IZR x0 * u)) / u + IZR (b - g / 2) / u))) g g a b /\
     ry = - (IZR (ZnearestE (IZR y0 * u)) / u + IZR (a - g / 2) / u) /\
     rx = - (IZR (ZnearestE (IZR x0 * u)) / u + IZR (b - g / 2) / u))%R.
Proof. exact psffit_peak. Qed.
Print Assumptions C45_peak.
(** The interpolation passes through the correlation at whole pixels. *)
Theorem C45_interpolation : forall s t p q, 0 < nr s -> 0 < nc s -> nr t = nr s -> nc t = nc s ->
  trig_corr s t (IZR p) (IZR q) = RtoC (cross_corr s t p q).
Proof. exact trig_whole. Qed.
Print Assumptions C45_interpolation.
(** C45. Circularly shifted targets, any source, whole-pixel precision: the shift returned maps the source onto
    the target (up to the sign of the amplitude, which |correlation| does not see) and is in [-n/2, n/2). *)
Theorem C45_circular : forall shift s t cfg k c dy dx ry rx amp, psffit shift s t cfg = Ok ((ry, rx), amp) ->
  read_config cfg = Ok k -> upsample_factor k = 1%R -> c <> 0%R -> circular_shift s c dy dx t ->
  exists y x e, ry = IZR y /\ rx = IZR x /\ - nr s <= 2 * y < nr s /\ - nc s <= 2 * x < nc s /\
    (e = c \/ e = - c)%R /\ circular_shift s e y x t.
Proof. exact psffit_unit. Qed.
Print Assumptions C45_circular.
(** C45. For a source that varies along both axes it is the shift itself, with any whole upsampling factor. *)
Theorem C45_exact : forall shift s t cfg k c dy dx ry rx amp, psffit shift s t cfg = Ok ((ry, rx), amp) ->
  read_config cfg = Ok k -> (exists U, 0 < U /\ upsample_factor k = IZR U) ->
  c <> 0%R -> varies s -> 2 <= nr s -> 2 <= nc s ->
  (pad_factor k <= IZR (nr s))%R -> (pad_factor k <= IZR (nc s))%R -> circular_shift s c dy dx t ->
  exists y x, ry = IZR y /\ rx = IZR x /\ - nr s <= 2 * y < nr s /\ - nc s <= 2 * x < nc s /\
    (exists e, y = dy + nr s * e) /\ (exists e, x = dx + nc s * e).
Proof. exact psffit_exact. Qed.
Print Assumptions C45_exact.
(** C45. Fractional shifts (by Fourier phase) that are multiples of 1/upsample_factor are found exactly when the
    whole-pixel peak is within (pad_factor - 1/upsample_factor)/2 of them. *)
Theorem C45_subpixel : forall shift s t cfg k U c dy dx ry rx amp p q y0 x0, psffit shift s t cfg = Ok ((ry, rx), amp) ->
  read_config cfg = Ok k -> 1 < U -> upsample_factor k = IZR U -> c <> 0%R -> varies s -> 2 <= nr s -> 2 <= nc s ->
  (pad_factor k <= IZR (nr s))%R -> (pad_factor k <= IZR (nc s))%R -> fourier_shift s c dy dx t ->
  first_max (fun p q => Rabs (cross_corr s t p q)) (nr s) (nc s) p q -> lag (nr s) p y0 -> lag (nc s) q x0 ->
  (exists D, dy = IZR D / IZR U)%R -> (exists D, dx = IZR D / IZR U)%R ->
  (2 * Rabs (dy + IZR y0) * IZR U + 1 <= IZR U * pad_factor k)%R -> (2 * Rabs (dx + IZR x0) * IZR U + 1 <= IZR U * pad_factor k)%R ->
  ry = dy /\ rx = dx.
Proof. exact psffit_subpixel. Qed.
Print Assumptions C45_subpixel.
Theorem C45_defined : forall shift s t cfg k, read_config cfg = Ok k -> nr t = nr s -> nc t = nc s -> 0 < nr s -> 0 < nc s ->
  (upsample_factor k = 1 \/ 0 < upsample_factor k * pad_factor k)%R -> exists r, psffit shift s t cfg = Ok r.
Proof. exact psffit_def. Qed.
Print Assumptions C45_defined.
(** The configuration must hold the three keys with numbers (booleans count). *)
Theorem C45_config : forall v k, read_config v = Ok k <-> exists d a b c, v = YDict d /\
  assoc "upsample_factor" d = Some a /\ assoc "pad_factor" d = Some b /\ assoc "amp_thresh" d = Some c /\
  number a = Some (upsample_factor k) /\ number b = Some (pad_factor k) /\ number c = Some (amp_thresh k).
Proof. exact config_ok. Qed.
Print Assumptions C45_config.
Example C45_ex : psffit (sp_shift scipy_ref) (star 1 2 3) (star 2 1 6) cfg_ex = Ok ((IZR 1, IZR (-1)), Some 2%R) /\
  read_config cfg_ex = Ok k_ex /\ varies (star 1 2 3) /\ circular_shift (star 1 2 3) 2 1 (-1) (star 2 1 6) /\
  fourier_shift (star 1 2 3) 2 1 (-1) (star 2 1 6).
Proof.
  assert (Ci : circular_shift (star 1 2 3) 2 1 (-1) (star 2 1 6)).
  { apply fill_circular; [reflexivity|reflexivity|exact star_shift|exact star_frame]. }
  split; [exact psffit_ex|]. split; [exact cfg_ok|]. split; [exact star_varies|]. split; [exact Ci|].
  apply (circular_fourier _ _ 1 (-1)); [reflexivity|reflexivity|exact Ci].
Qed.

(** C46. The amplitude minimises the squared residual over the pixels above the threshold, strictly; it is
    undefined (NaN) exactly when the shifted source vanishes on all of them. *)
Theorem C46_optimal : forall t g thresh M, 0 < nr t -> 0 < nc t -> nr g = nr t -> nc g = nc t -> is_max t M ->
  forall A, amplitude_ratio t g thresh = Some A ->
  forall c, c <> A -> (residual (thresh * M) t g A < residual (thresh * M) t g c)%R.
Proof. exact amp_optimal. Qed.
Print Assumptions C46_optimal.
Theorem C46_undefined : forall t g thresh M, 0 < nr t -> 0 < nc t -> nr g = nr t -> nc g = nc t -> is_max t M ->
  amplitude_ratio t g thresh = None <-> forall i j, in_arr t i j -> above (thresh * M) t i j -> at2 g i j = 0%R.
Proof. exact amp_none. Qed.
Print Assumptions C46_undefined.
Theorem C46_proportional : forall t g thresh M, 0 < nr t -> 0 < nc t -> nr g = nr t -> nc g = nc t -> is_max t M ->
  forall c, (forall i j, in_arr t i j -> above (thresh * M) t i j -> at2 t i j = (c * at2 g i j)%R) ->
  (exists i j, in_arr t i j /\ above (thresh * M) t i j /\ at2 g i j <> 0%R) -> amplitude_ratio t g thresh = Some c.
Proof. exact amp_proportional. Qed.
Print Assumptions C46_proportional.
(** C46. psffit as a whole, for a target that is the source moved by whole pixels inside the frame and scaled:
    it returns that shift and that scale. *)
Theorem C46_recovers : forall shift s t cfg k c dy dx, whole_shift shift -> read_config cfg = Ok k ->
  (exists U, 0 < U /\ upsample_factor k = IZR U) -> (0 < pad_factor k <= IZR (nr s))%R -> (pad_factor k <= IZR (nc s))%R ->
  (0 <= amp_thresh k < 1)%R -> (0 < c)%R -> varies s -> 2 <= nr s -> 2 <= nc s ->
  - nr s <= 2 * dy < nr s -> - nc s <= 2 * dx < nc s ->
  zero_fill_shift s c dy dx t -> stays_in_frame s dy dx -> (exists i j, in_arr t i j /\ (0 < at2 t i j)%R) ->
  psffit shift s t cfg = Ok ((IZR dy, IZR dx), Some c).
Proof. exact psffit_recovers. Qed.
Print Assumptions C46_recovers.
Theorem C46_of_psffit : forall shift s t cfg ry rx amp, psffit shift s t cfg = Ok ((ry, rx), amp) ->
  exists k, read_config cfg = Ok k /\ nr t = nr s /\ nc t = nc s /\
  peak_shift s t (upsample_factor k) (pad_factor k) = Ok (- ry, - rx)%R /\
  amp = amplitude_ratio t (shift s ry rx) (amp_thresh k).
Proof. exact psffit_inv. Qed.
Print Assumptions C46_of_psffit.
Example C46_ex : is_max (star 2 1 6) 6 /\ amplitude_ratio (star 2 1 6) (star 2 1 3) (/ 5) = Some 2%R.
Proof.
  assert (M : is_max (star 2 1 6) 6).
  { split; [exists 2, 1; split; [split; cbn; lia|reflexivity]|]. intros i j _. cbn. destruct ((i =? 2) && (j =? 1)); lra. }
  split; [exact M|]. apply (amp_proportional _ _ _ 6); try reflexivity; auto.
  - intros i j _ _. cbn. destruct ((i =? 2) && (j =? 1)); lra.
  - exists 2, 1. split; [split; cbn; lia|]. split; [unfold above; cbn; lra|cbn; lra].
Qed.
