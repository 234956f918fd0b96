(** C80 to C83: fit_pupil_mask_offsets, fit_shaped_pupil_mask_offsets, fit_z_induced_spm_shear and
    fit_lyot_stop_mag_clocking. *)
From Coq Require Import ZArith Bool List Reals Lra Lia String.
From Flocq Require Import Core.
From Coquelicot Require Import Complex.
From Verif.Base Require Import Py Arr Vec Sums Lstsq.
From Verif.Model Require Import Dm Math Fits PsfFit MaskGen PupilUtil Unwrap PupilFit MaskFit.
From Verif.Spec Require Import ConjugateSpec FitsSpec PsfFitSpec PupilUtilSpec UnwrapSpec DmRegSpec MaskFitSpec RefuseSpec.
From Verif.Proofs Require Import FitsP PsfFitEx UnwrapEx ConjugateEx MaskGenEx PupilFitEx MaskFitP MaskFitZ MaskFitL MaskFitEx MaskFitZEx.
Import ListNotations.
Open Scope list_scope.
Open Scope Z_scope.

(** ** fit_pupil_mask_offsets: result (x, y) *)

(** Both images are turned into amplitudes in units of their own bright level. From (0, 0), each outer pass expects the
    unmasked amplitude times the reference at the present estimate from the pupil and moves the estimate by gain times
    the shift that best maps this onto the masked amplitude. *)
Theorem C80_value : forall lstsq rotate spline fuel rnd u m gain p xP yP d mag clock x y,
  is_lstsq_oracle lstsq -> wf (m_maskRef p) ->
  fit_pupil_mask_offsets lstsq rotate spline fuel rnd u m gain p xP yP d mag clock = Some (Ok (x, y)) ->
  exists au am, amplitude_of u (m_percentile p) au /\ amplitude_of m (m_percentile p) am /\
    repeated (mask_pass rotate spline au am gain (m_nPadFFT p) (m_nFocusCrop p) (m_nPhaseSteps p) (m_nIterInner p) (m_dPixel p)
      (m_maskRef p) (d * mag / m_diamHighRes p) clock xP yP) (Z.to_nat (m_nIterOuter p)) 0 0 x y.
Proof. exact fit_offsets_ok. Qed.
Print Assumptions C80_value.
(** The fit always ends. *)
Theorem C80_terminates : forall lstsq rotate spline fuel rnd u m gain p xP yP d mag clock,
  fit_pupil_mask_offsets lstsq rotate spline fuel rnd u m gain p xP yP d mag clock <> None.
Proof. exact fit_offsets_terminates. Qed.
Print Assumptions C80_terminates.
(** Each image may be exposed differently. *)
Theorem C80_brightness : forall lstsq rotate spline fuel rnd u m gain p xP yP d mag clock s t r,
  wf (m_maskRef p) -> (0 < s)%R -> (0 < t)%R ->
  fit_pupil_mask_offsets lstsq rotate spline fuel rnd u m gain p xP yP d mag clock = Some (Ok r) ->
  fit_pupil_mask_offsets lstsq rotate spline fuel rnd (amap (fun v => s * v)%R u) (amap (fun v => t * v)%R m) gain p xP yP d mag clock = Some (Ok r).
Proof. exact fit_offsets_brightness. Qed.
Print Assumptions C80_brightness.
(** If the masked amplitude in the window is what is expected with the mask at (dx, dy), and there that is the expectation
    at (0, 0) shifted by whole trial steps, the result is (dx, dy) with unit gain however many passes are made, and gain
    times that after one pass, unless the quadratic fit reports that it failed. *)
Theorem C80_recovers : forall lstsq rotate spline fuel rnd u m gain p xP yP d mag clock au am dy dx sim0,
  is_lstsq_oracle lstsq -> wf (m_maskRef p) -> nr m = nr u -> nc m = nc u ->
  (0 <= m_percentile p <= 100)%R -> amplitude_of u (m_percentile p) au -> amplitude_of m (m_percentile p) am ->
  let N := m_nPadFFT p in let n := m_nPhaseSteps p in
  let seen := window am N (ZnearestE yP) (ZnearestE xP) in
  let expected := simulated rotate spline au N (m_maskRef p) (d * mag / m_diamHighRes p) clock xP yP in
  expected 0%R 0%R sim0 -> expected (IZR dx) (IZR dy) seen -> window_shift N sim0 dy dx seen ->
  2 <= n -> Z.Odd n -> 2 <= N -> N mod 2 = 0 -> 2 <= m_nFocusCrop p -> 2 <= m_nIterInner p -> 1 <= m_nIterOuter p ->
  (0 < d)%R -> (0 < mag)%R -> (0 < m_dPixel p)%R ->
  spectrum N sim0 0 (-1) <> RtoC 0 -> spectrum N sim0 (-1) 0 <> RtoC 0 ->
  (exists i j, 0 <= i < n /\ 0 <= j < n /\ trial n (m_dPixel p) 0 j = IZR dx /\ trial n (m_dPixel p) 0 i = IZR dy) ->
  (IZR (n - 1) * m_dPixel p < IZR N)%R -> (0 < gain)%R -> gain = 1%R \/ m_nIterOuter p = 1 ->
  fit_pupil_mask_offsets lstsq rotate spline fuel rnd u m gain p xP yP d mag clock = Some (Err (Custom "QuadraticException")) \/
  fit_pupil_mask_offsets lstsq rotate spline fuel rnd u m gain p xP yP d mag clock = Some (Ok (gain * IZR dx, gain * IZR dy)%R).
Proof. exact fit_offsets_recovers_amplitudes. Qed.
Print Assumptions C80_recovers.
(** With one outer pass the offsets are proportional to the gain. *)
Theorem C80_gain : forall lstsq rotate spline fuel rnd u m g g' p xP yP d mag clock x y,
  wf (m_maskRef p) -> m_nIterOuter p = 1 -> (0 < g')%R ->
  fit_pupil_mask_offsets lstsq rotate spline fuel rnd u m g p xP yP d mag clock = Some (Ok (x, y)) ->
  fit_pupil_mask_offsets lstsq rotate spline fuel rnd u m g' p xP yP d mag clock = Some (Ok (g' / g * x, g' / g * y)%R).
Proof. exact fit_offsets_gain. Qed.
Print Assumptions C80_gain.
Theorem C80_no_passes : forall lstsq rotate spline fuel rnd u m g p xP yP d mag clock r, m_nIterOuter p <= 0 ->
  fit_pupil_mask_offsets lstsq rotate spline fuel rnd u m g p xP yP d mag clock = Some (Ok r) -> r = (0, 0)%R.
Proof. exact fit_offsets_zero. Qed.
Print Assumptions C80_no_passes.
(** The reference is only ever shrunk: otherwise there is no result. *)
Theorem C80_scale : forall lstsq rotate spline fuel rnd u m g p xP yP d mag clock r, 1 <= m_nIterOuter p ->
  fit_pupil_mask_offsets lstsq rotate spline fuel rnd u m g p xP yP d mag clock = Some (Ok r) ->
  (0 < d * mag / m_diamHighRes p <= 1)%R.
Proof. exact fit_offsets_scale. Qed.
Print Assumptions C80_scale.
Theorem C80_rejects : forall lstsq rotate spline fuel rnd u m g p xP yP d mag clock,
  (~ (nr m = nr u /\ nc m = nc u) -> fit_pupil_mask_offsets lstsq rotate spline fuel rnd u m g p xP yP d mag clock = Some (Err ValueError)) /\
  (nr m = nr u -> nc m = nc u -> (g <= 0)%R \/ (d <= 0)%R \/ (mag <= 0)%R ->
   fit_pupil_mask_offsets lstsq rotate spline fuel rnd u m g p xP yP d mag clock = Some (Err TypeError)).
Proof. exact fit_offsets_rejects. Qed.
Print Assumptions C80_rejects.
(** A mask of two holes one column to the right of where the reference has them. *)
Example C80_example : forall lstsq fuel rnd, is_lstsq_oracle lstsq ->
  fit_pupil_mask_offsets lstsq rotate_ref spline_ref fuel rnd pupil7 (diag 7 0 0) 1 mask7 0 0 1 1 0 = Some (Ok (1, 0)%R).
Proof. exact offsets_ex. Qed.
Example C80_premises : let N := m_nPadFFT mask7 in exists au am sim0,
  amplitude_of pupil7 50 au /\ amplitude_of (diag 7 0 0) 50 am /\
  simulated rotate_ref spline_ref au N (m_maskRef mask7) (1 * 1 / 1) 0 0 0 0 0 sim0 /\
  simulated rotate_ref spline_ref au N (m_maskRef mask7) (1 * 1 / 1) 0 0 0 (IZR 1) (IZR 0) (window am N (ZnearestE 0) (ZnearestE 0)) /\
  window_shift N sim0 0 1 (window am N (ZnearestE 0) (ZnearestE 0)) /\ spectrum N sim0 0 (-1) <> RtoC 0 /\ spectrum N sim0 (-1) 0 <> RtoC 0.
Proof. exact offsets_premises. Qed.

(** ** fit_shaped_pupil_mask_offsets *)

(** The same fit about the pupil as displaced by the shaped-pupil mask, with the unmasked image displaced likewise. *)
Theorem C81_value : forall lstsq rotate spline fuel rnd shift u m gain p xP yP d mag clock xS yS x y,
  is_lstsq_oracle lstsq -> wf (m_maskRef p) ->
  fit_shaped_pupil_mask_offsets shift lstsq rotate spline fuel rnd u m gain p xP yP d mag clock xS yS = Some (Ok (x, y)) ->
  exists au am, amplitude_of (shift u yS xS) (m_percentile p) au /\ amplitude_of m (m_percentile p) am /\
    repeated (mask_pass rotate spline au am gain (m_nPadFFT p) (m_nFocusCrop p) (m_nPhaseSteps p) (m_nIterInner p) (m_dPixel p)
      (m_maskRef p) (d * mag / m_diamHighRes p) clock (xP + xS) (yP + yS)) (Z.to_nat (m_nIterOuter p)) 0 0 x y.
Proof. exact shaped_ok. Qed.
Print Assumptions C81_value.
(** For a whole-pixel displacement it is the plain fit of the displaced image. *)
Theorem C81_whole_pixels : forall lstsq rotate spline fuel rnd shift u u' m g p xP yP d mag clock dy dx r,
  wf (m_maskRef p) -> whole_shift shift -> zero_fill_shift u 1 dy dx u' ->
  (fit_shaped_pupil_mask_offsets shift lstsq rotate spline fuel rnd u m g p xP yP d mag clock (IZR dx) (IZR dy) = Some (Ok r) <->
   fit_pupil_mask_offsets lstsq rotate spline fuel rnd u' m g p (xP + IZR dx) (yP + IZR dy) d mag clock = Some (Ok r)).
Proof. exact shaped_whole. Qed.
Print Assumptions C81_whole_pixels.
Theorem C81_brightness : forall lstsq rotate spline fuel rnd shift u m g p xP yP d mag clock xS yS s t r,
  wf (m_maskRef p) -> (0 < s)%R -> (0 < t)%R ->
  (forall a s dy dx, aeq (shift (amap (fun v => s * v)%R a) dy dx) (amap (fun v => s * v)%R (shift a dy dx))) ->
  fit_shaped_pupil_mask_offsets shift lstsq rotate spline fuel rnd u m g p xP yP d mag clock xS yS = Some (Ok r) ->
  fit_shaped_pupil_mask_offsets shift lstsq rotate spline fuel rnd (amap (fun v => s * v)%R u) (amap (fun v => t * v)%R m) g p xP yP d mag clock xS yS = Some (Ok r).
Proof. exact shaped_brightness. Qed.
Print Assumptions C81_brightness.
Theorem C81_rejects : forall lstsq rotate spline fuel rnd shift u m g p xP yP d mag clock xS yS,
  (~ (nr m = nr u /\ nc m = nc u) -> fit_shaped_pupil_mask_offsets shift lstsq rotate spline fuel rnd u m g p xP yP d mag clock xS yS = Some (Err ValueError)) /\
  (nr m = nr u -> nc m = nc u -> (g <= 0)%R \/ (d <= 0)%R \/ (mag <= 0)%R ->
   fit_shaped_pupil_mask_offsets shift lstsq rotate spline fuel rnd u m g p xP yP d mag clock xS yS = Some (Err TypeError)).
Proof. exact shaped_rejects. Qed.
Print Assumptions C81_rejects.
Example C81_example : forall lstsq fuel rnd, is_lstsq_oracle lstsq ->
  fit_shaped_pupil_mask_offsets (sp_shift scipy_ref) lstsq rotate_ref spline_ref fuel rnd (afull 7 7 1%R) (diag 7 0 0) 1 mask7 (-1) 0 1 1 0 1 0 = Some (Ok (1, 0)%R).
Proof. exact shaped_ex. Qed.

(** ** fit_z_induced_spm_shear: result (x, y) *)

(** The offset is what psffit finds between the two poke signatures. *)
Theorem C82_value : forall shift lstsq up small, is_lstsq_oracle lstsq -> is_unwrapper up -> is_remove_small small ->
  forall a0 u0 p0 a1 u1 p1 cfg x y, 2 <= nr a0 -> 2 <= nc a0 ->
  fit_z_induced_spm_shear shift lstsq up small a0 u0 p0 a1 u1 p1 cfg = Ok (x, y) ->
  exists s0 s1 amp, poke_signature a0 u0 p0 s0 /\ poke_signature a1 u1 p1 s1 /\ psffit shift s0 s1 cfg = Ok (y, x, amp).
Proof. exact shear_ok. Qed.
Print Assumptions C82_value.
(** When the pupil and the poke in it have moved by whole pixels, whatever tilt has been added, the offset is the
    movement. *)
Theorem C82_recovers : forall shift lstsq up small, is_lstsq_oracle lstsq -> is_unwrapper up -> is_remove_small small ->
  forall a0 u0 p0 a1 u1 p1 cfg k x y m0 m1 psi s dy dx e f g,
  fit_z_induced_spm_shear shift lstsq up small a0 u0 p0 a1 u1 p1 cfg = Ok (x, y) ->
  mask_used a0 a0 21 64 true None m0 -> mask_used a1 a1 21 64 true None m1 -> one_piece m0 -> moved_mask m0 dy dx m1 ->
  gentle m0 psi -> shows m0 u0 p0 psi ->
  let psi1 i j := (psi (i - dy)%Z (j - dx)%Z + plane_at e f g i j)%R in gentle m1 psi1 -> shows m1 u1 p1 psi1 ->
  flattened m0 psi s -> varies s ->
  read_config cfg = Ok k -> (exists N, 0 < N /\ upsample_factor k = IZR N) -> (pad_factor k <= IZR (nr a0))%R -> (pad_factor k <= IZR (nc a0))%R ->
  - nr a0 <= 2 * dy < nr a0 -> - nc a0 <= 2 * dx < nc a0 -> x = IZR dx /\ y = IZR dy.
Proof. exact shear_recovers. Qed.
Print Assumptions C82_recovers.
(** Phases present with and without the poke do not matter. *)
Theorem C82_screen : forall shift lstsq up small a0 u0 p0 a1 u1 p1 cfg c0 c1, nr a1 = nr a0 -> nc a1 = nc a0 ->
  fit_z_induced_spm_shear shift lstsq up small a0 (screen c0 u0) (screen c0 p0) a1 (screen c1 u1) (screen c1 p1) cfg =
  fit_z_induced_spm_shear shift lstsq up small a0 u0 p0 a1 u1 p1 cfg.
Proof. exact shear_screen. Qed.
Print Assumptions C82_screen.
(** Maps of one shape, with amplitudes that can be thresholded, have a result. *)
Theorem C82_defined : forall shift lstsq up small, is_lstsq_oracle lstsq -> is_unwrapper up -> is_remove_small small ->
  forall a0 u0 p0 a1 u1 p1 cfg k t0 t1, nr u0 = nr a0 -> nc u0 = nc a0 -> nr p0 = nr a0 -> nc p0 = nc a0 ->
  nr a1 = nr a0 -> nc a1 = nc a0 -> nr u1 = nr a0 -> nc u1 = nc a0 -> nr p1 = nr a0 -> nc p1 = nc a0 ->
  (forall i j, in_arr a0 i j -> (0 <= at2 a0 i j)%R) -> (forall i j, in_arr a1 i j -> (0 <= at2 a1 i j)%R) ->
  ampthresh a0 21 = Ok t0 -> ampthresh a1 21 = Ok t1 ->
  read_config cfg = Ok k -> (upsample_factor k = 1 \/ 0 < upsample_factor k * pad_factor k)%R ->
  exists x y, fit_z_induced_spm_shear shift lstsq up small a0 u0 p0 a1 u1 p1 cfg = Ok (x, y).
Proof. exact shear_defined. Qed.
Print Assumptions C82_defined.
(** The last phase map is compared with the first amplitude, so two sets of different shape are accepted only if the
    first has a single row or column. *)
Theorem C82_sizes : forall shift lstsq up small a0 u0 p0 a1 u1 p1 cfg x y,
  fit_z_induced_spm_shear shift lstsq up small a0 u0 p0 a1 u1 p1 cfg = Ok (x, y) ->
  (nr a1 = nr a0 \/ nr a0 = 1) /\ (nc a1 = nc a0 \/ nc a0 = 1).
Proof. exact shear_sizes. Qed.
Print Assumptions C82_sizes.
Theorem C82_rejects : forall shift lstsq up small a0 u0 p0 a1 u1 p1 cfg,
  same_shape u0 a0 = false \/ same_shape p0 a0 = false \/ same_shape u1 a1 = false \/ same_shape p1 a0 = false ->
  fit_z_induced_spm_shear shift lstsq up small a0 u0 p0 a1 u1 p1 cfg = Err ValueError.
Proof. exact shear_rejects. Qed.
Print Assumptions C82_rejects.
(** An 8 by 8 pupil and a poke of four pixels, moved by one column, with a tilt. *)
Example C82_example : forall lstsq, is_lstsq_oracle lstsq ->
  fit_z_induced_spm_shear (sp_shift scipy_ref) lstsq unwrap_ref small_ref (disk10 1) rest10 poked0 (disk10 2) rest10 poked1 cfg_ex = Ok (1, 0)%R.
Proof. exact shear_ex. Qed.

(** ** fit_lyot_stop_mag_clocking: result (magnification, clocking) *)

(** The first magnification is the root of a ratio of bright amplitudes; the lateral shift is found at that
    magnification, the clocking next, and then the magnification is searched. *)
Theorem C83_value : forall lstsq1 lstsq rotate spline, is_lstsq_oracle lstsq1 -> is_lstsq_oracle lstsq ->
  forall fuel rnd imageUnmasked imageMasked xPupil yPupil p mag clock, wf (l_maskRef p) ->
  fit_lyot_stop_mag_clocking lstsq1 lstsq rotate spline fuel rnd imageUnmasked imageMasked xPupil yPupil p = Some (Ok (mag, clock)) ->
  lyot_fit rotate spline fuel rnd imageUnmasked imageMasked xPupil yPupil p mag clock.
Proof. exact lyot_ok. Qed.
Print Assumptions C83_value.
(** The search determines the magnification. *)
Theorem C83_search_unique : forall (agree : R -> R -> Prop) w n, (forall m c c', agree m c -> agree m c' -> c = c') -> 3 <= n -> w <> 0%R ->
  forall k b c v v', mag_search agree w n k b c v -> mag_search agree w n k b c v' -> v = v'.
Proof. exact search_unique. Qed.
Print Assumptions C83_search_unique.
(** It ends on a trial magnification from which the counts fall off linearly. *)
Theorem C83_peak : forall g n count v k K, three_distinct (Vec n g) -> 0 <= k < n -> (0 < K)%R ->
  (forall i, 0 <= i < n -> count i = (count k - K * Rabs (g i - g k))%R) -> vertex_estimate g n count v -> v = g k.
Proof. exact vertex_cone. Qed.
Print Assumptions C83_peak.
(** Where all trials agree equally well it gives one, whatever the trials are. *)
Theorem C83_flat : forall g n count v, three_distinct (Vec n g) -> 0 < n ->
  (forall i j, 0 <= i < n -> 0 <= j < n -> count i = count j) -> vertex_estimate g n count v -> v = 1%R.
Proof. exact vertex_flat. Qed.
Print Assumptions C83_flat.
(** A common exposure factor does not matter. *)
Theorem C83_exposure : forall lstsq1 lstsq rotate spline fuel rnd imageUnmasked imageMasked xPupil yPupil p s r, wf (l_maskRef p) -> (0 < s)%R ->
  fit_lyot_stop_mag_clocking lstsq1 lstsq rotate spline fuel rnd imageUnmasked imageMasked xPupil yPupil p = Some (Ok r) ->
  fit_lyot_stop_mag_clocking lstsq1 lstsq rotate spline fuel rnd (amap (fun v => s * v)%R imageUnmasked) (amap (fun v => s * v)%R imageMasked)
    xPupil yPupil p = Some (Ok r).
Proof. exact lyot_exposure. Qed.
Print Assumptions C83_exposure.
Theorem C83_terminates : forall lstsq1 lstsq rotate spline rnd imageUnmasked imageMasked xPupil yPupil p, (forall v, rnd v = v) ->
  exists n, forall fuel, (n <= fuel)%nat ->
    fit_lyot_stop_mag_clocking lstsq1 lstsq rotate spline fuel rnd imageUnmasked imageMasked xPupil yPupil p <> None.
Proof. exact lyot_terminates. Qed.
Print Assumptions C83_terminates.
(** The first requirement that fails decides the exception. *)
Theorem C83_rejects : forall lstsq1 lstsq rotate spline fuel rnd imageUnmasked imageMasked xPupil yPupil p e,
  refused (lyot_needs imageUnmasked imageMasked p) e ->
  fit_lyot_stop_mag_clocking lstsq1 lstsq rotate spline fuel rnd imageUnmasked imageMasked xPupil yPupil p = Some (Err e).
Proof. exact lyot_rejects. Qed.
Print Assumptions C83_rejects.
(** A stop of two holes. *)
Example C83_example : forall lstsq1 lstsq, is_lstsq_oracle lstsq1 -> is_lstsq_oracle lstsq -> exists clock,
  fit_lyot_stop_mag_clocking lstsq1 lstsq rotate_ref spline_near 1 (fun x => x) pupil7 (diag 7 0 0) 0 0 lyot7 = Some (Ok (1%R, clock)).
Proof. exact lyot_ex. Qed.
