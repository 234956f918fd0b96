(** C90: complex masks. *)
From Coq Require Import ZArith Bool List String Reals Lra Lia.
From Coquelicot Require Import Complex.
From Verif.Base Require Import Py Arr Vec Sums CSum.
From Verif.Model Require Import Fits ThinFilm MaskGen MaskGenC.
From Verif.Spec Require Import MaskGenSpec.
From Verif.Proofs Require Import MaskGenP MaskGenR MaskGenEx MaskGenCP.
Import ListNotations.
Open Scope Z_scope.

(** A complex mask gives, for every argument and with the same exceptions, what its real part gives: the imaginary part is lost
    without a warning. *)
Theorem C90_real_part : forall rotate spline (a : arr C) rotDeg mag xo yo padFac flip,
  rotate_shift_downsample_complex rotate spline a rotDeg mag xo yo padFac flip =
  rotate_shift_downsample rotate spline (amap fst a) rotDeg mag xo yo padFac flip.
Proof. exact complex_real_part. Qed.
Print Assumptions C90_real_part.
(** In particular a mask with a phase is not reproduced at unit magnification. *)
Theorem C90_unit_refuted : ~ (forall rotate spline (a : arr C) out h H, good_spline spline -> wf a ->
  least_odd_above (1 * IZR (Z.max (nr a) (nc a))) (2 * h + 1) -> 4 <= 2 * h + 1 ->
  least_odd_above (IZR (2 * h + 1) + 2) (2 * H + 1) ->
  rotate_shift_downsample_complex rotate spline a 0 1 0 0 1 false = Ok out ->
  forall dy dx, - h <= dy <= h -> - h <= dx <= h -> in_arr a (nr a / 2 + dy) (nc a / 2 + dx) ->
   RtoC (at2 out (H + 1 + dy) (H + 1 + dx)) = at2 a (nr a / 2 + dy) (nc a / 2 + dx)).
Proof. exact complex_unit_refuted. Qed.
Print Assumptions C90_unit_refuted.
