(** Property C104: the focal-mask measurements in double precision. *)
From Coq Require Import ZArith Reals Bool List Lia Lra.
From Flocq Require Import Core BinarySingleNaN.
From Verif.Base Require Import Py Arr Sums F64.
From Verif.Model Require Import ShapesF FocalFitF.
From Verif.Spec Require Import BrightFSpec FocalFitFSpec.
From Verif.Proofs Require Import F64P FocalFitFQ FocalFitFT FocalFitFU FocalFitFV FocalFitFEx.
Import ListNotations.
Local Open Scope R_scope.

(** C104. One nan or saturated (infinite) pixel anywhere in the image, inside the regions or not, and every offset that is
    returned is nan: a bad frame is never reported as a measurement. *)
Theorem C104_bad_pixel_spots : forall np_sum fcos fsin a rot xo yo t target out, sums_up np_sum -> bad_pixel a -> (f_ns t <= 2 ^ 26)%Z ->
  calc_offset_from_spots_f np_sum fcos fsin a rot xo yo t target = Ok out -> out = fnan.
Proof. exact spots_bad. Qed.
Print Assumptions C104_bad_pixel_spots.
Theorem C104_bad_pixel_bowtie : forall np_sum fcos fsin a xo yo t ox oy, sums_up np_sum -> bad_pixel a -> (g_ns t <= 2 ^ 26)%Z ->
  calc_bowtie_offsets_f np_sum fcos fsin a xo yo t = Ok (ox, oy) -> ox = fnan /\ oy = fnan.
Proof. exact bowtie_bad. Qed.
Print Assumptions C104_bad_pixel_bowtie.
(** C104. Whatever the image and the parameters, a result that is not nan does not exceed the largest step, without any
    rounding slack. *)
Theorem C104_bounded_spots : forall np_sum fcos fsin a rot xo yo t target out, fisnan (f_max t) = false ->
  calc_offset_from_spots_f np_sum fcos fsin a rot xo yo t target = Ok out -> fisnan out = false ->
  fle (fopp (f_max t)) out = true /\ fle out (f_max t) = true.
Proof. exact spots_range. Qed.
Print Assumptions C104_bounded_spots.
Theorem C104_bounded_bowtie : forall np_sum fcos fsin a xo yo t ox oy, fisnan (g_max t) = false ->
  calc_bowtie_offsets_f np_sum fcos fsin a xo yo t = Ok (ox, oy) ->
  (fisnan ox = false -> fle (fopp (g_max t)) ox = true /\ fle ox (g_max t) = true) /\
  (fisnan oy = false -> fle (fopp (g_max t)) oy = true /\ fle oy (g_max t) = true).
Proof. exact bowtie_range. Qed.
Print Assumptions C104_bounded_bowtie.
(** C104. An image of photon counts and parameters of ordinary size always give finite offsets. *)
Theorem C104_measures_spots : forall np_sum fcos fsin rot xo yo t target, sums_up np_sum -> spots_parameters t -> ordinary target ->
  forall a, photon_counts a -> exists out, calc_offset_from_spots_f np_sum fcos fsin a rot xo yo t target = Ok out /\ is_finite out = true /\
  - fval (f_max t) <= fval out <= fval (f_max t).
Proof. exact spots_total. Qed.
Print Assumptions C104_measures_spots.
Theorem C104_measures_bowtie : forall np_sum fcos fsin xo yo t, sums_up np_sum -> bowtie_parameters t ->
  forall a, photon_counts a -> exists ox oy, calc_bowtie_offsets_f np_sum fcos fsin a xo yo t = Ok (ox, oy) /\
  is_finite ox = true /\ is_finite oy = true /\ - fval (g_max t) <= fval ox <= fval (g_max t) /\ - fval (g_max t) <= fval oy <= fval (g_max t).
Proof. exact bowtie_total. Qed.
Print Assumptions C104_measures_bowtie.
(** C104. The sign is right, and the offset is zero on target: when both regions hold light, rounding never turns a ratio
    on one side of the target into an offset of the other sign. *)
Theorem C104_sign : forall np_sum fcos fsin rot xo yo t target, sums_up np_sum -> spots_parameters t -> ordinary target ->
  forall a plus minus out, photon_counts a ->
  region_at fcos fsin (nc a) (nr a) (f_radius t) xo yo (f_sep t) (in_radians rot) (f_ns t) plus ->
  region_at fcos fsin (nc a) (nr a) (f_radius t) xo yo (f_sep t) (fadd (in_radians rot) fpi) (f_ns t) minus ->
  fval (light np_sum plus a) <> 0 -> fval (light np_sum minus a) <> 0 ->
  calc_offset_from_spots_f np_sum fcos fsin a rot xo yo t target = Ok out ->
  let ratio := fval (fdiv (light np_sum plus a) (light np_sum minus a)) in
  (f_inside t = 1%Z -> (fval target <= ratio -> 0 <= fval out) /\ (ratio <= fval target -> fval out <= 0)) /\
  (f_inside t = 0%Z -> (fval target <= ratio -> fval out <= 0) /\ (ratio <= fval target -> 0 <= fval out)).
Proof. exact spots_signs. Qed.
Print Assumptions C104_sign.
(** C104. More light in the positive region and less in the negative one never moves the estimate the wrong way, not even
    by one unit in the last place, although every product, sum, quotient and root is rounded. *)
Theorem C104_monotone_spots : forall np_sum fcos fsin rot xo yo t target, sums_up np_sum -> spots_parameters t -> ordinary target -> by_plan np_sum ->
  forall a a' plus minus out out', photon_counts a -> photon_counts a' -> nr a = nr a' -> nc a = nc a' ->
  region_at fcos fsin (nc a) (nr a) (f_radius t) xo yo (f_sep t) (in_radians rot) (f_ns t) plus ->
  region_at fcos fsin (nc a) (nr a) (f_radius t) xo yo (f_sep t) (fadd (in_radians rot) fpi) (f_ns t) minus ->
  brighter_on plus a a' -> brighter_on minus a' a ->
  calc_offset_from_spots_f np_sum fcos fsin a rot xo yo t target = Ok out -> calc_offset_from_spots_f np_sum fcos fsin a' rot xo yo t target = Ok out' ->
  (f_inside t = 1%Z -> fval out <= fval out') /\ (f_inside t = 0%Z -> fval out' <= fval out).
Proof. exact spots_mono. Qed.
Print Assumptions C104_monotone_spots.
Theorem C104_monotone_bowtie : forall np_sum fcos fsin xo yo t, sums_up np_sum -> bowtie_parameters t -> by_plan np_sum ->
  forall a a' q1 q2 q3 q4 ox oy ox' oy', photon_counts a -> photon_counts a' -> nr a = nr a' -> nc a = nc a' ->
  let rot := in_radians (g_rot t) in let clk := in_radians (g_extra t) in
  bowtie_region fcos fsin a xo yo t (g_sep t) (fadd rot clk) q1 ->
  bowtie_region fcos fsin a xo yo t (fopp (g_sep t)) (fadd (fopp rot) clk) q2 ->
  bowtie_region fcos fsin a xo yo t (fopp (g_sep t)) (fadd rot clk) q3 -> bowtie_region fcos fsin a xo yo t (g_sep t) (fadd (fopp rot) clk) q4 ->
  calc_bowtie_offsets_f np_sum fcos fsin a xo yo t = Ok (ox, oy) -> calc_bowtie_offsets_f np_sum fcos fsin a' xo yo t = Ok (ox', oy') ->
  (brighter_on q1 a a' -> brighter_on q4 a a' -> brighter_on q2 a' a -> brighter_on q3 a' a -> fval ox' <= fval ox) /\
  (brighter_on q1 a a' -> brighter_on q2 a a' -> brighter_on q3 a' a -> brighter_on q4 a' a -> fval oy' <= fval oy).
Proof. exact bowtie_mono. Qed.
Print Assumptions C104_monotone_bowtie.
(** C104. Photon counts are needed: in an image in other units a region may hold less light than the 2^-52 given to a dark
    one. Raising a pixel of the positive region from 0 to 2^-60 moves this estimate down by almost 2^60. *)
Theorem C104_dim_light : let r v := calc_offset_from_spots_f sum_left ex_cos ex_sin (ex_image v (fofZ 1)) fzero fzero fzero ex_dim (fofZ 1) in
  exists o o', r fzero = Ok o /\ r (fdiv (fofZ 1) (fofZ (2 ^ 60))) = Ok o' /\ fval o' < fval o /\ fval o = - (2 ^ 52 - 1) /\ fval o' = - 2 ^ 60.
Proof. exact dim_light. Qed.
Print Assumptions C104_dim_light.

(** C104. The rounded offset is the one the calibration polynomial assigns to the ratio, up to a few units in the last place of
    the offset and of the two lengths 1/c1 and c1/c2 that the coefficients define. *)
Theorem C104_accuracy_linear : forall c1 r x, ordinary c1 -> positive_ratio r -> calibrated (fval c1) 0 (fval r) x ->
  exists v, offset_linear_f c1 r = Ok v /\ near v x (bpow radix2 (-50) * (Rabs x + / fval c1)).
Proof. exact linear_accuracy. Qed.
Print Assumptions C104_accuracy_linear.
Theorem C104_accuracy_quadratic : forall c1 c2 r x, ordinary c1 -> ordinary c2 -> positive_ratio r -> calibrated (fval c1) (fval c2) (fval r) x ->
  exists v, offset_quadratic_f c1 c2 r = Ok v /\ near v x (bpow radix2 (-49) * (Rabs x + / fval c1 + fval c1 / fval c2)).
Proof. exact quadratic_accuracy. Qed.
Print Assumptions C104_accuracy_quadratic.
(** C104. A largest step of nan, as YAML can hold, is accepted and is no limit: the result is that of an infinite one. *)
Theorem C104_nan_limit_spots : forall np_sum fcos fsin a rot xo yo t v target, fisnan v = true ->
  calc_offset_from_spots_f np_sum fcos fsin a rot xo yo (with_limit t v) target =
  calc_offset_from_spots_f np_sum fcos fsin a rot xo yo (with_limit t (B754_infinity false)) target.
Proof. exact spots_no_limit. Qed.
Print Assumptions C104_nan_limit_spots.
Theorem C104_nan_limit_bowtie : forall np_sum fcos fsin a xo yo t v, fisnan v = true ->
  calc_bowtie_offsets_f np_sum fcos fsin a xo yo (with_limit_g t v) =
  calc_bowtie_offsets_f np_sum fcos fsin a xo yo (with_limit_g t (B754_infinity false)).
Proof. exact bowtie_no_limit. Qed.
Print Assumptions C104_nan_limit_bowtie.

(** A left-to-right sum, trigonometric functions exact at 0 and pi, an image and parameters the theorems apply to. *)
Example C104_ex_sum : sums_up sum_left /\ by_plan sum_left.
Proof. exact sum_left_ok. Qed.
Example C104_ex_counts : photon_counts (ex_image (fofZ 5) (fofZ 3)) /\ spots_parameters ex_tuning /\ ordinary (fofZ 1) /\ bowtie_parameters ex_bowtie.
Proof. exact ex_ok. Qed.
Example C104_ex_runs : exists o p x y, calc_offset_from_spots_f sum_left ex_cos ex_sin (ex_image (fofZ 5) (fofZ 3)) fzero fzero fzero ex_tuning (fofZ 1) = Ok o /\
  calc_offset_from_spots_f sum_left ex_cos ex_sin (ex_image (fofZ 5) (fofZ 2)) fzero fzero fzero ex_tuning (fofZ 1) = Ok p /\
  calc_bowtie_offsets_f sum_left ex_cos ex_sin (ex_image (fofZ 5) (fofZ 3)) fzero fzero ex_bowtie = Ok (x, y) /\
  0 < fval o /\ fval o < fval p /\ fval x < 0 /\ fval y = 0.
Proof. exact ex_runs. Qed.
Example C104_ex_bad : bad_pixel (ex_image fnan (fofZ 3)) /\
  calc_offset_from_spots_f sum_left ex_cos ex_sin (ex_image fnan (fofZ 3)) fzero fzero fzero ex_tuning (fofZ 1) = Ok fnan.
Proof. exact ex_bad. Qed.
Example C104_ex_no_limit : exists o, calc_offset_from_spots_f sum_left ex_cos ex_sin (ex_image (fofZ 1) (fofZ (2 ^ 80))) fzero fzero fzero (with_limit ex_dim fnan) (fofZ 1) = Ok o /\
  fval o < - 2 ^ 79.
Proof. exact ex_no_limit. Qed.
Example C104_ex_accuracy : ordinary (fofZ 1) /\ ordinary (fofZ 3) /\ positive_ratio (fofZ 15) /\ calibrated (fval (fofZ 1)) (fval (fofZ 3)) (fval (fofZ 15)) 2.
Proof. exact ex_accuracy. Qed.
