(** Terms used to state what the focal-mask measurements do in double precision. *)
From Coq Require Import ZArith Bool Reals List.
From Flocq Require Import Core BinarySingleNaN.
From Verif.Base Require Import Py Arr Sums F64.
From Verif.Model Require Import ShapesF FocalFitF.
Import ListNotations.
Open Scope R_scope.

(** A way of adding up the terms of a list, given by their positions. *)
Inductive plan := Nothing | Term (k : nat) | Plus (a b : plan).
Fixpoint carry_out (p : plan) (l : list f64) : f64 :=
  match p with
  | Nothing => fzero
  | Term k => nth k l fzero
  | Plus a b => fadd (carry_out a l) (carry_out b l)
  end.
(** The order of the additions depends on the number of terms only. *)
Definition by_plan (np_sum : list f64 -> f64) : Prop :=
  exists p : nat -> plan, forall l, np_sum l = carry_out (p (length l)) l.

(** An image of photon counts: at most 2^40 pixels, each dark or at least one count. *)
Definition photon_counts (a : arr f64) : Prop :=
  (0 < nr a)%Z /\ (1 < nc a)%Z /\ (nr a * nc a <= 2 ^ 40)%Z /\
  forall i j, in_arr a i j -> is_finite (at2 a i j) = true /\ (fval (at2 a i j) = 0 \/ 1 <= fval (at2 a i j) <= bpow radix2 350).
(** A positive double of ordinary size. *)
Definition ordinary (x : f64) : Prop := is_finite x = true /\ bpow radix2 (-100) <= fval x <= bpow radix2 100.
(** Tuning parameters as documented, of ordinary size. *)
Definition spots_parameters (t : spots_tuning) : Prop :=
  ordinary (f_sep t) /\ ordinary (f_radius t) /\ (1 <= f_ns t <= 2 ^ 26)%Z /\ ordinary (f_max t) /\ ordinary (f_c1 t) /\ ordinary (f_c2 t) /\
  (f_power t = 1 \/ f_power t = 2)%Z /\ (f_inside t = 0 \/ f_inside t = 1)%Z.
Definition bowtie_parameters (t : bowtie_tuning_f) : Prop :=
  ordinary (g_sep t) /\ ordinary (g_radius t) /\ (1 <= g_ns t <= 2 ^ 26)%Z /\ ordinary (g_max t) /\ ordinary (g_c1x t) /\ ordinary (g_c2x t) /\
  ordinary (g_c1y t) /\ ordinary (g_c2y t) /\ ordinary (g_tx t) /\ ordinary (g_ty t).

(** An angle in degrees as the radians the code computes. *)
Definition in_radians (degrees : f64) : f64 := fmul (fdiv fpi (fofZ 180)) degrees.
(** The region of interest around the point at distance [sep] and angle [a] from the star. *)
Definition region_at (fcos fsin : f64 -> f64) (nx ny : Z) (radius xo yo sep a : f64) (ns : Z) (m : arr f64) : Prop :=
  circle_f nx ny radius (fadd (fmul (fcos a) sep) xo) (fadd (fmul (fsin a) sep) yo) ns false = Ok m.
(** The same for the bowtie mask, with the parameters of its tuning file. *)
Definition bowtie_region (fcos fsin : f64 -> f64) (a : arr f64) (xo yo : f64) (t : bowtie_tuning_f) (sep ang : f64) (m : arr f64) : Prop :=
  circle_f (nc a) (nr a) (g_radius t) (fadd (fmul sep (fcos ang)) xo) (fadd (fmul sep (fsin ang)) yo) (g_ns t) false = Ok m.
(** Some pixel of the image is nan or plus infinity. *)
Definition bad_pixel (a : arr f64) : Prop :=
  exists i j, in_arr a i j /\ (fisnan (at2 a i j) = true \/ at2 a i j = B754_infinity false).
(** [b] is nowhere fainter than [a] on the pixels of the region [m]. *)
Definition brighter_on (m a b : arr f64) : Prop :=
  forall i j, in_arr a i j -> fval (at2 m i j) <> 0 -> fval (at2 a i j) <= fval (at2 b i j).
(** The light of the image in the region. *)
Definition light (np_sum : list f64 -> f64) (m a : arr f64) : f64 :=
  np_sum (map (fun p => fmul (at2 m (fst p) (snd p)) (at2 a (fst p) (snd p))) (indices (nr a) (nc a))).
(** The same parameters with another largest step. *)
Definition with_limit (t : spots_tuning) (v : f64) : spots_tuning :=
  SpotsTuning (f_sep t) (f_radius t) (f_ns t) v (f_c1 t) (f_c2 t) (f_power t) (f_inside t).
Definition with_limit_g (t : bowtie_tuning_f) (v : f64) : bowtie_tuning_f :=
  BowtieF (g_sep t) (g_rot t) (g_extra t) (g_radius t) (g_ns t) v (g_c1x t) (g_c2x t) (g_c1y t) (g_c2y t) (g_tx t) (g_ty t).
(** The offset [x] that the calibration polynomial 1 + c1 |x| + c2 x^2 assigns to the ratio [r]: negative for ratios below one. *)
Definition calibrated (c1 c2 r x : R) : Prop :=
  (0 <= x /\ r = 1 + c1 * x + c2 * x ^ 2) \/ (x < 0 /\ 1 / r = 1 + c1 * - x + c2 * x ^ 2).
(** A finite positive ratio. *)
Definition positive_ratio (r : f64) : Prop := is_finite r = true /\ bpow radix2 (-460) <= fval r <= bpow radix2 460.
