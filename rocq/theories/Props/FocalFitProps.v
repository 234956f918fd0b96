(** C41, C42, C62: focal-mask offsets from satellite spots. *)
From Coq Require Import ZArith Bool List String Reals Lra Lia.
From Verif.Base Require Import Py Arr.
From Verif.Model Require Import Yaml DarkHole FocalFit.
From Verif.Spec Require Import ShapesSpec DarkHoleSpec FocalFitSpec.
From Verif.Proofs Require Import FocalFitP.
Import ListNotations.
Open Scope string_scope.
Open Scope R_scope.

(** ** C41 estimators *)
Theorem C41_bound_value : forall v m,
  (0 <= m -> (forall x, v = Fin x -> exists y, bound_value v m = Ok (Fin y) /\ - m <= y <= m /\
      (- m <= x <= m -> y = x) /\ (m < x -> y = m) /\ (x < - m -> y = - m)) /\
     (v = PInf -> bound_value v m = Ok (Fin m)) /\ (v = NInf -> bound_value v m = Ok (Fin (- m))) /\ (v = NaN -> bound_value v m = Ok NaN)) /\
  (m < 0 -> bound_value v m = Err ValueError).
Proof. exact bound_spec. Qed.
Print Assumptions C41_bound_value.
Theorem C41_quadratic_inverts : forall c1 c2 r, 0 < c1 -> 0 < c2 -> 0 < r ->
  exists d, offset_quadratic c1 c2 r = Ok (Fin d) /\ response c1 c2 d r.
Proof. exact quadratic_ok. Qed.
Print Assumptions C41_quadratic_inverts.
Theorem C41_linear_inverts : forall c1 r, 0 < c1 -> 0 < r -> exists d, offset_linear c1 r = Ok (Fin d) /\ response c1 0 d r.
Proof. exact linear_ok. Qed.
Print Assumptions C41_linear_inverts.
Theorem C41_quadratic_antisymmetric : forall c1 c2 r d, 0 < c1 -> 0 < c2 -> 0 < r -> offset_quadratic c1 c2 r = Ok (Fin d) ->
  offset_quadratic c1 c2 (/ r) = Ok (Fin (- d)).
Proof. exact quadratic_mirror. Qed.
Print Assumptions C41_quadratic_antisymmetric.
Theorem C41_linear_antisymmetric : forall c1 r d, 0 < c1 -> 0 < r -> offset_linear c1 r = Ok (Fin d) -> offset_linear c1 (/ r) = Ok (Fin (- d)).
Proof. exact linear_mirror. Qed.
Print Assumptions C41_linear_antisymmetric.
Theorem C41_quadratic_increasing : forall c1 c2 r r' d d', 0 < c1 -> 0 < c2 -> 0 < r -> 0 < r' ->
  offset_quadratic c1 c2 r = Ok (Fin d) -> offset_quadratic c1 c2 r' = Ok (Fin d') -> (r < r' <-> d < d').
Proof. exact quadratic_increasing. Qed.
Print Assumptions C41_quadratic_increasing.
Theorem C41_linear_increasing : forall c1 r r' d d', 0 < c1 -> 0 < r -> 0 < r' ->
  offset_linear c1 r = Ok (Fin d) -> offset_linear c1 r' = Ok (Fin d') -> (r < r' <-> d < d').
Proof. exact linear_increasing. Qed.
Print Assumptions C41_linear_increasing.
Theorem C41_zero_at_one : forall c1 c2 r d, 0 < c1 -> 0 < r ->
  (0 < c2 -> offset_quadratic c1 c2 r = Ok (Fin d) -> (d = 0 <-> r = 1)) /\ (offset_linear c1 r = Ok (Fin d) -> (d = 0 <-> r = 1)).
Proof. exact offset_zero. Qed.
Print Assumptions C41_zero_at_one.
Theorem C41_bad_ratio : forall c1 c2 r, r <= 0 -> offset_quadratic c1 c2 r = Err ValueError /\ offset_linear c1 r = Err ValueError.
Proof. exact offset_bad_ratio. Qed.
Print Assumptions C41_bad_ratio.
(** The documented positivity of the coefficients is not enforced. *)
Theorem C41_unchecked_coefficients : forall r, 0 < r -> (forall c1, 0 < c1 -> offset_quadratic c1 0 r = Ok NaN) /\
  (forall c2, c2 < 0 -> r <> 1 -> offset_quadratic 0 c2 r = Ok NaN) /\ offset_linear 0 r = Err ZeroDivisionError.
Proof. exact unchecked_coefficients. Qed.
Print Assumptions C41_unchecked_coefficients.
Example C41_ex : offset_quadratic 1 1 3 = Ok (Fin 1) /\ offset_linear 2 3 = Ok (Fin 1) /\ offset_linear 2 (/ 3) = Ok (Fin (-1)).
Proof.
  split; [apply quadratic_val; try lra; left; lra|]. split; [apply linear_val; try lra; left; lra|].
  replace (-1) with (- (1)) by ring. apply linear_mirror; try lra. apply linear_val; try lra. left. lra.
Qed.

(** ** C42 one pair of spots *)
Theorem C42_estimate : forall img rot xo yo tv gv t ratio, describes_tuning tv t -> describes_target gv ratio ->
  (1 < nc img)%Z -> (0 < nr img)%Z ->
  exists vp vm d0 dt, spot img (t_radius t) xo yo (t_sep t) (deg rot) (t_sub t) vp /\
   spot img (t_radius t) xo yo (t_sep t) (deg rot + PI) (t_sub t) vm /\
   response (t_c1 t) (t_quad t) d0 (vp / vm) /\ response (t_c1 t) (t_quad t) dt ratio /\
   calc_offset_from_spots img rot xo yo tv gv = Ok (Fin (side (t_inside t) * clamp_abs (t_max t) (d0 - dt))).
Proof. exact spots_ok. Qed.
Print Assumptions C42_estimate.
Theorem C42_bounded : forall img rot xo yo tv gv out m, calc_offset_from_spots img rot xo yo tv gv = Ok out -> has_real tv "maxStep" m ->
  exists o, out = Fin o /\ - m <= o <= m.
Proof. exact spots_bounded. Qed.
Print Assumptions C42_bounded.
Theorem C42_sign : forall img rot xo yo tv gv t ratio vp vm o, describes_tuning tv t -> describes_target gv ratio ->
  spot img (t_radius t) xo yo (t_sep t) (deg rot) (t_sub t) vp ->
  spot img (t_radius t) xo yo (t_sep t) (deg rot + PI) (t_sub t) vm ->
  calc_offset_from_spots img rot xo yo tv gv = Ok (Fin o) ->
  (o = 0 <-> vp / vm = ratio) /\
  (t_inside t = true -> (0 < o <-> ratio < vp / vm) /\ (o < 0 <-> vp / vm < ratio)) /\
  (t_inside t = false -> (o < 0 <-> ratio < vp / vm) /\ (0 < o <-> vp / vm < ratio)).
Proof. exact spots_sign. Qed.
Print Assumptions C42_sign.
Theorem C42_reversed_axis : forall img rot xo yo tv gv t o, describes_tuning tv t -> describes_target gv 1 ->
  calc_offset_from_spots img rot xo yo tv gv = Ok (Fin o) -> calc_offset_from_spots img (rot + 180) xo yo tv gv = Ok (Fin (- o)).
Proof. exact spots_reversed. Qed.
Print Assumptions C42_reversed_axis.
Theorem C42_only_valid_files : forall img rot xo yo tv gv out, calc_offset_from_spots img rot xo yo tv gv = Ok out ->
  exists t ratio, describes_tuning tv t /\ describes_target gv ratio /\ (1 < nc img)%Z /\ (0 < nr img)%Z.
Proof. exact spots_inv. Qed.
Print Assumptions C42_only_valid_files.
Definition ex_tuning : yval := YDict [("spotSepPix", YReal (65/10)); ("roiRadiusPix", YInt 2); ("nSubpixels", YInt 11);
  ("maxStep", YReal (3/2)); ("fitCoefPow1", YReal (1/2)); ("fitCoefPow2", YInt 1); ("powerOfFit", YInt 2); ("maskIsInsideSpots", YInt 0)].
Definition ex_target : yval := YDict [("targetRatio", YReal (11/10))].
Ltac find_entry := repeat (first [apply entry_here | apply entry_later; [discriminate|]]).
Ltac find_key := eexists; split; [eexists; split; [reflexivity|find_entry]|constructor].
Example C42_ex : describes_tuning ex_tuning (Tuning (65/10) 2 11 (3/2) (1/2) 1 2 false) /\ describes_target ex_target (11/10).
Proof. unfold describes_tuning, describes_target, ex_tuning, ex_target. cbn. repeat split; try lra; try lia; find_key. Qed.

(** ** C62 bowtie mask *)
Theorem C62_bowtie_estimate : forall img xo yo tv t, describes_bowtie tv t -> (1 < nc img)%Z -> (0 < nr img)%Z ->
  exists v1 v2 v3 v4 dx dxt dy dyt,
   let sp a v := spot img (b_radius t) xo yo (b_sep t) a (b_sub t) v in
   sp (deg (b_extra t) + deg (b_rot t)) v1 /\ sp (deg (b_extra t) - deg (b_rot t) + PI) v2 /\
   sp (deg (b_extra t) + deg (b_rot t) + PI) v3 /\ sp (deg (b_extra t) - deg (b_rot t)) v4 /\
   response (b_c1x t) (b_c2x t) dx ((v1 + v4) / (v2 + v3)) /\ response (b_c1x t) (b_c2x t) dxt (b_tx t) /\
   response (b_c1y t) (b_c2y t) dy ((v1 + v2) / (v3 + v4)) /\ response (b_c1y t) (b_c2y t) dyt (b_ty t) /\
   calc_bowtie_offsets img xo yo tv = Ok (Fin (- clamp_abs (b_max t) (dx - dxt)), Fin (- clamp_abs (b_max t) (dy - dyt))).
Proof. exact bowtie_ok. Qed.
Print Assumptions C62_bowtie_estimate.
Theorem C62_bowtie_sign : forall img xo yo tv t ox oy v1 v2 v3 v4, describes_bowtie tv t -> calc_bowtie_offsets img xo yo tv = Ok (ox, oy) ->
  let sp a v := spot img (b_radius t) xo yo (b_sep t) a (b_sub t) v in
  sp (deg (b_extra t) + deg (b_rot t)) v1 -> sp (deg (b_extra t) - deg (b_rot t) + PI) v2 ->
  sp (deg (b_extra t) + deg (b_rot t) + PI) v3 -> sp (deg (b_extra t) - deg (b_rot t)) v4 ->
  exists x y, ox = Fin x /\ oy = Fin y /\ - b_max t <= x <= b_max t /\ - b_max t <= y <= b_max t /\
   (x = 0 <-> (v1 + v4) / (v2 + v3) = b_tx t) /\ (x < 0 <-> b_tx t < (v1 + v4) / (v2 + v3)) /\
   (y = 0 <-> (v1 + v2) / (v3 + v4) = b_ty t) /\ (y < 0 <-> b_ty t < (v1 + v2) / (v3 + v4)).
Proof. exact bowtie_props. Qed.
Print Assumptions C62_bowtie_sign.
Theorem C62_only_valid_files : forall img xo yo tv o, calc_bowtie_offsets img xo yo tv = Ok o ->
  exists t, describes_bowtie tv t /\ (1 < nc img)%Z /\ (0 < nr img)%Z.
Proof. exact bowtie_inv. Qed.
Print Assumptions C62_only_valid_files.
Definition ex_bowtie : yval := YDict [("spotSepPix", YReal (65/10)); ("spotRotDeg", YInt 30); ("spotExtraRotDeg", YInt 90); ("roiRadiusPix", YInt 2);
  ("nSubpixels", YInt 11); ("maxStep", YReal (3/2)); ("fitCoefPow1x", YReal (1/2)); ("fitCoefPow2x", YInt 1); ("fitCoefPow1y", YReal (1/3));
  ("fitCoefPow2y", YInt 2); ("xRatioTarget", YInt 1); ("yRatioTarget", YReal (11/10))].
Example C62_ex : describes_bowtie ex_bowtie (BowtieTuning (65/10) 30 90 2 11 (3/2) (1/2) 1 (1/3) 2 1 (11/10)).
Proof. unfold describes_bowtie, ex_bowtie. cbn. repeat split; try lra; try lia; find_key. Qed.
