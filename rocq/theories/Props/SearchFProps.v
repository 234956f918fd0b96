(** C97: the trial grids of the searches, in double precision. *)
From Coq Require Import ZArith Reals Bool Lia Lra.
From Flocq Require Import Core BinarySingleNaN.
From Verif.Base Require Import F64.
From Verif.Model Require Import ShapesF SearchF.
From Verif.Spec Require Import SearchFSpec.
From Verif.Proofs Require Import F64P SearchFP SearchFEx.
Open Scope R_scope.

(** C97. Full claim: the positions tried by a search are evenly spaced and symmetric about the current estimate, which is
    one of them when their number is odd. *)

(** calc_star_location_from_spots and calc_spot_separation: with an odd number of steps the current estimate is tried. *)
Theorem C97_estimate_tried k step est : moderate step -> moderate est -> (0 <= k < 2 ^ 49)%Z ->
  fval (steps_f (2 * k + 1) step est k) = fval est /\ is_finite (steps_f (2 * k + 1) step est k) = true.
Proof. exact (steps_middle k step est). Qed.
Print Assumptions C97_estimate_tried.
Theorem C97_steps_ordered n step est i j : moderate step -> moderate est -> 0 <= fval step -> (0 <= i <= j)%Z -> (j < n <= 2 ^ 50)%Z ->
  fval (steps_f n step est i) <= fval (steps_f n step est j).
Proof. exact (steps_ordered n step est i j). Qed.
Print Assumptions C97_steps_ordered.
Theorem C97_steps_near n step est i : moderate step -> moderate est -> bpow radix2 (-1000) <= fval step ->
  (0 <= i < n)%Z -> (n <= 2 ^ 50)%Z ->
  Rabs (fval (steps_f n step est i) - centred n (fval step) (fval est) i) <= bpow radix2 (-50) * (IZR n * fval step + Rabs (fval est)).
Proof. exact (steps_near n step est i). Qed.
Print Assumptions C97_steps_near.
(** Steps and estimates that are short binary fractions give exactly the evenly spaced grid. Missing for symmetry: other
    steps, where it is false (C97_symmetric_refuted). *)
Theorem C97_steps_exact_partial t n step est i : (0 <= t <= 900)%Z -> moderate step -> moderate est ->
  coarse_step t n step -> coarse_step t 1 est -> (0 <= i < n)%Z -> (n <= 2 ^ 50)%Z ->
  fval (steps_f n step est i) = centred n (fval step) (fval est) i.
Proof. exact (steps_exact t n step est i). Qed.
Print Assumptions C97_steps_exact_partial.
(** Five steps of a tenth about an offset of zero. *)
Theorem C97_symmetric_refuted : ~ (forall n step i, moderate step -> (0 <= i < n)%Z -> Z.odd n = true -> (n <= 2 ^ 50)%Z ->
  fval (steps_f n step (fofZ 0) i) = - fval (steps_f n step (fofZ 0) (n - 1 - i))).
Proof. intros H. apply steps_lopsided. exact (H 5%Z tenth 1%Z (proj1 moderate_tenth) ltac:(lia) eq_refl ltac:(lia)). Qed.
Print Assumptions C97_symmetric_refuted.

(** compute_clocking and the registration searches: the range is covered from end to end, in order. *)
Theorem C97_range_ends n limit : moderate limit -> bpow radix2 (-900) <= fval limit -> (2 <= n <= 2 ^ 50)%Z ->
  fval (range_f n limit 0) = - fval limit /\ fval (range_f n limit (n - 1)) = fval limit.
Proof. intros W P H. split; [exact (range_first n limit W P H)|rewrite (range_last n limit H); reflexivity]. Qed.
Print Assumptions C97_range_ends.
(** One value is the lower end, not the middle. *)
Theorem C97_range_single limit : moderate limit -> fval (range_f 1 limit 0) = - fval limit.
Proof. exact (range_one limit). Qed.
Print Assumptions C97_range_single.
Theorem C97_range_ordered n limit i j : moderate limit -> bpow radix2 (-900) <= fval limit -> (2 <= n <= 2 ^ 50)%Z ->
  (0 <= i <= j)%Z -> (j < n)%Z -> fval (range_f n limit i) <= fval (range_f n limit j).
Proof. intros W P H. exact (range_ordered n limit W P H i j). Qed.
Print Assumptions C97_range_ordered.
Theorem C97_range_near n limit i : moderate limit -> bpow radix2 (-900) <= fval limit -> (2 <= n <= 2 ^ 50)%Z -> (0 <= i < n)%Z ->
  Rabs (fval (range_f n limit i) - spread n (fval limit) i) <= bpow radix2 (-50) * fval limit.
Proof. intros W P H. exact (range_near n limit W P H i). Qed.
Print Assumptions C97_range_near.
(** Zero is tried when the number of values is one more than a power of two. Missing: other odd numbers, where it may be
    missed (C97_zero_tried_refuted). *)
Theorem C97_zero_tried_partial m limit : moderate limit -> bpow radix2 (-900) <= fval limit -> (1 <= m <= 49)%Z ->
  fval (range_f (2 ^ m + 1) limit (2 ^ (m - 1))) = 0.
Proof. exact (range_middle m limit). Qed.
Print Assumptions C97_zero_tried_partial.
(** Twenty-three values from minus to plus a tenth. *)
Theorem C97_zero_tried_refuted : ~ (forall k limit, moderate limit -> bpow radix2 (-900) <= fval limit -> (1 <= k < 2 ^ 49)%Z ->
  fval (range_f (2 * k + 1) limit k) = 0).
Proof. intros H. apply range_misses_zero. exact (H 11%Z tenth (proj1 moderate_tenth) (proj2 moderate_tenth) ltac:(lia)). Qed.
Print Assumptions C97_zero_tried_refuted.

(** fit_lyot_stop_mag_clocking: magnifications are tried in order, with the current one where the range has its zero. *)
Theorem C97_shrunk_ordered n est shrink limit i j : moderate est -> is_finite shrink = true -> 0 <= fval shrink <= 1 ->
  moderate limit -> bpow radix2 (-900) <= fval limit -> (2 <= n <= 2 ^ 50)%Z -> (0 <= i <= j)%Z -> (j < n)%Z ->
  fval (shrunk_f n est shrink limit i) <= fval (shrunk_f n est shrink limit j).
Proof.
  intros We F [P L] Wa Pa Hn. apply shrunk_ordered; auto. split; auto. rewrite Rabs_pos_eq by auto. exact L.
Qed.
Print Assumptions C97_shrunk_ordered.
Theorem C97_shrunk_estimate_partial m est shrink limit : moderate est -> is_finite shrink = true -> 0 <= fval shrink <= 1 ->
  moderate limit -> bpow radix2 (-900) <= fval limit -> (1 <= m <= 49)%Z ->
  fval (shrunk_f (2 ^ m + 1) est shrink limit (2 ^ (m - 1))) = fval est.
Proof.
  intros We F [P L] Wa Pa Hm.
  assert (H2 : (2 ^ m = 2 * 2 ^ (m - 1))%Z) by (replace m with (1 + (m - 1))%Z at 1 by lia; rewrite Z.pow_add_r by lia; reflexivity).
  assert (H3 : (1 <= 2 ^ (m - 1))%Z) by (pose proof (Z.pow_pos_nonneg 2 (m - 1)); lia).
  assert (H4 : (2 ^ m <= 2 ^ 49)%Z) by (apply Z.pow_le_mono_r; lia).
  apply shrunk_middle; auto; try lia; [|apply range_middle; auto].
  split; auto. rewrite Rabs_pos_eq by auto. exact L.
Qed.
Print Assumptions C97_shrunk_estimate_partial.

Example C97_ex : moderate tenth /\ moderate (fofZ 3) /\ bpow radix2 (-900) <= fval tenth /\ bpow radix2 (-1000) <= fval tenth /\
  coarse_step 0 5 (fofZ 3) /\ fval (steps_f 5 (fofZ 3) (fofZ 0) 1) = -3.
Proof.
  destruct moderate_tenth as [M T]. destruct (moderate_int 3 ltac:(lia)) as [M3 V3]. destruct (moderate_int 0 ltac:(lia)) as [M0 V0].
  split; [exact M|]. split; [exact M3|]. split; [exact T|]. split; [eapply Rle_trans; [apply bpow_le|exact T]; lia|].
  assert (C3 : coarse_step 0 5 (fofZ 3)) by (exists 3%Z; split; [apply M3|split; [rewrite V3; cbn; lra|lia]]).
  split; [exact C3|].
  rewrite (C97_steps_exact_partial 0 5 (fofZ 3) (fofZ 0) 1); auto; try lia.
  - rewrite V3, V0. unfold centred. cbn. lra.
  - exists 0%Z. split; [apply M0|split; [rewrite V0; cbn; lra|lia]].
Qed.
