(** C55: usable pixels; C56: the registration search; C71: clocking cost; C72: scale. *)
From Coq Require Import ZArith Bool List String Reals.
From Verif.Base Require Import Py Arr Vec Sums Lstsq.
From Verif.Model Require Import Fits PadCrop Dm Yaml DmReg.
From Verif.Spec Require Import FitsSpec DmSpec DarkHoleSpec PupilUtilSpec UnwrapSpec DmRegSpec.
From Verif.Proofs Require PupilUtilEx.
From Verif.Proofs Require Import DmRegP DmRegQ DmRegEx DmRegEy.
Import ListNotations.
Open Scope string_scope.
Open Scope Z_scope.

(** C55. A pixel is usable exactly when every pixel up to nErode rows and columns away is in the frame, in the
    amplitude mask, and has a phase change within the threshold once the best plane is removed. *)
Theorem C55_usable : forall lstsq amp0 ph0 amp1 ph1 dm d t e, is_lstsq_oracle lstsq ->
  calc_software_mask lstsq amp0 ph0 amp1 ph1 dm d t = Ok e ->
  exists m resid, ampthresh amp0 21 = Ok m /\ flattened m (fun i j => at2 ph1 i j - at2 ph0 i j)%R resid /\
    same_shape e amp0 = true /\
    forall i j, in_arr amp0 i j -> (at2 e i j = true <-> clear_around m resid t d i j).
Proof. exact mask_ok. Qed.
Print Assumptions C55_usable.
(** Exactly these inputs are accepted; all others raise ValueError. *)
Theorem C55_accepts : forall lstsq amp0 ph0 amp1 ph1 dm d t, is_lstsq_oracle lstsq ->
  (exists e, calc_software_mask lstsq amp0 ph0 amp1 ph1 dm d t = Ok e) <->
  same_shape amp0 ph0 = true /\ same_shape amp0 amp1 = true /\ same_shape amp0 ph1 = true /\ (dm = 1 \/ dm = 2) /\ 0 <= d /\ (0 < t)%R /\
  exists m, ampthresh amp0 21 = Ok m.
Proof. exact mask_accepts. Qed.
Print Assumptions C55_accepts.
Theorem C55_rejects : forall lstsq amp0 ph0 amp1 ph1 dm d t e, is_lstsq_oracle lstsq ->
  calc_software_mask lstsq amp0 ph0 amp1 ph1 dm d t = Err e -> e = ValueError.
Proof. exact mask_rejects. Qed.
Print Assumptions C55_rejects.
Example C55_case : forall d, 0 <= d ->
  exists e, calc_software_mask lstsq_ref (PupilUtilEx.pair5 2) (afull 5 5 0%R) (afull 5 5 0%R) (afull 5 5 0%R) 1 d 1 = Ok e.
Proof. exact mask_run. Qed.

(** C56. The search: rounds of translation passes on the misfit of the flattened wavefront, then clocking passes on
    the misfit of the bare surface, from the given offsets and the file's clocking. *)
Theorem C56_search : forall lstsq lstsq1 ops getdata amp0 ph0 amp1 ph1 usable k dV xo yo dmv fitv lam x y c,
  is_lstsq_oracle lstsq -> is_lstsq_oracle lstsq1 -> shape_preserving ops -> (forall v a, getdata v = Ok a -> wf a) ->
  calc_translation_clocking lstsq lstsq1 ops getdata amp0 ph0 amp1 ph1 usable k dV xo yo dmv fitv lam = Ok (x, y, c) ->
  maps_valid amp0 ph0 amp1 ph1 usable k dV lam /\
  exists p dm flip th dmrad meas F G,
    describes_fit fitv p /\ describes_dm getdata dmv k dm flip (Some th) /\
    volts_to_dmh (d_gain dm) dV lam = Ok dmrad /\ measured_phase lstsq ph0 ph1 usable meas /\
    (forall x y c, wavefront_misfit lstsq ops usable meas dmrad dm flip (nr amp0) (nc amp0) x y c (F x y c)) /\
    (forall x y c, surface_misfit ops usable meas dmrad dm flip (nr amp0) (nc amp0) x y c (G x y c)) /\
    rounds F G p (Z.to_nat (p_both p)) (p_omax p) xo yo th x y c.
Proof. exact tc_ok. Qed.
Print Assumptions C56_search.
(** A clocking pass with trial spacing s on costs that lie on a parabola at the trials moves by 1/s times the
    distance to the optimum C. *)
Theorem C56_pass : forall G n w s c0 c a C v, 3 <= n -> w <> 0%R -> (s <> 0)%R -> (a <> 0)%R ->
  (forall i, 0 <= i < n -> let t := (c0 + s * clock_angle w n i)%R in G t = (a * (t - C) ^ 2 + v)%R) ->
  clock_pass G n false w s c0 c -> c = (c0 + (C - c0) / s)%R.
Proof. exact clock_exact. Qed.
Print Assumptions C56_pass.
(** Hence later passes multiply the error by 1 - 1/shrink^i each. *)
Theorem C56_overshoot : forall G n nIter w s a C v, 3 <= n -> w <> 0%R -> (s <> 0)%R -> (a <> 0)%R ->
  (forall t, G t = (a * (t - C) ^ 2 + v)%R) ->
  forall k iter c0 c, (0 < iter)%nat -> clock_passes G n nIter w s iter k c0 c -> (c - C = (c0 - C) * overshoot s iter k)%R.
Proof. exact clock_overshoot. Qed.
Print Assumptions C56_overshoot.
(** The stated property, for a single pass and for an unshrunk search. Missing: two or more passes with a shrink
    factor below one, where it fails ([C56_converges_refuted]). *)
Theorem C56_single_pass_partial : forall G n w s c0 c a C v, 3 <= n -> w <> 0%R -> (a <> 0)%R ->
  (forall i, 0 <= i < n -> let t := (c0 + clock_angle w n i)%R in G t = (a * (t - C) ^ 2 + v)%R) ->
  clock_passes G n 1 w s 0 1 c0 c -> c = C.
Proof. exact clock_single. Qed.
Print Assumptions C56_single_pass_partial.
Theorem C56_unshrunk_partial : forall G n nIter w c0 c a C v, 3 <= n -> w <> 0%R -> (a <> 0)%R -> (1 <= nIter) ->
  (forall t, G t = (a * (t - C) ^ 2 + v)%R) -> clock_passes G n nIter w 1 0 (Z.to_nat nIter) c0 c -> c = C.
Proof. exact clock_unshrunk. Qed.
Print Assumptions C56_unshrunk_partial.
(** A complete run with two clocking passes and shrink factor 1/2: the misfit is a parabola in the clocking with
    its optimum at C, and the search returns C + 1/4. *)
Theorem C56_converges_refuted : exists lstsq lstsq1 ops getdata amp ph usable dV dmv fitv lam p dm dmrad meas C,
  is_lstsq_oracle lstsq /\ is_lstsq_oracle lstsq1 /\ shape_preserving ops /\ (forall v a, getdata v = Ok a -> wf a) /\
  describes_fit fitv p /\ describes_dm getdata dmv 1 dm false (Some 0%R) /\ volts_to_dmh (d_gain dm) dV lam = Ok dmrad /\
  measured_phase lstsq ph ph usable meas /\
  (forall x y t, surface_misfit ops usable meas dmrad dm false (nr amp) (nc amp) x y t ((1 + x ^ 2 + y ^ 2) * ((t - C) ^ 2 + 15 / 16))) /\
  calc_translation_clocking lstsq lstsq1 ops getdata amp ph amp ph usable 1 dV 0 0 dmv fitv lam = Ok (0%R, 0%R, (C + / 4)%R).
Proof. exact overshoots. Qed.
Print Assumptions C56_converges_refuted.
(** The same run with one clocking pass returns the optimum. *)
Example C56_case : calc_translation_clocking lstsq_ref lstsq_ref (ops_scale f4) getdata5 one3 zero3 one3 zero3 one3 1 poke5 0 0 dmv5 (fit5 1 1 1 (/ 2)) (2 * PI)
  = Ok (0, 0, / 4)%R.
Proof. exact run5_single. Qed.
(** A translation pass on costs that lie on a quadratic at the trials ends at its stationary point. *)
Theorem C56_translation : forall F n w x0 y0 x y a b c p q r, 3 <= n -> w <> 0%R ->
  (forall i j, 0 <= i < n -> 0 <= j < n -> let u := (x0 + clock_angle w n j)%R in let v := (y0 + clock_angle w n i)%R in F u v = quad2 a b c p q r u v) ->
  offset_pass F n false w x0 y0 x y -> stationary a b c p q x y.
Proof. exact offset_exact. Qed.
Print Assumptions C56_translation.

(** C71. Translation: data made by the simulated mirror plus a plane have zero misfit at the truth, the least possible. *)
Theorem C71_translation_truth : forall lstsq ops usable meas dmrad dm flip n m x y c v ph0 ph1 s, is_lstsq_oracle lstsq -> bool_mask usable ->
  same_shape s usable = true -> measured_phase lstsq ph0 ph1 usable meas ->
  simulated ops dm dmrad n m flip x y c s -> consistent_with ph0 ph1 usable s ->
  wavefront_misfit lstsq ops usable meas dmrad dm flip n m x y c v -> v = 0%R.
Proof. exact consistent_zero. Qed.
Print Assumptions C71_translation_truth.
Theorem C71_misfit_nonneg : forall usable a b v, (forall i j, in_arr usable i j -> (0 <= at2 usable i j)%R) -> l1 usable a b v -> (0 <= v)%R.
Proof. exact l1_nonneg. Qed.
Print Assumptions C71_misfit_nonneg.
(** Clocking: the surface is compared with the measured wavefront, without doubling or flattening. The truth still
    wins against any clocking whose surface is no larger in total, when the data need no flattening. Missing: the
    general case, which fails ([C71_clocking_refuted]). *)
Theorem C71_clocking_partial : forall ops usable meas dmrad dm flip n m x y c0 c s0 s v0 v, (forall i j, in_arr usable i j -> (0 <= at2 usable i j)%R) ->
  simulated ops dm dmrad n m flip x y c0 s0 -> simulated ops dm dmrad n m flip x y c s ->
  (forall i j, in_arr usable i j -> at2 usable i j <> 0%R -> at2 meas i j = (2 * at2 s0 i j)%R) ->
  (rsum2 (fun i j => at2 usable i j * Rabs (at2 s i j)) (nr usable) (nc usable) <= rsum2 (fun i j => at2 usable i j * Rabs (at2 s0 i j)) (nr usable) (nc usable))%R ->
  surface_misfit ops usable meas dmrad dm flip n m x y c0 v0 -> surface_misfit ops usable meas dmrad dm flip n m x y c v -> (v0 <= v)%R.
Proof. exact clock_truth. Qed.
Print Assumptions C71_clocking_partial.
Example C71_case : exists s0 s meas v0 v, simulated ops_turn dm5 bent5 1 5 false 0 0 0 s0 /\ simulated ops_turn dm5 bent5 1 5 false 0 0 180 s /\
  (forall i j, in_arr one15 i j -> at2 one15 i j <> 0%R -> at2 meas i j = (2 * at2 s0 i j)%R) /\
  (rsum2 (fun i j => at2 one15 i j * Rabs (at2 s i j)) (nr one15) (nc one15) <= rsum2 (fun i j => at2 one15 i j * Rabs (at2 s0 i j)) (nr one15) (nc one15))%R /\
  surface_misfit ops_turn one15 meas bent5 dm5 false 1 5 0 0 0 v0 /\ surface_misfit ops_turn one15 meas bent5 dm5 false 1 5 0 0 180 v /\ (v0 < v)%R.
Proof. exact turn_truth_case. Qed.
(** Data consistent with clocking 0, wavefront misfit 0 there, and yet a half turn has the smaller clocking misfit. *)
Theorem C71_clocking_refuted : forall lstsq, is_lstsq_oracle lstsq -> exists s meas v v',
  simulated ops_turn dm5 bent5 1 5 false 0 0 0 s /\ consistent_with zero15 kink15 one15 s /\
  measured_phase lstsq zero15 kink15 one15 meas /\
  wavefront_misfit lstsq ops_turn one15 meas bent5 dm5 false 1 5 0 0 0 0 /\
  surface_misfit ops_turn one15 meas bent5 dm5 false 1 5 0 0 0 v /\
  surface_misfit ops_turn one15 meas bent5 dm5 false 1 5 0 0 180 v' /\ (v' < v)%R.
Proof. exact half_turn_better. Qed.
Print Assumptions C71_clocking_refuted.
Example C71_turn_is_valid : interpolates ops_turn /\ shape_preserving ops_turn /\ linear_ops ops_turn /\ still ops_turn.
Proof. exact ops_turn_ok. Qed.

(** C72. The scale search: passes over factors of the file's scales, on the misfit of the flattened wavefront. *)
Theorem C72_search : forall lstsq ops getdata amp0 ph0 amp1 ph1 usable k dV dmv fitv lam xo yo cl cx cy,
  is_lstsq_oracle lstsq -> shape_preserving ops -> (forall v a, getdata v = Ok a -> wf a) ->
  calc_scale lstsq ops getdata amp0 ph0 amp1 ph1 usable k dV dmv fitv lam xo yo cl = Ok (cx, cy) ->
  maps_valid amp0 ph0 amp1 ph1 usable k dV lam /\
  exists m n nIter s dm dmrad meas F sx sy,
    has_real fitv "maxDeltaScaleFac" m /\ has_int fitv "nScale" n /\ 0 < n /\ has_int fitv "nIter" nIter /\ 0 < nIter /\
    has_real fitv "shrinkFac" s /\ (0 < s <= 1)%R /\
    describes_dm getdata dmv k dm false None /\
    volts_to_dmh (d_gain dm) dV lam = Ok dmrad /\ measured_phase lstsq ph0 ph1 usable meas /\
    scale_passes (fun sx sy => scale_misfit lstsq ops usable meas dmrad dm (nr amp0) (nc amp0) xo yo cl sx sy (F sx sy)) F n s (1 <? nIter)
      (Z.to_nat nIter) m 1 1 sx sy /\
    cx = (sx * d_cx dm)%R /\ cy = (sy * d_cy dm)%R.
Proof. exact scale_ok. Qed.
Print Assumptions C72_search.
(** A pass on costs that lie on a quadratic at the trials ends at its stationary point. *)
Theorem C72_exact : forall (D : R -> R -> Prop) F n m sx sy sx' sy' a b c p q r, 3 <= n -> m <> 0%R -> sx <> 0%R -> sy <> 0%R ->
  (forall i j, 0 <= i < n -> 0 <= j < n -> let u := ((1 - m + 2 * m * IZR j / (IZR n - 1)) * sx)%R in
     let v := ((1 - m + 2 * m * IZR i / (IZR n - 1)) * sy)%R in F u v = quad2 a b c p q r u v) ->
  scale_pass D F n false m sx sy sx' sy' -> stationary a b c p q sx' sy'.
Proof. exact scale_exact. Qed.
Print Assumptions C72_exact.
(** On square images the misfit is that of the mirror with the trial scales and no flip. Missing: other images and
    flipped mirrors, where it is not ([C72_misfit_refuted]). *)
Theorem C72_misfit_square_partial : forall lstsq ops usable meas dmrad dm n x y cl sx sy v, is_lstsq_oracle lstsq -> bool_mask usable -> shape_preserving ops -> wf (d_inf dm) ->
  nr usable = n -> nc usable = n ->
  scale_misfit lstsq ops usable meas dmrad dm n n x y cl sx sy v ->
  wavefront_misfit lstsq ops usable meas dmrad (DmData (d_gain dm) (d_inf dm) (d_nact dm) (d_ppd dm) (sx * d_cx dm)%R (sy * d_cy dm)%R) false n n x y cl v.
Proof. exact scale_square. Qed.
Print Assumptions C72_misfit_square_partial.
(** On a 1 by 5 image, data consistent with the file's own scales have a positive misfit at those scales. *)
Theorem C72_misfit_refuted : forall lstsq, is_lstsq_oracle lstsq -> exists s meas v,
  simulated ops_turn dm5 bent5 1 5 false 0 0 0 s /\ consistent_with zero15 kink15 one15 s /\
  measured_phase lstsq zero15 kink15 one15 meas /\
  scale_misfit lstsq ops_turn one15 meas bent5 dm5 1 5 0 0 0 1 1 v /\ (0 < v)%R.
Proof. exact scale_wrong. Qed.
Print Assumptions C72_misfit_refuted.
Example C72_case : calc_scale lstsq_ref ops_bump getdata5 one3 zero3 one3 zero3 one3 2 poke5 dmvs fits (2 * PI) 0 0 0 = Ok (21 / 25, 19 / 25)%R.
Proof. exact run_scale. Qed.
